#!/usr/bin/env python3
"""Writes DESIGN.md from tools/design_head.md, properties.jsonl, MANIFEST.json and tools/assumptions.json."""
import json,os,re
os.chdir(os.path.dirname(os.path.abspath(__file__))+'/..')
P=[json.loads(l) for l in open('properties.jsonl')]
M={c['property']:c for c in json.load(open('MANIFEST.json'))['claims']}
A=json.load(open('tools/assumptions.json'))
files={}
for f in sorted(os.listdir('rocq/theories')):
    if 'Props' in f and f.endswith('.v'):
        for i in set(re.findall(r'^(?:Theorem|Lemma|Corollary)\s+(C\d+)',open('rocq/theories/'+f).read(),re.M)): files.setdefault(i,[]).append(f)
o=[open('tools/design_head.md').read()]
for p in P:
    i=p['id']; c=M.get(i,{}); th=c.get('theorems',[])
    o.append(f"### {i} {p['title']} – {c.get('status','')}\n")
    o.append(f"Theorems: `{', '.join(files.get(i,[]))}`. Source: "+', '.join(a.replace('include/zensim/','') for a in p['anchors'])+'.')
    r=[t for t in th if t.endswith('_refuted')]
    if r: o.append('Refuted: '+', '.join(f'`{t}`' for t in r)+'.')
    if c.get('note'): o.append(c['note'])
    o.append('')
o.append('## Print Assumptions\n')
short={'FunctionalExtensionality.functional_extensionality_dep':'functional_extensionality_dep'}
for k,l in sorted(A,key=lambda x:len(x[0])):
    if not k:
        o.append(f'Closed under the global context ({len(l)} theorems): all theorems of the properties '+', '.join(sorted(set(t[:3] for t in l)))+' except those listed below.\n')
    else:
        o.append(', '.join(f'`{x}`' for x in k)+f' ({len(l)} theorems):\n')
        o.append(', '.join(f'`{t}`' for t in l)+'.\n')
open('DESIGN.md','w').write('\n'.join(o))
