#!/usr/bin/env python3
"""Regenerate MANIFEST.json and rocq/_CoqProject from the theories and tools/notes.json.

notes.json: {"Cnn": {"status": ..., "note": ...}}.  Theorem names are every `Theorem Cnn_...` in theories/*Props.v.
"""
import json, re, glob, os
root = os.path.dirname(os.path.dirname(os.path.abspath(__file__)))
notes = json.load(open(root + "/tools/notes.json"))
props = [json.loads(l) for l in open(root + "/properties.jsonl")]
thms = {}
for f in sorted(glob.glob(root + "/rocq/theories/*.v")):
    for m in re.finditer(r"^Theorem\s+((C\d+)_\w+)", open(f).read(), re.M):
        thms.setdefault(m.group(2), []).append(m.group(1))
claims = []
for p in props:
    i = p["id"]
    if i in notes and i in thms:
        claims.append({"property": i, "status": notes[i]["status"], "theorems": thms[i], "note": notes[i]["note"]})
    elif i in notes or i in thms:
        print("WARNING: incomplete entry", i)
json.dump({"claims": claims}, open(root + "/MANIFEST.json", "w"), indent=1)
files = sorted("theories/" + os.path.basename(f) for f in glob.glob(root + "/rocq/theories/*.v"))
open(root + "/rocq/_CoqProject", "w").write("-Q theories Verif\n" + "".join(f + "\n" for f in files))
print(len(claims), "claims;", sum(len(c["theorems"]) for c in claims), "theorems;", len(files), "files; missing:",
      " ".join(p["id"] for p in props if p["id"] not in [c["property"] for c in claims]))
