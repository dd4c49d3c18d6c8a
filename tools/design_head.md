# A Rocq model of zpc

Source modelled: `/repo` (zenustech/zpc, pinned commit), read as text. Paths below are relative to
`/repo/include/zensim/` unless they start with `/` or `include/`.

This file is put together by `tools/design.py` from `tools/design_head.md` (this text), `properties.jsonl`, `MANIFEST.json` and
`tools/assumptions.json` (the output of `Print Assumptions` for every theorem).

## Layout

For a component `X`, in `rocq/theories/`:

* `XModel.v` – executable Gallina transcription of the code. Every definition cites file and lines. No proofs.
* `XSpec.v` – the small independent specification used in theorem statements (sometimes just stdlib notions,
  then there is no file).
* `XProofs*.v` – lemmas.
* `XProps.v` – the property theorems (`Cnn_...`), each followed by `Print Assumptions`, and beside them `Example`s showing
  that the hypotheses are met by a concrete case.

Naming: `Cnn_...` the property (or one conjunct of it); `Cnn_..._partial` a proved part of a property whose full
statement is not proved; `Cnn_..._refuted` a proof that the full statement is FALSE of the faithful model, with a
concrete witness (or a whole family of them) – a finding about the code.

`Prelude.v` holds list and arithmetic lemmas. `FieldTac.v` and `NraTac.v` are tactics for mathcomp fields; `NraTac.v` proves the soundness of
the micromega certificate checker for an arbitrary mathcomp `realFieldType`, so nothing is added to the trusted base.

## Trusted base

* Coq 8.16.1 kernel (and `coqchk`). Proofs use `vm_compute`, so the kernel's virtual machine is included; `native_compute` is not used.
* Axioms: only those of the standard library, and only in the properties listed under "Print Assumptions" at the end of this file.
  No axiom is added by this development, no kernel check is switched off, and no functor or module type is defined.
* Libraries used: mathcomp 1.x (`Mat Cpx Rot Newt Cg Cr Svd Eig Dist Als`) with the `zify` instances shipped for it, Flocq (`Pred`), Coquelicot
  (proofs of `Cm`, `Ci`), `Coq.micromega.EnvRing` as a verified polynomial normaliser (`Dg`, `Pf`). Some checkers list sealed module
  constants of mathcomp or of the standard library (`Definition`s hidden behind a module type: for instance
  `matrix.matrix_key`, `bigop.BigOp.bigop`, `Rdefinitions.RbaseSymbolsImpl`) as axiom-like; they have bodies and `Print Assumptions` does not list them.
* The correspondence between the C++ text and the model: definitions cite the lines they transcribe; simplifications
  are written in the comment of the definition.
* Concurrent models are interleavings of atomic actions (sequential consistency): one shared read, write or
  read-modify-write per step. The weak-memory behaviour of the relaxed atomics and of non-atomic volatile accesses is not modelled.
* Floating point is modelled only in `Pred` (C79: binary64 rounding by Flocq, without overflow, infinities and NaN). All other numeric
  kernels are modelled in exact arithmetic: over Z, Q, words mod 2^n, abstract rings, fields or real closed fields (mathcomp), the reals, or an
  abstract ordered carrier. Where a branch of the code exists because of NaN or division by zero the model has an explicit outcome for it.
* CUDA, MUSA, SYCL back ends, memory-space transfers, JIT, Vulkan, I/O and the build system are not modelled.
* C++ template instantiation / type-trait dispatch is not modelled: the instantiated algorithm is. Where an instantiation cannot compile this is
  noted below as a remark, not proved.

## Conventions

* Undefined behaviour (out of range access, null dereference, shift by the width, division by zero) is a distinct
  outcome (`None` or an explicit error constructor) and theorems show that it is not reached under the stated precondition.
* Machine integers are unbounded unless the property is about wrap-around; then `mod 2^w` is explicit.
* Loops are structural recursion, folds, or fuelled recursion whose out-of-fuel result is a distinct value that the
  theorems exclude.
* Things the code is parametric in (operators, comparators, hash functions, kernels, an SVD) are closed section variables and so are universally
  quantified in the theorems.
* Wrong programs: `seeded/LOG.jsonl` lists realistic edits of the model and the theorems they break.

## How the models were built and what is proved by which method

| components | representation | method |
|----|-------|--------|
| `Bits Hash Mask Agrid` | words as N/Z with explicit masks | `testbit` characterisation, xorshift inversion, codecs bit by bit |
| `Ring Str Uptr Alloc Vmem Vector Tile Callbacks Own Fn Cmap` | state machines over explicit buffers, owners and logs | invariants and refinement by induction over histories |
| `Collapse Scan Sort Radix It` | array programs, iterators as states | inductions on dimension, passes, chunks; parallel phases for every schedule and thread count |
| `Atomic Bht BhtLock Uf Park Mutex Tq Bkt Flow BvhQ (refit)` | interleaving machines with one shared access per step | inductive invariants, linearisation histories, step bounds |
| `Rb` | heap of nodes with parent/child links, the pointer code 1:1 | red-black shape and order on the heap, refinement to sorted association lists |
| `Bcht HashTable Sh` | probe sequences, buckets, cells over Z | invariants; failing probes refuted |
| `Bvh BvhQ Bvs Bvtt` | the arrays of the tree and the loops over them | Karras ranges = preorder of a full binary tree; stackless traversals by induction over the tree |
| `Spm SpmBuild Spmv Count Color` | arrays with parallel loops in any order | sums over permuted accumulation orders; round induction |
| `Rat` | Z with overflow outcome | arithmetic |
| `Kern Mpm Sg Agh` | Q, grids as functions or block tables | exact rational identities, conservation sums, hierarchy invariants |
| `Mat Cpx Rot Newt Cg Cr Svd Eig Dist Als` | mathcomp matrices over rings, fields, real closed fields | matrix algebra, Cholesky-free orthogonality arguments, minimisation over simplices |
| `Pred` | Flocq binary64 rounding | error-free transformations, expansion invariants |
| `Cm Ci Pl Col Fric Dih` | Reals | derivatives (`derivable_pt_lim`, Coquelicot), limits, yield surfaces |
| `Dg Pf` | generated straight-line code over a scalar record, instantiated at R and at expression trees | formal derivative (`dd_correct`) + normal forms checked by `vm_compute` |
| `Pd` | Reals and cells | separation invariant, termination measure |
| `Pcg` | Z modulo 2^64 | number theory of the congruential generator |
| `Prob` | Reals | inversion and limits of the samplers |
| `Idx` | lists of extents and indices | mixed radix, permutations |
| `Mu` | Z with overflow outcomes | loop invariants, witnesses at the type limits |
| `Sr` | Z with overflow outcomes | refinement of exact semirings with an infinite element |
| `Mn` | Reals, flat arrays, operations in any order | sums over permuted additions |
| `Rd` | Reals, generator as an arbitrary stream | rejection loops with fuel, first accepted attempt |
| `Lit Vs` | character and value lists | structural induction |
| `Dv` | shared memory of places, degrees of freedom numbered by entry and component | induction over launches with disjoint footprints, for every order |
| `Vt` | numbered alternatives, compile-time recursion | nested induction over arguments and alternatives |
| `Ld` | block table as map and numbering, orders of every scattered loop as parameters | invariant (numbering consistent), induction on layers |
| `Le` | rounds with a fuel, reachability as an inductive predicate | invariant (expanded blocks closed), counting for the end and the reserve |
| `Tv` | coordinates as lists, views as prefix and base | induction on coordinates, reduction to the indexer of `Idx` |
| `Sl` | table as a partial map of block coordinates, exact rationals, index space | digits of the cell number, reduction to the arenas of `Kern`, induction on dimensions |
| `Lw` | matrices over any field, any dimension; polar decomposition as an argument | invariant of the five matrices under every motion, block matrices |
| `Lc`, `Lb` | exact rationals per direction; matrices over any ordered field | characterisation of floor, choice of the corner by the signs of a column |
| `Sw` | homogeneous block matrices over any field, any dimension | affine matrices closed under motions, simulation between level set and grid |
| `Hp` | as `HashTable`, reinsertion as a loop over the active keys | simulation of reinsertion by insertion with the counter set back |
| `Df` | run-time shapes as lists, checked accesses | induction on dimensions, division by the sizes of sub-arrays |
| `Cp` | numbered variables, heap with deleted objects, illegal uses as an outcome | ownership invariant, simulation by variables holding values |
| `Io` | interleaving machine, one shared access per step, spurious wake-ups as a parameter | inductive invariant, a closed set of states for the hang, witness executions |
| `Cv` | interleaving machine, one shared access per step | inductive invariants, witness executions |

## Remarks on the code not stated as theorems

Found while transcribing; they concern instantiations that do not compile or parts outside the model.

* `maximum_flow`: `auto &params = zs::make_tuple(...)` binds a temporary to a non-const reference; `_buildSuccess` of the edge table is never checked; source = sink never returns.
* `zs::function::swap` overwrites its own storage with the other's before it is saved, and its calls `swap(a, b)` find the one-argument member, so it does not compile.
* `complex`: `pow(complex, int)` does not compile. Quaternions: `quaternionMultiply` and `quaternionConjugateMultiply` do not compile (`x()…w()` are not const).
* `ConjugateResidual`/`ConjugateGradient` contain `getchar()` calls; `MinRes` does not compile.
* `LBvs::build` cannot be instantiated with the sequential or OpenMP policy (radix sort of floats), point queries use `bv._max`.
* `getNormal` of `Cuboid` and `Cylinder` does not compile, so colliders over them do not either. `LevelSetBoundary` has no behaviour.
* `SparseMatrix::transposeFrom` between opposite layouts compares pointers of different types. The constructor leaves `_ptrs` with two entries.
* `global_coord_to_local_offset` of the sparse grid cannot be instantiated. `view(tagNames, …)` of the adaptive grid ignores `tagNames`.
* `LocalArena`: `lerp_degree` and weights are wrong or unset for the delta kernels.
* `first_piola_derivative` of 1x1 deformation gradients does not compile; `mohrColumbFriction` takes the sine of degrees; `col(F, 2)` is read for dimensions below 3.
* Several distance functions keep `float` locals, truncating double inputs.
* `range(begin, end)` over index types narrower than int does not compile (begin and end become int). `chunk_view` keeps a reference to its range: a temporary range dangles.
* `VariantTaskExecutor` checks the visitor on rvalues of the alternatives but calls it on lvalues: a visitor taking `T &` counts as not callable.
* `extend_level_set_domain(pol, ls, sdf)` sets the mark of a new cell before its averaged properties: another thread that sees the mark may average values not yet written.
* `AssociativePlasticity`: `while (!residual.norm() < 1e-6)` compares a negated boolean.

## Parts of the library not modelled

Device back ends (`cuda/`, `musa/`, `sycl/`), JIT and Python bindings, Vulkan, I/O (`io/` except the job queue of `IO.h`, VDB, meshes), `Resource`/`MemoryResource` transfers, profiling and timers, adaptive-grid accessors and restructuring, sparse level sets beyond `refit`/`extend_level_set_domain`, placement and index-space sampling, flood fill, `P2C2G`/`G2C2P`, `orient3dadapt` and
`scale_expansion`, associative plasticity, `VonMisesCapped::project_strain` with a strain rate, `HashTable::preserve`, coroutines, reflection, signals, `zs::tuple` and other compile-time utilities,
Morton-code quantisation of positions, `setDistanceByPpc` and the data file of the Poisson sampler.

## Properties

