# A Rocq model of zpc

Source modelled: `/repo` (zenustech/zpc, pinned commit), read as text. Paths below are relative to
`/repo/include/zensim/` unless they start with `/` or `include/`.

This file is put together by `tools/design.py` from `tools/design_head.md` (this text), `properties.jsonl`, `MANIFEST.json` and
`tools/assumptions.json` (the output of `Print Assumptions` for every theorem).

## Layout

For a component `X`, in `rocq/theories/`:

* `XModel.v` – executable Gallina transcription of the code. Every definition cites file and lines. No proofs.
* `XSpec.v` – the small independent specification used in theorem statements (sometimes just stdlib notions,
  then there is no file).
* `XProofs*.v` – lemmas.
* `XProps.v` – the property theorems (`Cnn_...`), each followed by `Print Assumptions`, and beside them `Example`s showing
  that the hypotheses are met by a concrete case.

Naming: `Cnn_...` the property (or one conjunct of it); `Cnn_..._partial` a proved part of a property whose full
statement is not proved; `Cnn_..._refuted` a proof that the full statement is FALSE of the faithful model, with a
concrete witness (or a whole family of them) – a finding about the code.

`Prelude.v` holds list and arithmetic lemmas. `FieldTac.v` and `NraTac.v` are tactics for mathcomp fields; `NraTac.v` proves the soundness of
the micromega certificate checker for an arbitrary mathcomp `realFieldType`, so nothing is added to the trusted base.

## Trusted base

* Coq 8.16.1 kernel (and `coqchk`). Proofs use `vm_compute`, so the kernel's virtual machine is included; `native_compute` is not used.
* Axioms: only those of the standard library, and only in the properties listed under "Print Assumptions" at the end of this file.
  No axiom is added by this development, no kernel check is switched off, and no functor or module type is defined.
* Libraries used: mathcomp 1.x (`Mat Cpx Rot Newt Cg Cr Svd Eig Dist Als`) with the `zify` instances shipped for it, Flocq (`Pred`), Coquelicot
  (proofs of `Cm`, `Ci`), `Coq.micromega.EnvRing` as a verified polynomial normaliser (`Dg`, `Pf`). Some checkers list sealed module
  constants of mathcomp or of the standard library (`Definition`s hidden behind a module type: for instance
  `matrix.matrix_key`, `bigop.BigOp.bigop`, `Rdefinitions.RbaseSymbolsImpl`) as axiom-like; they have bodies and `Print Assumptions` does not list them.
* The correspondence between the C++ text and the model: definitions cite the lines they transcribe; simplifications
  are written in the comment of the definition.
* Concurrent models are interleavings of atomic actions (sequential consistency): one shared read, write or
  read-modify-write per step. The weak-memory behaviour of the relaxed atomics and of non-atomic volatile accesses is not modelled.
* Floating point is modelled only in `Pred` (C79: binary64 rounding by Flocq, without overflow, infinities and NaN). All other numeric
  kernels are modelled in exact arithmetic: over Z, Q, words mod 2^n, abstract rings, fields or real closed fields (mathcomp), the reals, or an
  abstract ordered carrier. Where a branch of the code exists because of NaN or division by zero the model has an explicit outcome for it.
* CUDA, MUSA, SYCL back ends, memory-space transfers, JIT, Vulkan, I/O and the build system are not modelled.
* C++ template instantiation / type-trait dispatch is not modelled: the instantiated algorithm is. Where an instantiation cannot compile this is
  noted below as a remark, not proved.

## Conventions

* Undefined behaviour (out of range access, null dereference, shift by the width, division by zero) is a distinct
  outcome (`None` or an explicit error constructor) and theorems show that it is not reached under the stated precondition.
* Machine integers are unbounded unless the property is about wrap-around; then `mod 2^w` is explicit.
* Loops are structural recursion, folds, or fuelled recursion whose out-of-fuel result is a distinct value that the
  theorems exclude.
* Things the code is parametric in (operators, comparators, hash functions, kernels, an SVD) are closed section variables and so are universally
  quantified in the theorems.
* Wrong programs: `seeded/LOG.jsonl` lists realistic edits of the model and the theorems they break.

## How the models were built and what is proved by which method

| components | representation | method |
|----|-------|--------|
| `Bits Hash Mask Agrid` | words as N/Z with explicit masks | `testbit` characterisation, xorshift inversion, codecs bit by bit |
| `Ring Str Uptr Alloc Vmem Vector Tile Callbacks Own Fn Cmap` | state machines over explicit buffers, owners and logs | invariants and refinement by induction over histories |
| `Collapse Scan Sort Radix It` | array programs, iterators as states | inductions on dimension, passes, chunks; parallel phases for every schedule and thread count |
| `Atomic Bht BhtLock Uf Park Mutex Tq Bkt Flow BvhQ (refit)` | interleaving machines with one shared access per step | inductive invariants, linearisation histories, step bounds |
| `Rb` | heap of nodes with parent/child links, the pointer code 1:1 | red-black shape and order on the heap, refinement to sorted association lists |
| `Bcht HashTable Sh` | probe sequences, buckets, cells over Z | invariants; failing probes refuted |
| `Bvh BvhQ Bvs Bvtt` | the arrays of the tree and the loops over them | Karras ranges = preorder of a full binary tree; stackless traversals by induction over the tree |
| `Spm SpmBuild Spmv Count Color` | arrays with parallel loops in any order | sums over permuted accumulation orders; round induction |
| `Rat` | Z with overflow outcome | arithmetic |
| `Kern Mpm Sg Agh` | Q, grids as functions or block tables | exact rational identities, conservation sums, hierarchy invariants |
| `Mat Cpx Rot Newt Cg Cr Svd Eig Dist Als` | mathcomp matrices over rings, fields, real closed fields | matrix algebra, Cholesky-free orthogonality arguments, minimisation over simplices |
| `Pred` | Flocq binary64 rounding | error-free transformations, expansion invariants |
| `Cm Ci Pl Col Fric Dih` | Reals | derivatives (`derivable_pt_lim`, Coquelicot), limits, yield surfaces |
| `Dg Pf` | generated straight-line code over a scalar record, instantiated at R and at expression trees | formal derivative (`dd_correct`) + normal forms checked by `vm_compute` |
| `Pd` | Reals and cells | separation invariant, termination measure |
| `Pcg` | Z modulo 2^64 | number theory of the congruential generator |
| `Prob` | Reals | inversion and limits of the samplers |
| `Idx` | lists of extents and indices | mixed radix, permutations |
| `Mu` | Z with overflow outcomes | loop invariants, witnesses at the type limits |
| `Sr` | Z with overflow outcomes | refinement of exact semirings with an infinite element |
| `Mn` | Reals, flat arrays, operations in any order | sums over permuted additions |
| `Rd` | Reals, generator as an arbitrary stream | rejection loops with fuel, first accepted attempt |
| `Lit Vs` | character and value lists | structural induction |
| `Dv` | shared memory of places, degrees of freedom numbered by entry and component | induction over launches with disjoint footprints, for every order |
| `Vt` | numbered alternatives, compile-time recursion | nested induction over arguments and alternatives |
| `Ld` | block table as map and numbering, orders of every scattered loop as parameters | invariant (numbering consistent), induction on layers |
| `Le` | rounds with a fuel, reachability as an inductive predicate | invariant (expanded blocks closed), counting for the end and the reserve |
| `Tv` | coordinates as lists, views as prefix and base | induction on coordinates, reduction to the indexer of `Idx` |
| `Sl` | table as a partial map of block coordinates, exact rationals, index space | digits of the cell number, reduction to the arenas of `Kern`, induction on dimensions |
| `Lw` | matrices over any field, any dimension; polar decomposition as an argument | invariant of the five matrices under every motion, block matrices |
| `Lc`, `Lb` | exact rationals per direction; matrices over any ordered field | characterisation of floor, choice of the corner by the signs of a column |
| `Sw` | homogeneous block matrices over any field, any dimension | affine matrices closed under motions, simulation between level set and grid |
| `Hp` | as `HashTable`, reinsertion as a loop over the active keys | simulation of reinsertion by insertion with the counter set back |
| `Df` | run-time shapes as lists, checked accesses | induction on dimensions, division by the sizes of sub-arrays |
| `Cp` | numbered variables, heap with deleted objects, illegal uses as an outcome | ownership invariant, simulation by variables holding values |
| `Io` | interleaving machine, one shared access per step, spurious wake-ups as a parameter | inductive invariant, a closed set of states for the hang, witness executions |
| `Cv` | interleaving machine, one shared access per step | inductive invariants, witness executions |

## Remarks on the code not stated as theorems

Found while transcribing; they concern instantiations that do not compile or parts outside the model.

* `maximum_flow`: `auto &params = zs::make_tuple(...)` binds a temporary to a non-const reference; `_buildSuccess` of the edge table is never checked; source = sink never returns.
* `zs::function::swap` overwrites its own storage with the other's before it is saved, and its calls `swap(a, b)` find the one-argument member, so it does not compile.
* `complex`: `pow(complex, int)` does not compile. Quaternions: `quaternionMultiply` and `quaternionConjugateMultiply` do not compile (`x()…w()` are not const).
* `ConjugateResidual`/`ConjugateGradient` contain `getchar()` calls; `MinRes` does not compile.
* `LBvs::build` cannot be instantiated with the sequential or OpenMP policy (radix sort of floats), point queries use `bv._max`.
* `getNormal` of `Cuboid` and `Cylinder` does not compile, so colliders over them do not either. `LevelSetBoundary` has no behaviour.
* `SparseMatrix::transposeFrom` between opposite layouts compares pointers of different types. The constructor leaves `_ptrs` with two entries.
* `global_coord_to_local_offset` of the sparse grid cannot be instantiated. `view(tagNames, …)` of the adaptive grid ignores `tagNames`.
* `LocalArena`: `lerp_degree` and weights are wrong or unset for the delta kernels.
* `first_piola_derivative` of 1x1 deformation gradients does not compile; `mohrColumbFriction` takes the sine of degrees; `col(F, 2)` is read for dimensions below 3.
* Several distance functions keep `float` locals, truncating double inputs.
* `range(begin, end)` over index types narrower than int does not compile (begin and end become int). `chunk_view` keeps a reference to its range: a temporary range dangles.
* `VariantTaskExecutor` checks the visitor on rvalues of the alternatives but calls it on lvalues: a visitor taking `T &` counts as not callable.
* `extend_level_set_domain(pol, ls, sdf)` sets the mark of a new cell before its averaged properties: another thread that sees the mark may average values not yet written.
* `AssociativePlasticity`: `while (!residual.norm() < 1e-6)` compares a negated boolean.

## Parts of the library not modelled

Device back ends (`cuda/`, `musa/`, `sycl/`), JIT and Python bindings, Vulkan, I/O (`io/` except the job queue of `IO.h`, VDB, meshes), `Resource`/`MemoryResource` transfers, profiling and timers, adaptive-grid accessors and restructuring, sparse level sets beyond `refit`/`extend_level_set_domain`, placement and index-space sampling, flood fill, `P2C2G`/`G2C2P`, `orient3dadapt` and
`scale_expansion`, associative plasticity, `VonMisesCapped::project_strain` with a strain rate, `HashTable::preserve`, coroutines, reflection, signals, `zs::tuple` and other compile-time utilities,
Morton-code quantisation of positions, `setDistanceByPpc` and the data file of the Poisson sampler.

## Properties


### C01 Morton bit expansion interleaves and is inverted by compaction – proved

Theorems: `BitsProps.v`. Source: math/bit/Bits.h: expand_bits_32, expand_bits_64, compact_bits_32, compact_bits_64, morton_3d_32, morton_3d_64.
Bit-exact interleaving, inverse by compaction, and decoder for the 32- and 64-bit 3-D codes. The float-to-integer scaling is outside the model.

### C02 Integer hash mixers are bijections with the supplied inverse – proved

Theorems: `BitsProps.v`. Source: math/Hash.hpp: hash, unhash, execution/ConcurrencyPrimitive.cpp: twang_mix64, twang_unmix64.
Unsigned instantiations; both directions; also injectivity of hash_combine in the value.

### C03 Bit utilities meet their arithmetic specifications – partial

Theorems: `BitsProps.v`. Source: math/bit/Bits.h: round_down, round_up, bit_length, bit_count, next_2pow, next_power_of_two, num_bits_on, binary_reverse, count_leading_zeros, bit_pack, bit_spread.
Refuted: `C03_bit_pack_spread_undefined_refuted`.
All utilities; next_2pow above 2^(w-1) and bit_pack/bit_spread on masks 0 and 2^63 are undefined (refuted), and the pack/spread round trip needs at most 32 mask bits because the result is an int.

### C04 bit_mask behaves as a subset of {0..Size-1} – partial

Theorems: `MaskProps.v`. Source: types/Mask.hpp: bit_mask.
Refuted: `C04_padding_leaks_refuted`, `C04_equality_padding_refuted`, `C04_all_on_missed_refuted`, `C04_countOffset_end_refuted`.
Exact refinement to an index set for Size a multiple of 64, or for programs without whole-mask on/toggle; otherwise padding bits of the last word leak (refuted by witness). countOffset(Size) with Size a multiple of 64 reads out of range (refuted).

### C05 RingBuffer is the window of the last Size pushes – proved

Theorems: `RingProps.v`. Source: container/RingBuffer.hpp: RingBuffer.
Refuted: `C05_ring_size1_head_bounded_refuted`.
Full refinement for every capacity and history. Extra: int counters stay bounded for Size>=2; for Size=1 the head counter grows without bound (refuted boundedness).

### C06 SmallString is a truncating NUL-terminated string – proved

Theorems: `StrProps.v`. Source: types/SmallVector.hpp: BasicSmallString.
All constructors, size, ==, + ; no out-of-range access.

### C07 UniquePtr releases every owned object exactly once – proved

Theorems: `UptrProps.v`. Source: ZpcResource.hpp: UniquePtr.
Per-object ownership automaton over all histories, self-move included; deleter identity also tracked.

### C08 stack_allocator hands out aligned, in-range, disjoint blocks – partial

Theorems: `AllocProps.v`. Source: memory/Allocator.cpp: stack_allocator, memory/Allocator.h: stack_allocator.
Refuted: `C08_failure_poisons_refuted`, `C08_zero_size_free_refuted`.
Alignment, range, disjointness and LIFO reuse proved for every history; the claim that a failing allocate leaves the allocator usable is refuted (head is moved before the check), and zero-sized blocks cannot be freed (refuted).

### C09 Virtual-memory resources: committed ranges are resident, eviction never touches neighbours – partial

Theorems: `VmemProps.v`. Source: memory/Allocator.cpp: arena_virtual_memory_resource, stack_virtual_memory_resource.
Refuted: `C09_beyond_reserve_refuted`.
Exact for ranges inside the reservation (offset+bytes without size_t wrap), arbitrary histories including failing system calls; ranges reaching beyond the reservation are clamped and reported committed/resident (refuted).

### C10 Vector behaves as a finite sequence – partial

Theorems: `VectorProps.v`. Source: container/Vector.hpp: Vector.
Refuted: `C10_reorder_keeps_size_refuted`, `C10_push_back_own_element_refuted`.
List refinement proved for every history; reorder puts elements right for every schedule but sets size() to capacity() (refuted), push_back of an own element reads freed storage when reallocating (refuted). Virtual-allocator branch and non-host memory not modelled.

### C11 TileVector addresses every (channel, element) at its own in-range slot – partial

Theorems: `TileProps.v`. Source: container/TileVector.hpp: TileVector, TileVectorUnnamedView.
Refuted: `C11_copy_without_channels_refuted`, `C11_reorder_partial_tile_drops_element_refuted`.
Addressing, property ranges and the table specification hold for every history, every order of parallel assignments; refuted: copying a TileVector without channels divides by zero, and reorderTiles with a partly filled last tile can push live elements beyond size(). Not modelled: device memory, named views' tag lookup beyond offsets, tile pack/tuple reads.

### C12 callbacks registry: ids are fresh and inserted callbacks stay registered – partial

Theorems: `CallbacksProps.v`. Source: container/Callables.hpp: callbacks.
Refuted: `C12_callbacks_registered_refuted`.
Proved when assign is used on ids that insert returned; refuted otherwise (assign to an unissued id makes a later insert silently ineffective).

### C13 Collapse/ndrange enumerates the index box exactly once – partial

Theorems: `CollapseProps.v`. Source: ZpcIterator.hpp: Collapse.
Refuted: `C13_collapse_zero_inner_extent_refuted`.
Proved for first extent >= 0 and inner extents >= 1, any dimension, and described exactly for inner extents >= 0 (a zero inner extent counts as one); the claim is refuted for a zero inner extent (Collapse(2,0) visits 2 tuples).

### C14 Sequential scans and reduce compute the left folds – partial

Theorems: `ScanProps.v`. Source: execution/ExecutionPolicy.hpp: SequentialExecutionPolicy::inclusive_scan, exclusive_scan, reduce.
Refuted: `C14_seq_exclusive_scan_inplace_refuted`.
Inclusive scan and reduce: any operator, in place or disjoint. Exclusive scan proved when the output does not overwrite unread input; in-place exclusive scan is refuted.

### C15 OpenMP inclusive_scan is independent of the number of threads – partial

Theorems: `ScanProps.v`. Source: omp/execution/ExecutionPolicy.hpp: OmpExecutionPolicy::inclusive_scan_impl.
Refuted: `C15_omp_inclusive_scan_noncommutative_refuted`.
Every thread count and every schedule between barriers, for associative and commutative operators; refuted for non-commutative ones.

### C16 OpenMP exclusive_scan is independent of the number of threads – partial

Theorems: `ScanProps.v`. Source: omp/execution/ExecutionPolicy.hpp: OmpExecutionPolicy::exclusive_scan_impl.
Refuted: `C16_omp_exclusive_scan_init_refuted`.
Every thread count and schedule, associative commutative operator, init a left identity; refuted for other initial values (dropped).

### C17 OpenMP reduce is independent of the number of threads – partial

Theorems: `ScanProps.v`. Source: omp/execution/ExecutionPolicy.hpp: OmpExecutionPolicy::reduce_impl.
Refuted: `C17_omp_reduce_init_refuted`.
Every thread count and schedule, any monoid with init its identity; refuted for other initial values (counted once per thread).

### C18 Sequential merge_sort_pair is a stable sort – proved

Theorems: `SortProps.v`. Source: execution/ExecutionPolicy.hpp: SequentialExecutionPolicy::merge_sort_pair_impl.
Any length, any strict weak order, any content of the temporary storage; the stable sort is unique.

### C19 OpenMP merge_sort(_pair) sorts for every thread count – partial

Theorems: `SortProps.v`. Source: omp/execution/ExecutionPolicy.hpp: OmpExecutionPolicy::merge_sort_pair_impl, merge_sort_impl.
Refuted: `C19_omp_merge_sort_stable_refuted`.
Right for every thread order when all non-empty chunks need the same parity of merge passes (in particular even splits and short inputs); false otherwise, refuted by 513 elements on 2 threads.

### C20 Sequential radix_sort(_pair) is a stable sort on the selected bits – proved

Theorems: `RadixProps.v`. Source: execution/ExecutionPolicy.hpp: SequentialExecutionPolicy::radix_sort, radix_sort_pair.
Any key width, signedness, bit range and buffer content; full width is numeric order.

### C21 OpenMP radix_sort(_pair) equals the sequential result for every thread count – proved

Theorems: `RadixProps.v`. Source: omp/execution/ExecutionPolicy.hpp: OmpExecutionPolicy::radix_sort_impl, radix_sort_pair_impl.
Every thread count and every interleaving of the scattered stores gives the sequential result.

### C22 sort_pair orders by the comparator it is given – partial

Theorems: `SortProps.v`. Source: execution/ExecutionPolicy.hpp: SequentialExecutionPolicy::quick_sort_impl, sort_pair.
Refuted: `C22_sort_pair_comparator_refuted`.
Proved that the OpenMP pair sort sorts ascending by the built-in less of keys; that it honours the comparator argument is refuted.

### C23 CAS-loop atomics lose no update – partial

Theorems: `AtomicProps.v`. Source: execution/Atomics.hpp: atomic_add_impl, atomic_max, atomic_min, atomic_cas.
Refuted: `C23_float_max_loses_update_refuted`.
Integers, and floating-point add/exchange, in full (linearizable under every schedule, bounded number of steps, fold of operands). Floating-point max/min proved when -0 does not occur; with -0 an update can be lost (refuted): the loop compares values while the compare-exchange compares bits.

### C24 RBTreeMap behaves as a finite map – proved

Theorems: `RbProps.v`. Source: container/RBTreeMap.hpp: RBTreeMap.
Refuted: `C24_rbtree_map_count_empty_refuted`.
heap-level model with explicit nodes and links; every history of operations from the empty map (run) refines the finite map and is memory safe, destroy frees all. count() on an empty map dereferences the null root: C24_..._count_empty_refuted (finding). Assumes == and Compare form a strict total order (record total_order).

### C25 RBTreeMap stays balanced – proved

Theorems: `RbProps.v`. Source: container/RBTreeMap.hpp: maintainAfterInsert, maintainAfterRemove.
red-black shape stated on the heap (rbh), key order around every node, path bound 2*log2(size+1), and the number of nodes a lookup reads.

### C26 RBTreeMap ordered access – proved

Theorems: `RbProps.v`. Source: container/RBTreeMap.hpp: begin, lower_bound, upper_bound, inorderTraversal.
Refuted: `C26_const_reverse_decrement_refuted`.
walks, bounds and erasing through iterators after every history. const_reverse_iterator's operator-- at crend() goes to the largest entry instead of the smallest: C26_const_reverse_decrement_refuted (finding).

### C27 bht: concurrent insertion assigns every key one dense index – proved

Theorems: `BhtLockProps.v, BhtProps.v`. Source: container/Bht.hpp: BHTView::insert, atomicSwitchIfEqual, atomicTileLoad.
Refuted: `C27_failure_unflagged_refuted`, `C27_sentinel_key_refuted`.
Any number of threads, any interleaving at the level of single loads, compare-exchanges, counter increments and writes; wait-free step bound; failure causes characterised. Sequentially consistent memory, host code path. Two additional refuted expectations: failure on a capacity-0 table leaves the success flag set; the all-0x3f key is reported as existing. Wide keys: the slot lock makes accesses indivisible (separate model).

### C28 bht: after insertion, query and the active-key list agree – proved

Theorems: `BhtProps.v`. Source: container/Bht.hpp: BHTView::query, BHTView::insert, _activeKeys.
Every table reachable by construction, parallel insertion phases, successful resizes and resets is the dictionary of its active keys.

### C29 bht: resize keeps every key at its index – partial

Theorems: `BhtProps.v`. Source: container/Bht.hpp: bht::resize.
Refuted: `C29_resize_loses_keys_refuted`.
Proved for every schedule when no reinsertion returns the failure token; the unconditional claim is refuted: three full buckets lose keys on growth (flagged in _buildSuccess).

### C30 bcht: insertion of keys yields a consistent index map – partial

Theorems: `BchtProps.v`. Source: container/Bcht.hpp: BCHTView::insert, query.
Refuted: `C30_reinsertion_refuted`, `C30_lost_key_refuted`, `C30_active_keys_overrun_refuted`, `C30_reserved_key_refuted`.
Full statement refuted: a displaced key re-inserted is stored twice (C30_reinsertion_refuted), a failing insertion drops another key (C30_lost_key_refuted, exact effect in C30_failure_drops_one_key), activeKeys overrun, reserved key. Proved: the dictionary for all histories of distinct keys with displacement, resize and reset and no failure token; the full statement incl. repetitions when no bucket overflows. Host code, compare_key = true; GPU/OpenMP versions not modelled.

### C31 HashTable: inserted keys are found – partial

Theorems: `HashTableProps.v`. Source: container/HashTable.hpp: HashTableView::insert, query.
Refuted: `C31_query_out_of_bounds_refuted`.
Insertion proved in full (sequential calls) from a reset table; query proved for tables with no occupied slot size-127, refuted otherwise (probe reads slot size: guard uses > instead of >=); inserting into a full table proved to diverge. Not modelled: preserve(), concurrent insertion, device code.

### C32 SpatialHash neighbour search is complete – partial

Theorems: `ShProps.v`. Source: container/SpatialHash.hpp: SpatialHash::build, SpatialHashView::iter_neighbors.
Refuted: `C32_point_on_upper_face_refuted`, `C32_flat_box_refuted`, `C32_empty_build_refuted`.
Proved for every schedule of the build kernels: box queries report each primitive exactly once per shared cell (cells open at upper faces), nothing else; overlapping boxes and points inside are reported. Refuted for points on upper faces on grid lines, for flat boxes in the first dimension, and after build with no primitives (old structure kept). Exact integer coordinates; floating-point rounding, int overflow and failures of reinsertion during table growth are not modelled.

### C33 LBvh build produces a well-formed pre-order tree – proved

Theorems: `BvhProps.v`. Source: container/Bvh.hpp: LBvh::build, _build_build_topo, _build_supp_topo, _build_reorder_leaf, _build_reorder_trunk.
LBvh::build from the sorted Morton codes on (more than two primitives), any order of the iterations of each parallel loop: no access outside an array or to an unwritten element, pre-order layout of a full binary tree over the sorted primitives, escape indices, levels, parents and leaf indices as specified by BvhSpec.stored. Morton code computation and the radix sort (C19) are inputs here; buildRefit is not covered.

### C34 LBvh queries report exactly the overlapping primitives – proved

Theorems: `BvhQProps.v`. Source: container/Bvh.hpp: LBvhView::iter_neighbors, ray_intersect.
All of iter_neighbors, ray_intersect (through the monotone-test theorem), the treelet and front variants and find_nearest_point on a tree left by build and refit. Coordinates are integers standing for the compared floating-point values.

### C35 LBvh self-queries report each overlapping pair once – partial

Theorems: `BvhQProps.v`. Source: container/Bvh.hpp: LBvhView::self_iter_neighbors.
Refuted: `C35_pairs_itself_refuted`.
Refuted for more than two primitives: self_iter_neighbors(leafId) starts at the leaf itself and so always reports that leaf's own primitive first (C35_pairs_itself_refuted). Apart from these, each overlapping pair is reported exactly once (partial theorem); with at most two primitives the full claim holds.

### C36 LBvh refit computes the exact bounding boxes under every schedule – proved

Theorems: `BvhQProps.v`. Source: container/Bvh.hpp: LBvh::refit, _refit_bottom_up.
Every interleaving of single shared-memory accesses under sequential consistency; nonempty boxes (merge of an inverted box is not a union). Memory fences are not modelled.

### C37 LBvs sweep queries report exactly the overlapping primitives – proved

Theorems: `BvsProps.v`. Source: container/Bvs.hpp: LBvsView::locate, iter_neighbors, self_iter_neighbors.
Device sort of build is a contract (host build does not compile: float radix sort). refit on the sequential policy uses the verified merge sort. Boxes with min<=max, finite coordinates. Point queries (vec) do not compile (bv._max). Finding: LBvs::build cannot be instantiated with the sequential or OpenMP policy.

### C38 SparseMatrix build from triplets sums duplicates – proved

Theorems: `SpmProps.v`. Source: math/matrix/SparseMatrix.hpp: SparseMatrix::build, fastBuild.
build, topology build (with and without Mirror) and fastBuild; every order of the atomic and plain operations

### C39 SparseMatrix transposeFrom transposes – partial

Theorems: `SpmProps.v`. Source: math/matrix/SparseMatrix.hpp: SparseMatrix::transposeFrom.
Refuted: `C39_transpose_keeps_old_shape_refuted`, `C39_transpose_in_place_refuted`.
Transposed entries proved when B already has the transposed shape. Refuted: transposeFrom between equal layouts never assigns the shape; A.transposeFrom(A) uses uninitialised memory. The opposite-layout branch does not compile (pointer comparison of different types); its statements are shown to be right for scalar values.

### C40 SparseMatrix element lookup finds exactly the stored entries – partial

Theorems: `SpmProps.v`. Source: math/matrix/SparseMatrix.hpp: SparseMatrixView::locate, exist, operator().
Refuted: `C40_binary_search_out_of_bounds_refuted`.
linear lookup fully proved; binary search proved on rows not starting at 0 or whose first entry is not after the target; refuted elsewhere (unsigned wrap-around, out-of-bounds read)

### C41 spmv computes the matrix-vector product – partial

Theorems: `SpmProps.v`. Source: math/matrix/SparseMatrixOperations.hpp: spmv, spmv_classic, spmv_mask.
Refuted: `C41_spmv_wide_column_major_refuted`, `C41_spmv_tall_column_major_refuted`, `C41_spmv_real_truncates_refuted`.
spmv_classic and spmv_mask fully; spmv for row-major and square column-major. Refuted: column-major rectangular spmv (range(nrows) instead of ncols), and plus_times over floating point (SemiringImpl::value_type is int, products truncated)

### C42 Graph colouring is proper, complete and terminates – partial

Theorems: `ColorProps.v`. Source: graph/Coloring.hpp: fast_independent_sets, maximum_independent_sets.
Refuted: `C42_fast_proper_with_ties_refuted`, `C42_maximum_proper_with_ties_refuted`.
Termination and completeness for all weights; properness when adjacent weights differ; maximum_independent_sets classes are maximal and colours bounded by degree + 1. Properness with equal weights at adjacent vertices is refuted for both functions. Float weights modelled as integers (only compared).

### C43 union_find labels connected components under every schedule – proved

Theorems: `UfProps.v`. Source: graph/ConnectedComponents.hpp: union_find.
Refuted: `C43_array_holds_labels_refuted`.
Plain loads/stores of path halving are taken as indivisible (they race with the CAS in C++ terms). Representative = root reached by following fas; fas itself is not flattened (C43_array_holds_labels_refuted).

### C44 maximum_flow returns the value of a maximum flow – partial

Theorems: `FlowProps.v`. Source: graph/MaximumFlow.hpp: maximum_flow.
Refuted: `C44_source_is_sink_refuted`, `C44_overlapping_invocations_miss_the_flow_refuted`, `C44_missing_transposed_entry_refuted`.
Under every interleaving of the search kernel and of the table construction the result is the value of a feasible flow and the matrix holds its residual capacities; no access out of bounds, search bounded. When kernel invocations do not overlap (sequential policy, any order) the result equals a cut capacity and bounds every flow (max-flow = min-cut). Overlapping invocations: refuted, the call may return 0 with maximum 5. Also refuted: source = sink never returns; missing transposed entry indexes out of bounds. Value type unbounded Z; insertion failures of the edge table excluded.

### C45 Mutex provides mutual exclusion – proved

Theorems: `MutexProps.v`. Source: execution/ConcurrencyPrimitive.hpp: Mutex, execution/ConcurrencyPrimitive.cpp: Mutex::lock, unlock, try_lock.
Any number of threads, any interleaving of single accesses (sequentially consistent, weak compare-exchange may fail spuriously), spurious wake-ups and arbitrary interference on the shared wait queue included; try_lock only fails while somebody owns the mutex; a free mutex can be taken.

### C46 Parking lot wakes and removes exactly the waiter it signals – partial

Theorems: `ParkProps.v`. Source: execution/ConcurrencyPrimitive.cpp: ParkingLot::unpark, WaitQueue::erase, emulated_futex_wake.
Refuted: `C46_removes_what_it_signals_refuted`, `C46_second_sleeper_refuted`, `C46_unrelated_address_refuted`, `C46_wake_all_refuted`, `C46_timeout_refuted`, `C46_futex_wake_zero_refuted`.
Refuted in general: unpark advances its cursor before erasing, so it frees the waiter behind the one it signals (also of an unrelated address), notify_all reads a freed node as soon as a second waiter is queued, a timed-out head waiter reads its node after delete, and futex wake with count 0 wakes one. Proved: exact effect on every queue, well-formedness over all histories, correct behaviour while at most one thread at a time is inside parkFor.

### C47 rational arithmetic is exact and canonical – partial

Theorems: `RatProps.v`. Source: math/Rational.hpp: rational, ZpcMathUtils.hpp: math::gcd.
Refuted: `C47_add_canonical_refuted`.
+ - * exact and in lowest terms for every sign pattern, / and constructors exact and canonical, == on canonical values; overflow explicit, none below 2^31. A positive denominator after + and * is proved for non-negative operands and false otherwise (refuted: -1/4 + -5/4 = 3/-2).

### C48 rational ordering is the ordering of values – partial

Theorems: `RatProps.v`. Source: math/Rational.hpp: rational::operator<, operator>.
Refuted: `C48_greater_unreduced_refuted`, `C48_less_after_add_refuted`.
operator< in full for positive denominators; operator> for canonical operands (refuted for 1/2 > 2/4); after a sum with a negative denominator < is wrong (refuted).

### C49 NumCCD dyadic arithmetic and interval bisection are exact – partial

Theorems: `RatProps.v`. Source: math/Rational.hpp: NumCCD, Interval::bisect, reduction.
Refuted: `C49_dyadic_sum_exact_refuted`.
Order, is_sum_leq_1 and bisect in full on dyadic numbers of [0,1]; + exact except when the power underflows (refuted: 1+1). The conversion from double is not modelled.

### C50 AdaptiveGrid coordinate codecs are mutually inverse – proved

Theorems: `AgridProps.v`. Source: geometry/AdaptiveGrid.hpp: coord_to_key, coord_to_tile_offset, tile_offset_to_coord, coord_to_hierarchy_offset, hierarchy_offset_to_coord.
Codecs of AdaptiveGridImpl (283-319) for all configurations accepted by the static_asserts that fit in int; not modelled: the level tables, accessors and restructuring.

### C51 BvttFront records and groups front entries – partial

Theorems: `BvttProps.v`. Source: container/Bvtt.hpp: BvttFront::reorder, BvttFrontView::push_back.
Refuted: `C51_reorder_after_overflow_refuted`.
Proved for every schedule while the pushes fit in the capacity (push_back) and for every front within capacity (reorder); refuted after an overflow: the counter exceeds the capacity and reorder indexes out of bounds.

### C52 handle_resource keeps handing out valid aligned memory as it grows – partial

Theorems: `AllocProps.v`. Source: memory/Allocator.cpp: handle_resource::do_allocate.
Refuted: `C52_growth_refuted`.
In-buffer offsets proved for every upstream; alignment and validity of earlier blocks hold only while the buffer is not replaced, refuted by witness on growth.

### C53 Mutex: a sleeping locker is never forgotten – partial

Theorems: `MutexProps.v`. Source: execution/ConcurrencyPrimitive.cpp: Mutex::lock, Mutex::unlock, ParkingLot::parkFor, ParkingLot::unpark.
Refuted: `C53_three_threads_refuted`.
Proved while at most one thread at a time waits (unconditionally for two threads); refuted for three threads, where a sleeping locker's node is freed and nobody can wake it. Only this mutex uses the queue.

### C54 Interpolation weights and grid sampling – proved

Theorems: `KernProps.v`. Source: math/curve/InterpolationKernel.hpp: base_node, *_bspline_weights, delta_*point_weights, GridArena, math/VecInterface.hpp: xlerp.
exact rational arithmetic replaces floating point; sqrt of the delta kernels is any function that respects equality, is non-negative, never above the true root and exact on 1 and 1/4; the grid lookup with its default is a parameter

### C55 zs::function is a value that owns its callable – partial

Theorems: `FnProps.v`. Source: ZpcFunction.hpp: function<R(Args...)>.
Refuted: `C55_copy_assign_leaks_refuted`, `C55_move_assign_leaks_refuted`, `C55_assign_empty_refuted`, `C55_self_assign_refuted`, `C55_throwing_assign_refuted`, `C55_assign_noncopyable_refuted`, `C55_move_self_referencing_refuted`.
proved for all sequences of operations in which copy/move assignment only targets an empty function (or itself), plain lvalue assignment has another, full, copyable source, constructors throw only into an empty function and no self-referencing callable is moved; every excluded use is refuted (leak, double destruction, use after destruction, wrong operator bool)

### C56 zs::Owner destroys its object exactly once – partial

Theorems: `OwnProps.v`. Source: ZpcImplPattern.hpp: Owner, InplaceStorage.
Refuted: `C56_copy_construct_refuted`, `C56_copy_assign_refuted`, `C56_copy_empty_leaks_refuted`, `C56_throwing_constructor_refuted`, `C56_self_value_refuted`.
proved for all sequences without copies of (or onto) full owners; copying owners uses the implicit bytewise copy and is refuted, as are throwing constructors and self-assignment for non-assignable types; only the variant for types without default constructor is modelled

### C57 Matrix functions of zs::vec compute the matrix operations – proved

Theorems: `MatProps.v`. Source: math/VecInterface.hpp: operator*, transpose, dot, cross, math/Vec.h: determinant, inverse, cross_matrix, dyadic_prod, diag_mul, affine transform.
exact arithmetic over abstract rings and fields: rounding is not modelled

### C58 Raw-array matrix helpers and parallel – partial

Theorems: `MatProps.v`. Source: math/matrix/MatrixUtils.h, math/matrix/Utility.h: cross, math/VecInterface.hpp: parallel.
Refuted: `C58_cofactor3d_refuted`, `C58_crossMul_refuted`, `C58_parallel_refuted`.
all modelled helpers are right except: matrixCofactor3d writes the adjugate (transposed cofactors), vec_crossMul_vec_3D has the wrong signs, parallel looks at one component only (refuted)

### C59 zs::complex implements complex arithmetic – partial

Theorems: `CpxProps.v`. Source: math/Complex.hpp, math/MathUtils.h: abs, sqrt.
Refuted: `C59_product_refuted`.
Sums, differences, quotients, real operands, ==, conj, norm, abs and sqrt proved. complex *= complex overwrites _real before computing _imag: the product is wrong unless (re(xy) - re x) im y = 0 (C59_product_refuted: i*i = -1-i). pow, log, polar and the trigonometric functions need transcendental functions and are not modelled; pow(complex, int) does not compile (x *= x on a const reference).

### C60 Smallest positive real roots of quadratic and cubic polynomials – partial

Theorems: `CpxProps.v`. Source: math/MathUtils.h: get_smallest_positive_real_quad_root, get_smallest_positive_real_cubic_root.
Refuted: `C60_quadratic_refuted`, `C60_cubic_refuted`.
Quadratic: proved for leading coefficient above the tolerance and non-zero discriminant (smallest non-negative root); refuted for a < 0, double roots and a root at 0. Cubic: proved for one real root with a real principal cube root of the resolvent; x^3 - 1 refuted (the branch needs complex products, which are wrong). cbrt stands for pow(z, 1/3) as a parameter.

### C61 Rotations: constructors, angle extraction, quaternions – partial

Theorems: `RotProps.v`. Source: math/Rotation.hpp, math/VecInterface.hpp: orthogonal, normalized.
Refuted: `C61_small_angles_refuted`.
All constructors, the round trips outside the near_zero band and the quaternion identities are proved over every real closed field. The unrestricted round trip is refuted: rotations whose angle lies inside the band come back as the identity (or pitch 90 degrees). Square roots are exact; angles are represented by cosine and sine.

### C62 Transform composes affine maps in the documented order – proved

Theorems: `RotProps.v`. Source: math/matrix/Transform.hpp.
polar_decomposition is a parameter with the hypothesis that its factors multiply to its argument.

### C63 sqrtNewtonRaphson returns a square root within its tolerance – partial

Theorems: `NewtProps.v`. Source: math/MathUtils.h.
Refuted: `C63_relative_refuted`.
Exact arithmetic. Relative accuracy for every argument is refuted: every argument in (0, eps) gives 0.

### C64 ConjugateGradient solves symmetric positive definite systems – proved

Theorems: `CgProps.v`. Source: math/linear/ConjugateGradient.hpp, math/linear/LinearOperators.hpp.
Exact arithmetic over every real closed field; the system object is three matrices; execution policies, views and printing are not modelled (the code also waits for a key press after every iteration from the second).

### C65 ConjugateResidual solves symmetric positive definite systems – partial

Theorems: `CrProps.v`. Source: math/linear/ConjugateResidual.hpp, math/linear/LinearOperators.hpp.
Refuted: `C65_independent_refuted`, `C65_stops_when_met_refuted`.
Exact arithmetic. Two parts of the full claim are refuted: the tested residual keeps the reactions of fixed dofs because the first product is not projected, so the solver continues after the tolerance is met; and solve overwrites the member tol, so a solve changes the tolerance of later ones.

### C66 Givens rotations and the QR, Gram-Schmidt and bidiagonal factorisations – proved

Theorems: `SvdProps.v`. Source: math/matrix/Givens.hpp, math/matrix/QRSVD.hpp.
Exact real arithmetic (any real closed field). gram_schmidt of a singular matrix divides by zero in the code; the theorem asks for a non-zero determinant.

### C67 Polar and singular value decompositions of 2x2 matrices – proved

Theorems: `SvdProps.v`. Source: math/matrix/QRSVD.hpp.
Exact real arithmetic (any real closed field); nearest in the Frobenius norm among all 2x2 rotations.

### C68 Polar and singular value decompositions of 3x3 matrices – partial

Theorems: `SvdProps.v`. Source: math/matrix/QRSVD.hpp, math/matrix/Givens.hpp.
Refuted: `C68_relative_refuted`.
Termination, rotations, ordering and accuracy are proved for every matrix with the tolerance of the code. C68_relative_refuted: the tolerance has an absolute floor, so the accuracy is not relative to A; a non-zero matrix with entries up to 128 eps gets all singular values 0.

### C69 Eigendecomposition of 2x2 matrices, make_pd and orthogonal – partial

Theorems: `EigProps.v`. Source: math/matrix/Eigen.hpp, math/VecInterface.hpp.
Refuted: `C69_integer_refuted`.
Proved for floating point element types in exact real arithmetic. C69_integer_refuted: integer matrices are accepted too, but the working copy keeps the integer type and truncates; diag(1,2) gets the eigenvalues 3/2 and 3/2.

### C70 Jacobi eigendecomposition of larger matrices – partial

Theorems: `EigProps.v`. Source: math/matrix/Eigen.hpp.
Refuted: `C70_stale_refuted`, `C70_zero_refuted`, `C70_one_refuted`.
Termination, orthonormality of E, the size of the remainder and positive semi-definiteness of make_pd are proved for every size. Accuracy is false: C70_stale_refuted (the index of the largest entry is refreshed only in the two pivot rows, so the loop can stop with large entries off the diagonal), C70_zero_refuted (zero matrix: division by zero), C70_one_refuted (1x1 matrix: reads outside).

### C71 Point-edge and point-triangle distances are the least distances – partial

Theorems: `DistProps.v`. Source: geometry/Distance.hpp:1114-1200, geometry/Distance.hpp:3873-3984, geometry/SpatialQuery.hpp:19-297.
Refuted: `C71_degenerate_refuted`, `C71_one_dimension_refuted`.
Proved in exact arithmetic: least distance and category for proper edges (2D, 3D) and triangles (any dimension). Refuted: degenerate edges and triangles divide by zero (NaN), and dist2_pe_unclassified in one dimension returns the largest number for a point inside the interval.

### C72 Edge-edge distances are the least distances – partial

Theorems: `DistProps.v`. Source: geometry/Distance.hpp:2315-2435, geometry/SpatialQuery.hpp:313-470.
Refuted: `C72_crossing_refuted`, `C72_point_second_refuted`, `C72_short_refuted`.
Proved: least distance whenever the compared numbers are zero or not below the tolerance (all integer coordinates); result always attained; dist2_ee_unclassified for edges that do not meet. Refuted: crossing coplanar edges (dist2_ee_unclassified returns 1 instead of 0), second edge a point (dist_ee_sqr), short crossing edges for every tolerance.

### C73 Edge-triangle intersection, edge-edge mollifier, derivatives of the point-point distance – partial

Theorems: `DistProps.v`. Source: geometry/Distance.hpp:227-268, geometry/Distance.hpp:2486-2498, geometry/Distance.hpp:2836-2899, geometry/Distance.hpp:4025-4066.
Refuted: `C73_coplanar_refuted`, `C73_one_dimension_hessian_refuted`.
Proved: soundness always, equivalence when the edge is not parallel to the plane; mollifier and its derivatives; point-point gradient in every dimension, Hessian in 2D and 3D. Refuted: coplanar edges are never reported, one-dimensional Hessian lacks mixed terms.

### C74 Analytic level sets return signed distances – partial

Theorems: `AlsProps.v`. Source: geometry/AnalyticLevelSet.h:29-43, geometry/AnalyticLevelSet.h:63-118, geometry/AnalyticLevelSet.h:143-159, geometry/AnalyticLevelSet.h:187-240, geometry/AnalyticLevelSet.h:292-306.
Refuted: `C74_plane_refuted`, `C74_plane_box_refuted`.
Boxes, balls, cylinders: signed distance proved for every point (boxes with min <= max, radius and length not negative), distance(box,p) the same; plane proved for unit normals and refuted otherwise (the constructor does not normalise). Bounding boxes of balls and cylinders proved to be the smallest; that of a plane is a single point (refuted). getNormal of boxes and cylinders does not compile (unqualified call into a dependent base) and is not modelled. Exact real arithmetic.

### C75 Bounding volumes, broad phase and ray tests miss nothing – partial

Theorems: `AlsProps.v`. Source: geometry/AnalyticLevelSet.h:256-290, geometry/AnalyticLevelSet.h:308-435, geometry/BoundingVolumeInterface.hpp:11-54.
Refuted: `C75_uniform_coord_refuted`, `C75_ray_tri_behind_refuted`, `C75_ray_tri_small_refuted`, `C75_ray_box_zero_refuted`, `C75_ray_box_face_refuted`, `C75_ray_box_face_missed_refuted`.
overlaps, merge, get_bounding_box and both broad phases proved. ray_box_intersect proved for a nonzero direction unless the ray starts on an x-face and is parallel to it; refuted for the zero direction and for that face (false positive and false negative through NaN). ray_tri_intersect: hits proved within the tolerance, completeness when the scaled direction exceeds the tolerance; refuted: hits behind the origin are returned, hits in small triangles are missed. getUniformCoord of a flat box divides zero by zero (refuted). Exact arithmetic with IEEE infinities.

### C76 SparseGrid is a map from integer coordinates to values – partial

Theorems: `SgProps.v`. Source: geometry/SparseGrid.hpp:266-364, geometry/SparseGrid.hpp:407-455, geometry/SparseGrid.hpp:550-580, geometry/SparseGrid.hpp:763-891, math/curve/InterpolationKernel.hpp:574-703.
Refuted: `C76_accessor_side1_refuted`, `C76_accessor_stale_refuted`.
Proved for all side lengths, dimensions, channels and operation sequences over the model (block table as guaranteed by C27/C28, unbounded coordinates, exact positions). Partial because two parts of the claim are false of the code: an accessor on a grid of side length 1 takes the node (2^31-1,...) for its empty cache entry and reads block -1, and an accessor that outlives a clear of the table reads block -1 through its stale entry (both _refuted); writing an inactive voxel is undefined rather than an activation (C76_inactive_write). global_coord_to_local_offset cannot be instantiated (operator precedence in its static_assert).

### C77 Material point transfers conserve mass and momentum – partial

Theorems: `MpmProps.v`. Source: simulation/transfer/P2G.hpp:46-125, simulation/transfer/G2P.hpp:43-82, simulation/grid/GridOp.hpp:91-108, simulation/grid/GridOp.hpp:223-249, simulation/Utils.hpp:9-185.
Refuted: `C77_stress_acts_refuted`.
All conservation statements proved over exact rationals, any particle set, any order of the atomic additions. Refuted part: the stress P2G writes (channels 4-6) never reaches the particles, because ComputeGridBlockVelocity reads only channels 0-3 (C77_stress_acts_refuted). Rounding, maxVel and the other constitutive models are not modelled.

### C78 Active blocks cover the transfers; index buckets hold exactly their particles – partial

Theorems: `BktProps.v`. Source: simulation/sparsity/SparsityOp.hpp:41-194, simulation/sparsity/SparsityCompute.tpp:5-23, simulation/particle/Query.tpp:9-57, container/IndexBuckets.hpp:66-127.
Refuted: `C78_partition_side2_refuted`, `C78_partition_capacity_refuted`, `C78_neighbours_displacement_refuted`.
Proved: sparsity, enlarging, coverage for block sides from 4, buckets under every interleaving, neighbour completeness. Refuted parts: coverage fails for side 2; partition_for_particles sizes its table by particles/blocklen^dim, zero slots for fewer than 64 particles and too few for scattered ones; bucketCoord assumes displacement 0.5. The hash table is abstracted to its key list.

### C79 Orientation predicates return the sign of the determinant – partial

Theorems: `PredProps.v`. Source: geometry/Predicates.hpp:124-151, geometry/Predicates.hpp:209-333, geometry/Predicates.hpp:399-470, geometry/Predicates.hpp:492-592, geometry/Predicates.hpp:1029-1065.
Refuted: `C79_strongly_nonoverlapping_refuted`, `C79_reads_past_end_refuted`, `C79_underflow_refuted`.
orient2d proved for every coordinate that does not underflow (binary64 with unbounded upper exponent; Flocq, so the standard library's axioms of the reals, classic and functional extensionality are used); orient3dadapt is not modelled. Refuted: tiny coordinates underflow to 'collinear'; the sum of strongly nonoverlapping expansions is not always strongly nonoverlapping (comment at 391-393); fast_expansion_sum_zeroelim reads one element past the end of e or f on every call (without influence on the result).

### C80 Stress and stiffness of the isotropic elasticity models are the derivatives of their energies – partial

Theorems: `CmProps.v`. Source: physics/ConstitutiveModel.hpp:34, physics/ConstitutiveModel.hpp:121, physics/ConstitutiveModel.hpp:131, physics/constitutive_models/FixedCorotated.h:23, physics/constitutive_models/StvkWithHencky.hpp:23, physics/constitutive_models/NeoHookean.hpp:24, physics/constitutive_models/EquationOfState.hpp:16.
Refuted: `C80_hessian_1d_refuted`, `C80_hencky_inverted_refuted`, `C80_gamma_refuted`.
Exact real arithmetic; the SVD is an argument (any orthogonal U, V). Proved: gradient (dims 1-3), Hessian (all but 1D fixed corotated), stress, stiffness for resolved stretches, limit at coincident stretches, error bound of the Hencky coefficient between, symmetry, positive semi-definiteness after make_pd, Lame conversions, equation of state. Refuted: FixedCorotated's 1D second derivative is the constant 1; the Hencky stiffness has the wrong sign for inverted elements; EquationOfState ignores its gamma argument. first_piola_derivative does not compile in 1D.

### C81 Invariants of the deformation gradient, the materials built on them and the node-to-deformation matrices are consistent – partial

Theorems: `CiProps.v`. Source: physics/ConstitutiveModel.hpp:263, physics/ConstitutiveModel.hpp:435, physics/ConstitutiveModel.hpp:503, physics/ConstitutiveModel.hpp:662, physics/ConstitutiveModel.hpp:769, physics/constitutive_models/NeoHookean.hpp:97, physics/constitutive_models/AnisotropicArap.hpp:39.
Refuted: `C81_neo_hookean_agree_refuted`, `C81_arap_stress_refuted`, `C81_arap_stiffness_refuted`, `C81_friction_angle_refuted`.
I1's Hessian is a derivative only where its denominators are not clamped (stretches sum pairwise to at least 1e-6). Refuted: NeoHookeanInvariant subtracts 3 instead of the dimension (2D energy differs from NeoHookean by mu/2); AnisotropicArap::first_piola is half the derivative of psi and first_piola_derivative is the derivative of neither; mohrColumbFriction takes the sine of an angle in degrees.

### C82 Plastic return mappings deliver admissible stresses and leave elastic states alone – partial

Theorems: `PlProps.v`. Source: physics/plasticity_models/NonAssociativeDruckerPrager.hpp:31, physics/plasticity_models/VonMisesCapped.hpp:31, physics/plasticity_models/NonAssociativeVonMises.hpp:25, physics/plasticity_models/SnowPlasticity.hpp:27, physics/plasticity_models/NonAssociativeCamClay.hpp:35.
Refuted: `C82_drucker_prager_elastic_refuted`, `C82_von_mises_surface_refuted`, `C82_cam_clay_admissible_refuted`.
Refuted: Drucker-Prager resets uniformly compressed (elastic) states to the undeformed one; NonAssociativeVonMises does not reach the yield surface (old volume is used) nor keeps the volume; Cam-Clay outside of the ellipse can end far outside of it because the volume changes. Drucker-Prager idempotence up to the tolerance for zero shear; snow hardening for volumes of at least 1e-6. Associative models not modelled.

### C83 threadsafe_queue is a linearizable FIFO queue without lost wake-ups – proved

Theorems: `TqProps.v`. Source: execution/Concurrency.h:23-91.
Sequentially consistent interleavings, std::mutex and std::condition_variable as specified, with spurious wake-ups. Linearizability, FIFO order, mutual exclusion, no lost wake-up, and termination in at most eight steps per thread without new calls.

### C84 concurrent_map's operations are atomic and its pointers stay valid – partial

Theorems: `CmapProps.v`. Source: execution/Concurrency.h:93-137.
Refuted: `C84_pointer_refuted`, `C84_race_refuted`.
Atomicity and answers are proved. A returned pointer or reference reads the key's current value until the key is erased (C84_pointer_partial). The full claim is false: get and find release the lock before their result is used, so the use can read freed memory (C84_pointer_refuted) or race with set (C84_race_refuted).

### C85 Colliders: velocity of the moving level set, sticky, slip and separating response – partial

Theorems: `ColProps.v`. Source: geometry/Collider.h:10-196, geometry/AnalyticLevelSet.h:29-43.
Refuted: `C85_erosion_refuted`, `C85_slip_refuted`, `C85_small_sphere_refuted`.
Proved in exact real arithmetic for any level set; slip, separate and no-gain need unit normals. False in general: the erosion is compared with the depth in material space (C85_erosion_refuted), a plane's normal is not normalised (C85_slip_refuted), the normal of a sphere vanishes within 3e-4 of its center so small spheres do nothing (C85_small_sphere_refuted).

### C86 AdaptiveGrid: hierarchy maintenance and hierarchical reads – partial

Theorems: `AghProps.v`. Source: geometry/AdaptiveGrid.hpp:370-400, geometry/AdaptiveGrid.hpp:535-640, geometry/AdaptiveGrid.hpp:968-1187, geometry/AdaptiveGrid.hpp:1838-1955, container/Vector.hpp:628-647.
Refuted: `C86_background_refuted`, `C86_active_hidden_refuted`, `C86_twice_refuted`, `C86_unsorted_refuted`.
Blocks, child masks, data, reads, levels proved for every grid whose arrays have the size of its tables. Refuted: added blocks read 0 instead of the background, hide active coarser tiles, a second complementTopo throws when a level-0 mask vector had spare capacity (Vector::reorder sets size to capacity), SortGridData=false misattributes values.

### C87 Poisson disk sampling: separation, containment, termination – partial

Theorems: `PdProps.v`. Source: geometry/PoissonDisk.hpp:20-306, container/DenseGrid.hpp.
Refuted: `C87_grid_storage_refuted`, `C87_plane_undefined_refuted`, `C87_plane_box_refuted`, `C87_periodic_refuted`, `C87_space_no_worker_refuted`.
Refuted as stated: DenseGrid allocates the product of its weights (one row in the plane), so every planar call is undefined (it prints grid(2,3), outside of the storage); samples may lie up to a cell beyond the upper corner; periodic separation fails unless the sides are whole numbers of cells; no samples in space if hardware_concurrency() is 0. Proved for any storage: separation, feasibility, reach, containment up to one cell, termination (with enough storage), periodic separation for sides of n,m>=3 whole cells, exact result in space for any positive number of workers. Exact real arithmetic; reading of the reference file and setDistanceByPpc are not modelled.

### C88 Smoothed friction: potential, force, stiffness and contact stencils – partial

Theorems: `FricProps.v`. Source: geometry/Friction.hpp:9-347.
Refuted: `C88_stiffness_sliding_refuted`.
All parts proved, in exact real arithmetic, except that f2_SF_term is the derivative of f1 only below the threshold; the comment in the code claims it beyond as well, which is refuted (derivative -1/y^2).

### C89 Dihedral angle, gradient and Hessian – proved

Theorems: `DihProps.v`. Source: math/DihedralAngle.hpp:15-178.
Exact real arithmetic; degenerate triangles (division by zero) excluded; the branch parameter described in the header comment does not exist in the code.

### C90 Gradients and Hessians of the squared distances and of the edge-edge mollifier – proved

Theorems: `DgProps.v`. Source: geometry/Distance.hpp:270-813, geometry/Distance.hpp:1121-1215, geometry/Distance.hpp:1218-1910, geometry/Distance.hpp:2383-2392, geometry/Distance.hpp:2447-2947, geometry/Distance.hpp:2948-3591, geometry/Distance.hpp:3939-4025.
Exact real arithmetic; degenerate edges, parallel edges and flat triangles (division by zero) excluded; g_EECN2 is not constexpr/noexcept in the code; the generated programs are transcribed statement by statement.

### C91 Contact deformation Jacobians – proved

Theorems: `PfProps.v`. Source: geometry/Distance.hpp:14-222, geometry/Distance.hpp:815-1110, geometry/Distance.hpp:1912-2314, geometry/Distance.hpp:3593-3789.
Exact real arithmetic; statement-by-statement transcription of the generated code; distances as in dist_pp, dist_pe_unclassified, dist_ee_unclassified, dist_pt_unclassified.

### C92 Ranges, zip, enumerate and chunk_view visit every element once, with every policy – partial

Theorems: `ItProps.v`. Source: ZpcIterator.hpp:438-502, ZpcIterator.hpp:571-706, ZpcIterator.hpp:709-790, omp/execution/ExecutionPolicy.hpp:91-97, execution/ExecutionPolicy.hpp:161.
Refuted: `C92_chunks_sequential_refuted`, `C92_strided_last_refuted`, `C92_strided_parallel_refuted`, `C92_descending_refuted`, `C92_large_unsigned_refuted`.
Proved for ascending integer intervals and arrays combined by zip and enumerate to any depth, and for chunks visited in parallel; sequential strided loops characterised. Refuted: chunk iterators always compare equal, so a sequential loop over chunks visits nothing; an increment that does not divide the length drops the last number; in parallel the distance is not divided by the increment, so numbers past the end are visited; descending ranges are empty in parallel; range(n) for unsigned n at or above half the modulus.

### C93 PCG random numbers: full period, equidistribution, reproducible streams, distinct seeds – partial

Theorems: `PcgProps.v`. Source: math/probability/Random.hpp:7-52.
Refuted: `C93_seed_refuted`.
Period, equidistribution and streams proved in full. The seed claim is refuted: the loop over __TIME__ includes the terminating zero, nine bytes in a 64-bit word, so the tens digit of the hours is shifted out and times ten hours apart give the same seed (exact characterisation proved).

### C94 Poisson, normal and anti-normal sampling return and invert their distribution functions – partial

Theorems: `ProbProps.v`. Source: math/probability/Probability.cpp:10-56.
Refuted: `C94_poisson_one_refuted`, `C94_poisson_fraction_refuted`, `C94_normal_refuted`.
Exact real arithmetic. Proved for whole lambda and uniform numbers below 1. Refuted: rand() = RAND_MAX never returns; PDF(lambda, x) resolves to the overload with int lambda, so for a lambda that is not whole the terms use the truncated value and the loop does not end for uniform numbers above a bound (exp(-lambda) if lambda < 1); rand_normal only sums densities at 1, 2, ..., so it never returns 0 or less and does not end for mean <= 0, deviation 1 and uniform numbers from 3/4 on; rand_anti_normal returns only 1 or 2 for deviations from 1.

### C95 Tensor index arithmetic numbers the index box one-to-one in storage order – proved

Theorems: `IdxProps.v`. Source: math/VecInterface.hpp:10-57, ZpcMathUtils.hpp:266-281, ZpcMathUtils.hpp:1784-1804.
C95_bijection, C95_order (the offset is the rank of the index in the lexicographic order of the arranged coordinates), C95_fewer, C95_block, C95_packs, C95_ranges. The index type is unbounded: wrap-around of a narrow index type is outside the model.

### C96 Integer gcd, lcm, powers, clamping and result types – partial

Theorems: `MuProps.v`. Source: ZpcMathUtils.hpp:296-325, ZpcMathUtils.hpp:327-382, ZpcFunctional.hpp:208-267.
Refuted: `C96_gcd_refuted`, `C96_lcm_refuted`, `C96_pow_refuted`, `C96_result_refuted`.
Proved: C96_gcd_partial (greatest common divisor for all values but the lowest against -1), C96_lcm_partial (no intermediate overflow), C96_pow_partial, C96_pow_signed, C96_pow_unsigned, C96_clamp, C96_minmax, C96_abs, C96_result, C96_result_holds_partial (exactly when the result type holds all arguments). Refuted: gcd is undefined for the lowest value and -1 and may be negative; lcm(0,0) divides by zero; negative exponents give 0 and the largest exponent the largest value whatever the base; (signed 8 bit, unsigned 64 bit) gives signed 8 bit. Integer promotion is not modelled.

### C97 ConditionVariable: notifications wake the waiters, waits return with the mutex and only when notified – partial

Theorems: `CvProps.v`. Source: execution/ConcurrencyPrimitive.hpp:59-78, execution/ConcurrencyPrimitive.cpp:157-211, execution/ConcurrencyPrimitive.cpp:425-472.
Refuted: `C97_notify_all_refuted`, `C97_two_waiters_refuted`, `C97_timeout_refuted`.
Proved: C97_mutex (all numbers of waiters), and for one waiting thread with any number of notifiers: C97_notified_partial (when a notification returns the queued thread is signalled or another notify_all is about to walk the queue), C97_notify_one (no lost notification), C97_no_spurious, C97_defined_partial (nothing undefined with notify_one only, or with at most one wait). Refuted: a second wait woken by notify_all reads a freed node; with two waiting threads notify_one frees the node of the thread it does not wake; a wait_for that times out reads its deleted node. The mutex is an ideal lock and the wait queue is not shared with other addresses.

### C98 The preset semirings obey the semiring laws – partial

Theorems: `SrProps.v`. Source: ZpcFunctional.hpp: monoid, SemiringImpl, multiplier_for, make_semiring.
Refuted: `C98_plus_times_refuted`, `C98_associative_refuted`, `C98_overflow_refuted`, `C98_distributive_refuted`, `C98_boolean_refuted`.
min_plus, max_plus, min_times, max_times agree with exact semirings (whose laws are proved, products on non-negative numbers) while the exact result is representable and differs from the sentinel; packs of any size. Refuted: associativity of min_plus when a finite sum reaches the sentinel, overflow, distributivity with negative factors, plus_times over 64 bit integers (value_type is int), neutrality of 0 for boolean over int. Missing: promotion of narrow types, mixed argument types, custom monoids, floating point domains (plus_times over them is in C41)

### C99 compute_mesh_normal gives area-weighted vertex normals – partial

Theorems: `MnProps.v`. Source: geometry/Mesh.cpp: compute_mesh_normal, compute_mesh_normal_impl.
Refuted: `C99_offset_refuted`, `C99_isolated_refuted`.
Exact real arithmetic, all schedules of the atomic additions (and of the stores for given normals). Refuted: a part not starting at node 0 (nodeOffset is never used, the additions go outside the array), isolated nodes (0/0). Missing: rounding, the data race of the equal stores, outputs of another size than the nodes

### C100 RandomNumber draws weights, boxes, balls and rotations of the right shape – partial

Theorems: `RdProps.v`. Source: math/RandomNumber.hpp: RandomNumber.
Refuted: `C100_weights_refuted`.
Exact reals; streams of [0,1) arbitrary. Weights convex, first accepted attempt, loop ends exactly if some attempt is accepted, every weight vector below one reachable; boxes, balls (also negative radius), plane rotations. Refuted: unconditional termination. Missing: that the results are uniformly distributed, 3D rotations (quaternion2matrix itself: C61), integers, seeding, rounding

### C101 Index literals are checked decimal numerals – proved

Theorems: `LitProps.v`. Source: ZpcFunctional.hpp: index_literals.
Refuted: `C101_octal_refuted`.
Exact characterisation of the literals that compile and of their value. Refuted beside it: agreement with C++ numerals with a leading zero (010_th is 10)

### C102 value_seq scans, reductions and shuffles – partial

Theorems: `VsProps.v`. Source: ZpcFunctional.hpp: value_seq.
Scans of the four kinds and reduce for every lawful monoid, predefined monoids of unsigned sums and products and of extrema shown lawful; shuffles. Missing: signed sums and products (C98_sums gives the packs), logical and custom monoids, conversions between value types, compwise, map, concat and transform (direct pack expansions)

### C103 Views of degrees of freedom – partial

Theorems: `DvProps.v`. Source: types/View.h: DofView, math/linear/LinearOperators.hpp: DofCompwiseOp, DofAssign, DofFill, IdentitySystem.
Refuted: `C103_write_vector_refuted`, `C103_identity_refuted`, `C103_extent_refuted`, `C103_copy_refuted`.
Single reads and writes, vector reads, iteration, component-wise operators and fills for all views and orders; vector writes and IdentitySystem except over channels of scalars, where both are refuted: set(i, vec) writes element i*dim+d of the first channel when dim is not the deduced one, IdentitySystem copies size() of the size()*dim values. The solvers' copies over range(numEntries()) are complete into scalars and run out of bounds into structures of vectors. Missing: index and channel wrap-around, floating-point rounding of the operations (any op is allowed), the vec conversions between value types

### C104 Dispatch over several variants calls the visitor once, on the alternatives held – proved

Theorems: `VtProps.v`. Source: types/Polymorphism.h: VariantTaskExecutor.
Alternatives numbered, CheckCallable an arbitrary predicate of the combination; std::visit-based match() is the standard library's

### C105 Refitting keeps exactly the active blocks, extending adds exactly the surrounding ones – partial

Theorems: `LdProps.v`. Source: geometry/LevelSetUtils.tpp: mark_level_set, geometry/LevelSetUtils.tpp: refit_level_set_domain, geometry/LevelSetUtils.tpp: extend_level_set_domain.
Refuted: `C105_refit_refuted`.
Refit with any active value, the marks, extension by n layers and the reserve bound are proved for every order of the loops. A level set without any active value is refuted: reset(false) keeps the counter and only index 0 would set it, so numBlocks() still reports the old blocks although the table is empty. Missing: staggered grids and dimensions other than 3, the sdf-driven overload of extend_level_set_domain, failing table insertions, rounding of background + threshold, negative nlayers (the loop while (nlayers--) does not end)

### C106 Extension over another level set reaches exactly the connected inside – proved

Theorems: `LeProps.v`. Source: geometry/LevelSetUtils.tpp: extend_level_set_domain(pol, ls, sdfLsv).
The domain of extend_level_set_domain(pol, ls, sdfLsv): set of blocks, numbering, reserve, and return exactly for finite reach, for every order of the visits. The averaged properties and marks of the new blocks are not modelled (racy by construction); the sign function is arbitrary and the table never fails

### C107 Every way of naming an element of a tensor names the same one – proved

Theorems: `TvProps.v`. Source: math/Tensor.hpp:10-197, ZpcTuple.hpp:381-399.
Access by call, subscripts and val of tensor_impl and tensor_view for every dimension, extents, padding, storage order and window. Not modelled: index overflow, whole-tensor arithmetic, variant_vec

### C108 Sampling a sparse level set – partial

Theorems: `SlProps.v`. Source: geometry/SparseLevelSet.hpp:461-493, geometry/SparseLevelSet.hpp:524-588, geometry/SparseLevelSet.hpp:663-711, geometry/SparseLevelSet.hpp:843-949, geometry/Structure.hpp:319-331.
Refuted: `C108_component_refuted`.
Reading, affine fields, range and the four-point ipack: any dimension. C108_component_partial: isample by property agrees with ipack when the offset of the property is a multiple of the dimension; refuted otherwise (C108_component_refuted), as isample takes the orientation from the absolute channel, e.g. a velocity behind a one-channel sdf. Missing: world transform, rounding, unnamed-channel ipack, absent properties

### C109 A level set is where its motions put it – partial

Theorems: `LwProps.v`. Source: geometry/SparseLevelSet.hpp:59-71, geometry/SparseLevelSet.hpp:140-187, geometry/SparseLevelSet.hpp:369-376, geometry/SparseLevelSet.hpp:421-428, geometry/SparseLevelSet.hpp:756-762, math/matrix/Transform.hpp:116-156.
Refuted: `C109_reset_refuted`, `C109_size_refuted`, `C109_skew_refuted`, `C109_velocity_refuted`.
Proved for all sequences of legitimate motions: round trips, effects of translate/rotate/scale, the returned matrix, velocities since construction, the cell size under uniform scalings since construction. False of the code: resetTransformation stores the transpose of the rotation (decompose_transform with output arguments does not transpose the factors back), so a rotation that is not its own inverse is set the other way round (C109_reset_refuted; C109_reset_partial says exactly when it is kept); resetTransformation leaves dx unchanged (C109_size_refuted); after it, non-uniform scalings turn velocities wrongly (C109_velocity_refuted; uniform ones in C109_velocity_partial); rotate with a matrix that is not orthogonal breaks the round trip (C109_skew_refuted). polar_decomposition is an argument constrained by hypotheses; rounding is not modelled.

### C110 Cells tile index space and the bounding box covers the level set – partial

Theorems: `LbProps.v, LcProps.v`. Source: geometry/SparseLevelSet.hpp:352-365, geometry/SparseLevelSet.hpp:379-416, ZpcMathUtils.hpp:1810-1814.
Refuted: `C110_staggered_refuted`.
Everything stated is proved except for staggered level sets without an orientation: indexToCell then returns another cell for face positions (C110_staggered_refuted). The box is smallest when positions lie between the sentinels (largest and lowest number). Exact arithmetic; worldToCell is indexToCell of the position mapped as in C109.

### C111 A sparse grid is where its motions put it, like a level set – partial

Theorems: `SwProps.v`. Source: geometry/SparseGrid.hpp:159-182, geometry/SparseGrid.hpp:254-262, geometry/SparseGrid.hpp:388-404, geometry/AdaptiveGrid.hpp:692-716, math/matrix/Transform.hpp:17-79, math/Vec.h:704-721.
Refuted: `C111_level_set_refuted`, `C111_turn_refuted`, `C111_projective_refuted`.
Round trips, translate, the effect of rotate and scale on indices, the fixed index origin and voxelSize are proved for all sequences of motions. False of the code: rotate multiplies from the left, so once voxel sizes differ by direction it does not turn the grid in the world (C111_turn_refuted; C111_turn_partial for uniform voxels); rotate transposes its argument, unlike SparseLevelSet::rotate, so the same motions turn level set and grid in opposite directions (C111_level_set states the exact relation, C111_level_set_refuted); invertible matrices with a projective part are not undone (C111_projective_refuted). Exact arithmetic.

### C112 Growing a HashTable keeps its entries – partial

Theorems: `HpProps.v`. Source: container/HashTable.hpp:221-296, container/HashTable.hpp:422-469.
Refuted: `C112_preserve_refuted`.
resize is proved in full (queries with the proviso of C31 on slot size - 127). preserve is proved when the table grows or the number is unchanged; when it does not grow, RemoveHashTableEntries cuts probe sequences, so with colliding keys a later key is not found and index -1 is written (C112_preserve_refuted). Reinsertion in range order, one at a time.

### C113 Dense fields are row-major arrays – proved

Theorems: `DfProps.v`. Source: container/DenseField.hpp:37-53, container/DenseField.hpp:121-122, container/DenseField.hpp:146-170, container/DenseField.hpp:214-230.
Refuted: `C113_unchecked_refuted`.
All parts for host fields; sizes do not wrap. C113_unchecked_refuted records that invalid indices are not detected (without the optional access check they reach other elements), which the claim excludes.

### C114 Copyable pointers own their object alone and copy by value – partial

Theorems: `CpProps.v`. Source: types/Pointers.hpp:8-113.
Refuted: `C114_empty_refuted`.
All but the last clause is proved, for std::default_delete and a T whose copy is equal to the original. The last clause is false (C114_empty_refuted): copy construction and copy assignment (Pointers.hpp:38-44) evaluate *o without a test, which dereferences null when o is empty, for instance after it was moved from. Not modelled: other deleters, copies from and moves of a unique_ptr, conversions, release.

### C115 The background job queue runs jobs once, in order, and finishes them before it goes – partial

Theorems: `IoProps.v`. Source: io/IO.h:7-51, execution/Concurrency.h:35-39, execution/Concurrency.h:74-80, execution/Concurrency.h:88-91.
Refuted: `C115_flush_refuted`, `C115_join_refuted`, `C115_deadlock_refuted`, `C115_late_refuted`, `C115_race_refuted`.
Order, exactly once, no lost wake-up and progress are proved in full (C115_order, C115_wakeup, C115_progress). flush only waits until the queue is empty: the job taken last may still be running when it returns (C115_flush_partial, C115_flush_refuted). The destructor stores false in bRunning without notifying (IO.h:31), so with an idle worker it hangs in join unless the condition variable wakes up spuriously (C115_join_refuted, C115_deadlock_refuted); it ends if the worker is awake and has not yet decided to sleep (C115_joins_partial), and then every job has been run unless a job inserted another meanwhile (C115_destroyed_partial, C115_late_refuted). bRunning is read and written without synchronisation (C115_race_refuted). Simplified: one thread calls flush, sequentially consistent accesses, jobs do not throw.

## Print Assumptions

Closed under the global context (607 theorems): all theorems of the properties C01, C02, C03, C04, C05, C06, C07, C08, C09, C10, C11, C12, C13, C14, C15, C16, C17, C18, C19, C20, C21, C22, C23, C24, C25, C26, C27, C28, C29, C30, C31, C32, C33, C34, C35, C36, C37, C38, C39, C40, C41, C42, C43, C44, C45, C46, C47, C48, C49, C50, C51, C52, C53, C54, C55, C56, C57, C58, C59, C60, C61, C62, C63, C64, C65, C66, C67, C68, C69, C70, C71, C72, C73, C74, C75, C76, C77, C78, C79, C83, C84, C86, C87, C92, C93, C95, C96, C97, C98 except those listed below.

`ClassicalDedekindReals.sig_forall_dec`, `FunctionalExtensionality.functional_extensionality_dep` (40 theorems):

`C100_ball`, `C100_box`, `C100_weights`, `C100_weights_all`, `C100_weights_first`, `C100_weights_refuted`, `C80_equation_of_state`, `C80_gamma_refuted`, `C80_hessian_1d_refuted`, `C80_lame`, `C80_lame_inverse`, `C80_symmetric`, `C81_I2`, `C81_I3`, `C81_I5`, `C81_dFAdF`, `C81_dFdX`, `C81_stretching`, `C85_inside`, `C85_no_gain_partial`, `C85_outside`, `C85_separate_partial`, `C85_slip_partial`, `C85_slip_refuted`, `C85_sticky`, `C85_velocity`, `C85_with_normal`, `C87_periodic_candidate`, `C87_space`, `C87_space_no_worker_refuted`, `C87_space_workers`, `C88_closest_edge`, `C88_closest_edges`, `C88_closest_triangle`, `C88_momentum`, `C88_relative_motion`, `C90_mollifier_kink`, `C90_mollifier_threshold`, `C90_mollifier_values`, `C99_flat`.

`ClassicalDedekindReals.sig_forall_dec`, `ClassicalDedekindReals.sig_not_dec`, `FunctionalExtensionality.functional_extensionality_dep` (55 theorems):

`C100_rotation`, `C100_rotation_all`, `C81_I1_partial`, `C81_arap_half`, `C81_arap_stiffness_refuted`, `C81_arap_stress_refuted`, `C82_drucker_prager_friction`, `C82_snow_bounds`, `C85_erosion_partial`, `C85_erosion_refuted`, `C85_small_sphere_refuted`, `C85_sphere_normal`, `C87_periodic_partial`, `C87_periodic_refuted`, `C87_plane_box_refuted`, `C87_plane_check_partial`, `C87_plane_finishes_partial`, `C87_plane_samples_partial`, `C87_plane_undefined_refuted`, `C87_space_apart`, `C88_basis_edge`, `C88_basis_edges`, `C88_basis_points`, `C88_basis_triangle`, `C88_edge_edge`, `C88_point_edge`, `C88_point_triangle`, `C88_points`, `C88_potential`, `C88_stiffness`, `C88_stiffness_sliding_refuted`, `C89_hessian`, `C89_hessian_symmetric`, `C90_cross_norm`, `C90_edge_edge`, `C90_mollifier_gradient`, `C90_mollifier_hessian`, `C90_point_edge`, `C90_point_edge_plane`, `C90_point_triangle`, `C91_edge_edge`, `C91_parallel_edge_edge`, `C91_parallel_point_edge`, `C91_parallel_point_point`, `C91_point_edge`, `C91_point_point`, `C91_point_triangle`, `C94_poisson_one_refuted`, `C94_poisson_partial`, `C99_given`, `C99_isolated_refuted`, `C99_length`, `C99_normals`, `C99_offset_refuted`, `C99_part_partial`.

`ClassicalDedekindReals.sig_forall_dec`, `ClassicalDedekindReals.sig_not_dec`, `Classical_Prop.classic`, `FunctionalExtensionality.functional_extensionality_dep` (48 theorems):

`C79_consistent`, `C79_covers`, `C79_expansion_sum`, `C79_init`, `C79_orient2d`, `C79_orient3d_partial`, `C79_strongly_nonoverlapping_refuted`, `C79_two_product`, `C79_two_sum`, `C79_underflow_refuted`, `C80_coincident`, `C80_gradient`, `C80_hencky_coefficient`, `C80_hencky_inverted_refuted`, `C80_hessian_partial`, `C80_project_spd`, `C80_stiffness_partial`, `C80_stress`, `C81_friction_angle_refuted`, `C81_neo_hookean_agree_partial`, `C81_neo_hookean_agree_refuted`, `C81_objective`, `C81_rest`, `C81_stiffness`, `C81_stress`, `C82_cam_clay_admissible_refuted`, `C82_cam_clay_ellipse_partial`, `C82_cam_clay_tips`, `C82_capped_elastic`, `C82_capped_idempotent`, `C82_capped_result`, `C82_drucker_prager_admissible`, `C82_drucker_prager_elastic_refuted`, `C82_drucker_prager_flow_partial`, `C82_drucker_prager_idempotent_partial`, `C82_snow_hardening_partial`, `C82_von_mises_admissible`, `C82_von_mises_flow`, `C82_von_mises_surface_refuted`, `C89_angle`, `C89_exchange`, `C89_gradient`, `C89_mirror`, `C94_anti_normal`, `C94_densities`, `C94_normal_range`, `C94_normal_refuted`, `C94_poisson_fraction_refuted`.
