{
"C01": {
"status": "proved",
"note": "Bit-exact interleaving, inverse by compaction, and decoder for the 32- and 64-bit 3-D codes. The float-to-integer scaling is outside the model."
},
"C02": {
"status": "proved",
"note": "Unsigned instantiations; both directions; also injectivity of hash_combine in the value."
},
"C03": {
"status": "partial",
"note": "All utilities; next_2pow above 2^(w-1) and bit_pack/bit_spread on masks 0 and 2^63 are undefined (refuted), and the pack/spread round trip needs at most 32 mask bits because the result is an int."
},
"C04": {
"status": "partial",
"note": "Exact refinement to an index set for Size a multiple of 64, or for programs without whole-mask on/toggle; otherwise padding bits of the last word leak (refuted by witness). countOffset(Size) with Size a multiple of 64 reads out of range (refuted)."
},
"C05": {
"status": "proved",
"note": "Full refinement for every capacity and history. Extra: int counters stay bounded for Size>=2; for Size=1 the head counter grows without bound (refuted boundedness)."
},
"C06": {
"status": "proved",
"note": "All constructors, size, ==, + ; no out-of-range access."
},
"C07": {
"status": "proved",
"note": "Per-object ownership automaton over all histories, self-move included; deleter identity also tracked."
},
"C08": {
"status": "partial",
"note": "Alignment, range, disjointness and LIFO reuse proved for every history; the claim that a failing allocate leaves the allocator usable is refuted (head is moved before the check), and zero-sized blocks cannot be freed (refuted)."
},
"C09": {
"status": "partial",
"note": "Exact for ranges inside the reservation (offset+bytes without size_t wrap), arbitrary histories including failing system calls; ranges reaching beyond the reservation are clamped and reported committed/resident (refuted)."
},
"C10": {
"status": "partial",
"note": "List refinement proved for every history; reorder puts elements right for every schedule but sets size() to capacity() (refuted), push_back of an own element reads freed storage when reallocating (refuted). Virtual-allocator branch and non-host memory not modelled."
},
"C100": {
"status": "partial",
"note": "Exact reals; streams of [0,1) arbitrary. Weights convex, first accepted attempt, loop ends exactly if some attempt is accepted, every weight vector below one reachable; boxes, balls (also negative radius), plane rotations. Refuted: unconditional termination. Missing: that the results are uniformly distributed, 3D rotations (quaternion2matrix itself: C61), integers, seeding, rounding"
},
"C101": {
"status": "proved",
"note": "Exact characterisation of the literals that compile and of their value. Refuted beside it: agreement with C++ numerals with a leading zero (010_th is 10)"
},
"C102": {
"status": "partial",
"note": "Scans of the four kinds and reduce for every lawful monoid, predefined monoids of unsigned sums and products and of extrema shown lawful; shuffles. Missing: signed sums and products (C98_sums gives the packs), logical and custom monoids, conversions between value types, compwise, map, concat and transform (direct pack expansions)"
},
"C103": {
"status": "partial",
"note": "Single reads and writes, vector reads, iteration, component-wise operators and fills for all views and orders; vector writes and IdentitySystem except over channels of scalars, where both are refuted: set(i, vec) writes element i*dim+d of the first channel when dim is not the deduced one, IdentitySystem copies size() of the size()*dim values. The solvers' copies over range(numEntries()) are complete into scalars and run out of bounds into structures of vectors. Missing: index and channel wrap-around, floating-point rounding of the operations (any op is allowed), the vec conversions between value types"
},
"C104": {
"status": "proved",
"note": "Alternatives numbered, CheckCallable an arbitrary predicate of the combination; std::visit-based match() is the standard library's"
},
"C105": {
"status": "partial",
"note": "Refit with any active value, the marks, extension by n layers and the reserve bound are proved for every order of the loops. A level set without any active value is refuted: reset(false) keeps the counter and only index 0 would set it, so numBlocks() still reports the old blocks although the table is empty. Missing: staggered grids and dimensions other than 3, the sdf-driven overload of extend_level_set_domain, failing table insertions, rounding of background + threshold, negative nlayers (the loop while (nlayers--) does not end)"
},
"C106": {
"status": "proved",
"note": "The domain of extend_level_set_domain(pol, ls, sdfLsv): set of blocks, numbering, reserve, and return exactly for finite reach, for every order of the visits. The averaged properties and marks of the new blocks are not modelled (racy by construction); the sign function is arbitrary and the table never fails"
},
"C107": {
"status": "proved",
"note": "Access by call, subscripts and val of tensor_impl and tensor_view for every dimension, extents, padding, storage order and window. Not modelled: index overflow, whole-tensor arithmetic, variant_vec"
},
"C108": {
"status": "partial",
"note": "Reading, affine fields, range and the four-point ipack: any dimension. C108_component_partial: isample by property agrees with ipack when the offset of the property is a multiple of the dimension; refuted otherwise (C108_component_refuted), as isample takes the orientation from the absolute channel, e.g. a velocity behind a one-channel sdf. Missing: world transform, rounding, unnamed-channel ipack, absent properties"
},
"C109": {
"status": "partial",
"note": "Proved for all sequences of legitimate motions: round trips, effects of translate/rotate/scale, the returned matrix, velocities since construction, the cell size under uniform scalings since construction. False of the code: resetTransformation stores the transpose of the rotation (decompose_transform with output arguments does not transpose the factors back), so a rotation that is not its own inverse is set the other way round (C109_reset_refuted; C109_reset_partial says exactly when it is kept); resetTransformation leaves dx unchanged (C109_size_refuted); after it, non-uniform scalings turn velocities wrongly (C109_velocity_refuted; uniform ones in C109_velocity_partial); rotate with a matrix that is not orthogonal breaks the round trip (C109_skew_refuted). polar_decomposition is an argument constrained by hypotheses; rounding is not modelled."
},
"C11": {
"status": "partial",
"note": "Addressing, property ranges and the table specification hold for every history, every order of parallel assignments; refuted: copying a TileVector without channels divides by zero, and reorderTiles with a partly filled last tile can push live elements beyond size(). Not modelled: device memory, named views' tag lookup beyond offsets, tile pack/tuple reads."
},
"C110": {
"status": "partial",
"note": "Everything stated is proved except for staggered level sets without an orientation: indexToCell then returns another cell for face positions (C110_staggered_refuted). The box is smallest when positions lie between the sentinels (largest and lowest number). Exact arithmetic; worldToCell is indexToCell of the position mapped as in C109."
},
"C111": {
"status": "partial",
"note": "Round trips, translate, the effect of rotate and scale on indices, the fixed index origin and voxelSize are proved for all sequences of motions. False of the code: rotate multiplies from the left, so once voxel sizes differ by direction it does not turn the grid in the world (C111_turn_refuted; C111_turn_partial for uniform voxels); rotate transposes its argument, unlike SparseLevelSet::rotate, so the same motions turn level set and grid in opposite directions (C111_level_set states the exact relation, C111_level_set_refuted); invertible matrices with a projective part are not undone (C111_projective_refuted). Exact arithmetic."
},
"C112": {
"status": "partial",
"note": "resize is proved in full (queries with the proviso of C31 on slot size - 127). preserve is proved when the table grows or the number is unchanged; when it does not grow, RemoveHashTableEntries cuts probe sequences, so with colliding keys a later key is not found and index -1 is written (C112_preserve_refuted). Reinsertion in range order, one at a time."
},
"C113": {
"status": "proved",
"note": "All parts for host fields; sizes do not wrap. C113_unchecked_refuted records that invalid indices are not detected (without the optional access check they reach other elements), which the claim excludes."
},
"C114": {
"status": "partial",
"note": "All but the last clause is proved, for std::default_delete and a T whose copy is equal to the original. The last clause is false (C114_empty_refuted): copy construction and copy assignment (Pointers.hpp:38-44) evaluate *o without a test, which dereferences null when o is empty, for instance after it was moved from. Not modelled: other deleters, copies from and moves of a unique_ptr, conversions, release."
},
"C115": {
"status": "partial",
"note": "Order, exactly once, no lost wake-up and progress are proved in full (C115_order, C115_wakeup, C115_progress). flush only waits until the queue is empty: the job taken last may still be running when it returns (C115_flush_partial, C115_flush_refuted). The destructor stores false in bRunning without notifying (IO.h:31), so with an idle worker it hangs in join unless the condition variable wakes up spuriously (C115_join_refuted, C115_deadlock_refuted); it ends if the worker is awake and has not yet decided to sleep (C115_joins_partial), and then every job has been run unless a job inserted another meanwhile (C115_destroyed_partial, C115_late_refuted). bRunning is read and written without synchronisation (C115_race_refuted). Simplified: one thread calls flush, sequentially consistent accesses, jobs do not throw."
},
"C12": {
"status": "partial",
"note": "Proved when assign is used on ids that insert returned; refuted otherwise (assign to an unissued id makes a later insert silently ineffective)."
},
"C13": {
"status": "partial",
"note": "Proved for first extent >= 0 and inner extents >= 1, any dimension, and described exactly for inner extents >= 0 (a zero inner extent counts as one); the claim is refuted for a zero inner extent (Collapse(2,0) visits 2 tuples)."
},
"C14": {
"status": "partial",
"note": "Inclusive scan and reduce: any operator, in place or disjoint. Exclusive scan proved when the output does not overwrite unread input; in-place exclusive scan is refuted."
},
"C15": {
"status": "partial",
"note": "Every thread count and every schedule between barriers, for associative and commutative operators; refuted for non-commutative ones."
},
"C16": {
"status": "partial",
"note": "Every thread count and schedule, associative commutative operator, init a left identity; refuted for other initial values (dropped)."
},
"C17": {
"status": "partial",
"note": "Every thread count and schedule, any monoid with init its identity; refuted for other initial values (counted once per thread)."
},
"C18": {
"status": "proved",
"note": "Any length, any strict weak order, any content of the temporary storage; the stable sort is unique."
},
"C19": {
"status": "partial",
"note": "Right for every thread order when all non-empty chunks need the same parity of merge passes (in particular even splits and short inputs); false otherwise, refuted by 513 elements on 2 threads."
},
"C20": {
"status": "proved",
"note": "Any key width, signedness, bit range and buffer content; full width is numeric order."
},
"C21": {
"status": "proved",
"note": "Every thread count and every interleaving of the scattered stores gives the sequential result."
},
"C22": {
"status": "partial",
"note": "Proved that the OpenMP pair sort sorts ascending by the built-in less of keys; that it honours the comparator argument is refuted."
},
"C23": {
"status": "partial",
"note": "Integers, and floating-point add/exchange, in full (linearizable under every schedule, bounded number of steps, fold of operands). Floating-point max/min proved when -0 does not occur; with -0 an update can be lost (refuted): the loop compares values while the compare-exchange compares bits."
},
"C24": {
"status": "proved",
"note": "heap-level model with explicit nodes and links; every history of operations from the empty map (run) refines the finite map and is memory safe, destroy frees all. count() on an empty map dereferences the null root: C24_..._count_empty_refuted (finding). Assumes == and Compare form a strict total order (record total_order)."
},
"C25": {
"status": "proved",
"note": "red-black shape stated on the heap (rbh), key order around every node, path bound 2*log2(size+1), and the number of nodes a lookup reads."
},
"C26": {
"status": "proved",
"note": "walks, bounds and erasing through iterators after every history. const_reverse_iterator's operator-- at crend() goes to the largest entry instead of the smallest: C26_const_reverse_decrement_refuted (finding)."
},
"C27": {
"status": "proved",
"note": "Any number of threads, any interleaving at the level of single loads, compare-exchanges, counter increments and writes; wait-free step bound; failure causes characterised. Sequentially consistent memory, host code path. Two additional refuted expectations: failure on a capacity-0 table leaves the success flag set; the all-0x3f key is reported as existing. Wide keys: the slot lock makes accesses indivisible (separate model)."
},
"C28": {
"status": "proved",
"note": "Every table reachable by construction, parallel insertion phases, successful resizes and resets is the dictionary of its active keys."
},
"C29": {
"status": "partial",
"note": "Proved for every schedule when no reinsertion returns the failure token; the unconditional claim is refuted: three full buckets lose keys on growth (flagged in _buildSuccess)."
},
"C30": {
"status": "partial",
"note": "Full statement refuted: a displaced key re-inserted is stored twice (C30_reinsertion_refuted), a failing insertion drops another key (C30_lost_key_refuted, exact effect in C30_failure_drops_one_key), activeKeys overrun, reserved key. Proved: the dictionary for all histories of distinct keys with displacement, resize and reset and no failure token; the full statement incl. repetitions when no bucket overflows. Host code, compare_key = true; GPU/OpenMP versions not modelled."
},
"C31": {
"status": "partial",
"note": "Insertion proved in full (sequential calls) from a reset table; query proved for tables with no occupied slot size-127, refuted otherwise (probe reads slot size: guard uses > instead of >=); inserting into a full table proved to diverge. Not modelled: preserve(), concurrent insertion, device code."
},
"C32": {
"status": "partial",
"note": "Proved for every schedule of the build kernels: box queries report each primitive exactly once per shared cell (cells open at upper faces), nothing else; overlapping boxes and points inside are reported. Refuted for points on upper faces on grid lines, for flat boxes in the first dimension, and after build with no primitives (old structure kept). Exact integer coordinates; floating-point rounding, int overflow and failures of reinsertion during table growth are not modelled."
},
"C33": {
"status": "proved",
"note": "LBvh::build from the sorted Morton codes on (more than two primitives), any order of the iterations of each parallel loop: no access outside an array or to an unwritten element, pre-order layout of a full binary tree over the sorted primitives, escape indices, levels, parents and leaf indices as specified by BvhSpec.stored. Morton code computation and the radix sort (C19) are inputs here; buildRefit is not covered."
},
"C34": {
"status": "proved",
"note": "All of iter_neighbors, ray_intersect (through the monotone-test theorem), the treelet and front variants and find_nearest_point on a tree left by build and refit. Coordinates are integers standing for the compared floating-point values."
},
"C35": {
"status": "partial",
"note": "Refuted for more than two primitives: self_iter_neighbors(leafId) starts at the leaf itself and so always reports that leaf's own primitive first (C35_pairs_itself_refuted). Apart from these, each overlapping pair is reported exactly once (partial theorem); with at most two primitives the full claim holds."
},
"C36": {
"status": "proved",
"note": "Every interleaving of single shared-memory accesses under sequential consistency; nonempty boxes (merge of an inverted box is not a union). Memory fences are not modelled."
},
"C37": {
"status": "proved",
"note": "Device sort of build is a contract (host build does not compile: float radix sort). refit on the sequential policy uses the verified merge sort. Boxes with min<=max, finite coordinates. Point queries (vec) do not compile (bv._max). Finding: LBvs::build cannot be instantiated with the sequential or OpenMP policy."
},
"C38": {
"status": "proved",
"note": "build, topology build (with and without Mirror) and fastBuild; every order of the atomic and plain operations"
},
"C39": {
"status": "partial",
"note": "Transposed entries proved when B already has the transposed shape. Refuted: transposeFrom between equal layouts never assigns the shape; A.transposeFrom(A) uses uninitialised memory. The opposite-layout branch does not compile (pointer comparison of different types); its statements are shown to be right for scalar values."
},
"C40": {
"status": "partial",
"note": "linear lookup fully proved; binary search proved on rows not starting at 0 or whose first entry is not after the target; refuted elsewhere (unsigned wrap-around, out-of-bounds read)"
},
"C41": {
"status": "partial",
"note": "spmv_classic and spmv_mask fully; spmv for row-major and square column-major. Refuted: column-major rectangular spmv (range(nrows) instead of ncols), and plus_times over floating point (SemiringImpl::value_type is int, products truncated)"
},
"C42": {
"status": "partial",
"note": "Termination and completeness for all weights; properness when adjacent weights differ; maximum_independent_sets classes are maximal and colours bounded by degree + 1. Properness with equal weights at adjacent vertices is refuted for both functions. Float weights modelled as integers (only compared)."
},
"C43": {
"status": "proved",
"note": "Plain loads/stores of path halving are taken as indivisible (they race with the CAS in C++ terms). Representative = root reached by following fas; fas itself is not flattened (C43_array_holds_labels_refuted)."
},
"C44": {
"status": "partial",
"note": "Under every interleaving of the search kernel and of the table construction the result is the value of a feasible flow and the matrix holds its residual capacities; no access out of bounds, search bounded. When kernel invocations do not overlap (sequential policy, any order) the result equals a cut capacity and bounds every flow (max-flow = min-cut). Overlapping invocations: refuted, the call may return 0 with maximum 5. Also refuted: source = sink never returns; missing transposed entry indexes out of bounds. Value type unbounded Z; insertion failures of the edge table excluded."
},
"C45": {
"status": "proved",
"note": "Any number of threads, any interleaving of single accesses (sequentially consistent, weak compare-exchange may fail spuriously), spurious wake-ups and arbitrary interference on the shared wait queue included; try_lock only fails while somebody owns the mutex; a free mutex can be taken."
},
"C46": {
"status": "partial",
"note": "Refuted in general: unpark advances its cursor before erasing, so it frees the waiter behind the one it signals (also of an unrelated address), notify_all reads a freed node as soon as a second waiter is queued, a timed-out head waiter reads its node after delete, and futex wake with count 0 wakes one. Proved: exact effect on every queue, well-formedness over all histories, correct behaviour while at most one thread at a time is inside parkFor."
},
"C47": {
"status": "partial",
"note": "+ - * exact and in lowest terms for every sign pattern, / and constructors exact and canonical, == on canonical values; overflow explicit, none below 2^31. A positive denominator after + and * is proved for non-negative operands and false otherwise (refuted: -1/4 + -5/4 = 3/-2)."
},
"C48": {
"status": "partial",
"note": "operator< in full for positive denominators; operator> for canonical operands (refuted for 1/2 > 2/4); after a sum with a negative denominator < is wrong (refuted)."
},
"C49": {
"status": "partial",
"note": "Order, is_sum_leq_1 and bisect in full on dyadic numbers of [0,1]; + exact except when the power underflows (refuted: 1+1). The conversion from double is not modelled."
},
"C50": {
"status": "proved",
"note": "Codecs of AdaptiveGridImpl (283-319) for all configurations accepted by the static_asserts that fit in int; not modelled: the level tables, accessors and restructuring."
},
"C51": {
"status": "partial",
"note": "Proved for every schedule while the pushes fit in the capacity (push_back) and for every front within capacity (reorder); refuted after an overflow: the counter exceeds the capacity and reorder indexes out of bounds."
},
"C52": {
"status": "partial",
"note": "In-buffer offsets proved for every upstream; alignment and validity of earlier blocks hold only while the buffer is not replaced, refuted by witness on growth."
},
"C53": {
"status": "partial",
"note": "Proved while at most one thread at a time waits (unconditionally for two threads); refuted for three threads, where a sleeping locker's node is freed and nobody can wake it. Only this mutex uses the queue."
},
"C54": {
"status": "proved",
"note": "exact rational arithmetic replaces floating point; sqrt of the delta kernels is any function that respects equality, is non-negative, never above the true root and exact on 1 and 1/4; the grid lookup with its default is a parameter"
},
"C55": {
"status": "partial",
"note": "proved for all sequences of operations in which copy/move assignment only targets an empty function (or itself), plain lvalue assignment has another, full, copyable source, constructors throw only into an empty function and no self-referencing callable is moved; every excluded use is refuted (leak, double destruction, use after destruction, wrong operator bool)"
},
"C56": {
"status": "partial",
"note": "proved for all sequences without copies of (or onto) full owners; copying owners uses the implicit bytewise copy and is refuted, as are throwing constructors and self-assignment for non-assignable types; only the variant for types without default constructor is modelled"
},
"C57": {
"status": "proved",
"note": "exact arithmetic over abstract rings and fields: rounding is not modelled"
},
"C58": {
"status": "partial",
"note": "all modelled helpers are right except: matrixCofactor3d writes the adjugate (transposed cofactors), vec_crossMul_vec_3D has the wrong signs, parallel looks at one component only (refuted)"
},
"C59": {
"status": "partial",
"note": "Sums, differences, quotients, real operands, ==, conj, norm, abs and sqrt proved. complex *= complex overwrites _real before computing _imag: the product is wrong unless (re(xy) - re x) im y = 0 (C59_product_refuted: i*i = -1-i). pow, log, polar and the trigonometric functions need transcendental functions and are not modelled; pow(complex, int) does not compile (x *= x on a const reference)."
},
"C60": {
"status": "partial",
"note": "Quadratic: proved for leading coefficient above the tolerance and non-zero discriminant (smallest non-negative root); refuted for a < 0, double roots and a root at 0. Cubic: proved for one real root with a real principal cube root of the resolvent; x^3 - 1 refuted (the branch needs complex products, which are wrong). cbrt stands for pow(z, 1/3) as a parameter."
},
"C61": {
"status": "partial",
"note": "All constructors, the round trips outside the near_zero band and the quaternion identities are proved over every real closed field. The unrestricted round trip is refuted: rotations whose angle lies inside the band come back as the identity (or pitch 90 degrees). Square roots are exact; angles are represented by cosine and sine."
},
"C62": {
"status": "proved",
"note": "polar_decomposition is a parameter with the hypothesis that its factors multiply to its argument."
},
"C63": {
"status": "partial",
"note": "Exact arithmetic. Relative accuracy for every argument is refuted: every argument in (0, eps) gives 0."
},
"C64": {
"status": "proved",
"note": "Exact arithmetic over every real closed field; the system object is three matrices; execution policies, views and printing are not modelled (the code also waits for a key press after every iteration from the second)."
},
"C65": {
"status": "partial",
"note": "Exact arithmetic. Two parts of the full claim are refuted: the tested residual keeps the reactions of fixed dofs because the first product is not projected, so the solver continues after the tolerance is met; and solve overwrites the member tol, so a solve changes the tolerance of later ones."
},
"C66": {
"status": "proved",
"note": "Exact real arithmetic (any real closed field). gram_schmidt of a singular matrix divides by zero in the code; the theorem asks for a non-zero determinant."
},
"C67": {
"status": "proved",
"note": "Exact real arithmetic (any real closed field); nearest in the Frobenius norm among all 2x2 rotations."
},
"C68": {
"status": "partial",
"note": "Termination, rotations, ordering and accuracy are proved for every matrix with the tolerance of the code. C68_relative_refuted: the tolerance has an absolute floor, so the accuracy is not relative to A; a non-zero matrix with entries up to 128 eps gets all singular values 0."
},
"C69": {
"status": "partial",
"note": "Proved for floating point element types in exact real arithmetic. C69_integer_refuted: integer matrices are accepted too, but the working copy keeps the integer type and truncates; diag(1,2) gets the eigenvalues 3/2 and 3/2."
},
"C70": {
"status": "partial",
"note": "Termination, orthonormality of E, the size of the remainder and positive semi-definiteness of make_pd are proved for every size. Accuracy is false: C70_stale_refuted (the index of the largest entry is refreshed only in the two pivot rows, so the loop can stop with large entries off the diagonal), C70_zero_refuted (zero matrix: division by zero), C70_one_refuted (1x1 matrix: reads outside)."
},
"C71": {
"status": "partial",
"note": "Proved in exact arithmetic: least distance and category for proper edges (2D, 3D) and triangles (any dimension). Refuted: degenerate edges and triangles divide by zero (NaN), and dist2_pe_unclassified in one dimension returns the largest number for a point inside the interval."
},
"C72": {
"status": "partial",
"note": "Proved: least distance whenever the compared numbers are zero or not below the tolerance (all integer coordinates); result always attained; dist2_ee_unclassified for edges that do not meet. Refuted: crossing coplanar edges (dist2_ee_unclassified returns 1 instead of 0), second edge a point (dist_ee_sqr), short crossing edges for every tolerance."
},
"C73": {
"status": "partial",
"note": "Proved: soundness always, equivalence when the edge is not parallel to the plane; mollifier and its derivatives; point-point gradient in every dimension, Hessian in 2D and 3D. Refuted: coplanar edges are never reported, one-dimensional Hessian lacks mixed terms."
},
"C74": {
"status": "partial",
"note": "Boxes, balls, cylinders: signed distance proved for every point (boxes with min <= max, radius and length not negative), distance(box,p) the same; plane proved for unit normals and refuted otherwise (the constructor does not normalise). Bounding boxes of balls and cylinders proved to be the smallest; that of a plane is a single point (refuted). getNormal of boxes and cylinders does not compile (unqualified call into a dependent base) and is not modelled. Exact real arithmetic."
},
"C75": {
"status": "partial",
"note": "overlaps, merge, get_bounding_box and both broad phases proved. ray_box_intersect proved for a nonzero direction unless the ray starts on an x-face and is parallel to it; refuted for the zero direction and for that face (false positive and false negative through NaN). ray_tri_intersect: hits proved within the tolerance, completeness when the scaled direction exceeds the tolerance; refuted: hits behind the origin are returned, hits in small triangles are missed. getUniformCoord of a flat box divides zero by zero (refuted). Exact arithmetic with IEEE infinities."
},
"C76": {
"status": "partial",
"note": "Proved for all side lengths, dimensions, channels and operation sequences over the model (block table as guaranteed by C27/C28, unbounded coordinates, exact positions). Partial because two parts of the claim are false of the code: an accessor on a grid of side length 1 takes the node (2^31-1,...) for its empty cache entry and reads block -1, and an accessor that outlives a clear of the table reads block -1 through its stale entry (both _refuted); writing an inactive voxel is undefined rather than an activation (C76_inactive_write). global_coord_to_local_offset cannot be instantiated (operator precedence in its static_assert)."
},
"C77": {
"status": "partial",
"note": "All conservation statements proved over exact rationals, any particle set, any order of the atomic additions. Refuted part: the stress P2G writes (channels 4-6) never reaches the particles, because ComputeGridBlockVelocity reads only channels 0-3 (C77_stress_acts_refuted). Rounding, maxVel and the other constitutive models are not modelled."
},
"C78": {
"status": "partial",
"note": "Proved: sparsity, enlarging, coverage for block sides from 4, buckets under every interleaving, neighbour completeness. Refuted parts: coverage fails for side 2; partition_for_particles sizes its table by particles/blocklen^dim, zero slots for fewer than 64 particles and too few for scattered ones; bucketCoord assumes displacement 0.5. The hash table is abstracted to its key list."
},
"C79": {
"status": "partial",
"note": "orient2d proved for every coordinate that does not underflow (binary64 with unbounded upper exponent; Flocq, so the standard library's axioms of the reals, classic and functional extensionality are used); orient3dadapt is not modelled. Refuted: tiny coordinates underflow to 'collinear'; the sum of strongly nonoverlapping expansions is not always strongly nonoverlapping (comment at 391-393); fast_expansion_sum_zeroelim reads one element past the end of e or f on every call (without influence on the result)."
},
"C80": {
"status": "partial",
"note": "Exact real arithmetic; the SVD is an argument (any orthogonal U, V). Proved: gradient (dims 1-3), Hessian (all but 1D fixed corotated), stress, stiffness for resolved stretches, limit at coincident stretches, error bound of the Hencky coefficient between, symmetry, positive semi-definiteness after make_pd, Lame conversions, equation of state. Refuted: FixedCorotated's 1D second derivative is the constant 1; the Hencky stiffness has the wrong sign for inverted elements; EquationOfState ignores its gamma argument. first_piola_derivative does not compile in 1D."
},
"C81": {
"status": "partial",
"note": "I1's Hessian is a derivative only where its denominators are not clamped (stretches sum pairwise to at least 1e-6). Refuted: NeoHookeanInvariant subtracts 3 instead of the dimension (2D energy differs from NeoHookean by mu/2); AnisotropicArap::first_piola is half the derivative of psi and first_piola_derivative is the derivative of neither; mohrColumbFriction takes the sine of an angle in degrees."
},
"C82": {
"status": "partial",
"note": "Refuted: Drucker-Prager resets uniformly compressed (elastic) states to the undeformed one; NonAssociativeVonMises does not reach the yield surface (old volume is used) nor keeps the volume; Cam-Clay outside of the ellipse can end far outside of it because the volume changes. Drucker-Prager idempotence up to the tolerance for zero shear; snow hardening for volumes of at least 1e-6. Associative models not modelled."
},
"C83": {
"status": "proved",
"note": "Sequentially consistent interleavings, std::mutex and std::condition_variable as specified, with spurious wake-ups. Linearizability, FIFO order, mutual exclusion, no lost wake-up, and termination in at most eight steps per thread without new calls."
},
"C84": {
"status": "partial",
"note": "Atomicity and answers are proved. A returned pointer or reference reads the key's current value until the key is erased (C84_pointer_partial). The full claim is false: get and find release the lock before their result is used, so the use can read freed memory (C84_pointer_refuted) or race with set (C84_race_refuted)."
},
"C85": {
"status": "partial",
"note": "Proved in exact real arithmetic for any level set; slip, separate and no-gain need unit normals. False in general: the erosion is compared with the depth in material space (C85_erosion_refuted), a plane's normal is not normalised (C85_slip_refuted), the normal of a sphere vanishes within 3e-4 of its center so small spheres do nothing (C85_small_sphere_refuted)."
},
"C86": {
"status": "partial",
"note": "Blocks, child masks, data, reads, levels proved for every grid whose arrays have the size of its tables. Refuted: added blocks read 0 instead of the background, hide active coarser tiles, a second complementTopo throws when a level-0 mask vector had spare capacity (Vector::reorder sets size to capacity), SortGridData=false misattributes values."
},
"C87": {
"status": "partial",
"note": "Refuted as stated: DenseGrid allocates the product of its weights (one row in the plane), so every planar call is undefined (it prints grid(2,3), outside of the storage); samples may lie up to a cell beyond the upper corner; periodic separation fails unless the sides are whole numbers of cells; no samples in space if hardware_concurrency() is 0. Proved for any storage: separation, feasibility, reach, containment up to one cell, termination (with enough storage), periodic separation for sides of n,m>=3 whole cells, exact result in space for any positive number of workers. Exact real arithmetic; reading of the reference file and setDistanceByPpc are not modelled."
},
"C88": {
"status": "partial",
"note": "All parts proved, in exact real arithmetic, except that f2_SF_term is the derivative of f1 only below the threshold; the comment in the code claims it beyond as well, which is refuted (derivative -1/y^2)."
},
"C89": {
"status": "proved",
"note": "Exact real arithmetic; degenerate triangles (division by zero) excluded; the branch parameter described in the header comment does not exist in the code."
},
"C90": {
"status": "proved",
"note": "Exact real arithmetic; degenerate edges, parallel edges and flat triangles (division by zero) excluded; g_EECN2 is not constexpr/noexcept in the code; the generated programs are transcribed statement by statement."
},
"C91": {
"status": "proved",
"note": "Exact real arithmetic; statement-by-statement transcription of the generated code; distances as in dist_pp, dist_pe_unclassified, dist_ee_unclassified, dist_pt_unclassified."
},
"C92": {
"status": "partial",
"note": "Proved for ascending integer intervals and arrays combined by zip and enumerate to any depth, and for chunks visited in parallel; sequential strided loops characterised. Refuted: chunk iterators always compare equal, so a sequential loop over chunks visits nothing; an increment that does not divide the length drops the last number; in parallel the distance is not divided by the increment, so numbers past the end are visited; descending ranges are empty in parallel; range(n) for unsigned n at or above half the modulus."
},
"C93": {
"status": "partial",
"note": "Period, equidistribution and streams proved in full. The seed claim is refuted: the loop over __TIME__ includes the terminating zero, nine bytes in a 64-bit word, so the tens digit of the hours is shifted out and times ten hours apart give the same seed (exact characterisation proved)."
},
"C94": {
"status": "partial",
"note": "Exact real arithmetic. Proved for whole lambda and uniform numbers below 1. Refuted: rand() = RAND_MAX never returns; PDF(lambda, x) resolves to the overload with int lambda, so for a lambda that is not whole the terms use the truncated value and the loop does not end for uniform numbers above a bound (exp(-lambda) if lambda < 1); rand_normal only sums densities at 1, 2, ..., so it never returns 0 or less and does not end for mean <= 0, deviation 1 and uniform numbers from 3/4 on; rand_anti_normal returns only 1 or 2 for deviations from 1."
},
"C95": {
"status": "proved",
"note": "C95_bijection, C95_order (the offset is the rank of the index in the lexicographic order of the arranged coordinates), C95_fewer, C95_block, C95_packs, C95_ranges. The index type is unbounded: wrap-around of a narrow index type is outside the model."
},
"C96": {
"status": "partial",
"note": "Proved: C96_gcd_partial (greatest common divisor for all values but the lowest against -1), C96_lcm_partial (no intermediate overflow), C96_pow_partial, C96_pow_signed, C96_pow_unsigned, C96_clamp, C96_minmax, C96_abs, C96_result, C96_result_holds_partial (exactly when the result type holds all arguments). Refuted: gcd is undefined for the lowest value and -1 and may be negative; lcm(0,0) divides by zero; negative exponents give 0 and the largest exponent the largest value whatever the base; (signed 8 bit, unsigned 64 bit) gives signed 8 bit. Integer promotion is not modelled."
},
"C97": {
"status": "partial",
"note": "Proved: C97_mutex (all numbers of waiters), and for one waiting thread with any number of notifiers: C97_notified_partial (when a notification returns the queued thread is signalled or another notify_all is about to walk the queue), C97_notify_one (no lost notification), C97_no_spurious, C97_defined_partial (nothing undefined with notify_one only, or with at most one wait). Refuted: a second wait woken by notify_all reads a freed node; with two waiting threads notify_one frees the node of the thread it does not wake; a wait_for that times out reads its deleted node. The mutex is an ideal lock and the wait queue is not shared with other addresses."
},
"C98": {
"status": "partial",
"note": "min_plus, max_plus, min_times, max_times agree with exact semirings (whose laws are proved, products on non-negative numbers) while the exact result is representable and differs from the sentinel; packs of any size. Refuted: associativity of min_plus when a finite sum reaches the sentinel, overflow, distributivity with negative factors, plus_times over 64 bit integers (value_type is int), neutrality of 0 for boolean over int. Missing: promotion of narrow types, mixed argument types, custom monoids, floating point domains (plus_times over them is in C41)"
},
"C99": {
"status": "partial",
"note": "Exact real arithmetic, all schedules of the atomic additions (and of the stores for given normals). Refuted: a part not starting at node 0 (nodeOffset is never used, the additions go outside the array), isolated nodes (0/0). Missing: rounding, the data race of the equal stores, outputs of another size than the nodes"
}
}