{"id": "C01", "title": "Morton bit expansion interleaves and is inverted by compaction", "statement": "expand_bits_32 of a 10-bit value (expand_bits_64 of a 21-bit value) places input bit k at output bit 3k and clears every other bit; compact_bits_32/64 recovers the value; hence the 3-D Morton code x<<2|y<<1|z built from the expansions determines (x,y,z) uniquely.", "quantifier": "every 10-bit (resp. 21-bit) coordinate, every triple of coordinates", "why_tests_cant": "2^63 triples; a wrong magic mask can corrupt only a few bit patterns", "anchors": ["include/zensim/math/bit/Bits.h: expand_bits_32, expand_bits_64, compact_bits_32, compact_bits_64, morton_3d_32, morton_3d_64"]}
{"id": "C02", "title": "Integer hash mixers are bijections with the supplied inverse", "statement": "unhash(hash(x)) = x and hash(unhash(x)) = x for the 32-bit and 64-bit mixers of Hash.hpp, and the parking-lot key mixer/unmixer pair are mutually inverse on all 64-bit words.", "quantifier": "every 32-bit / 64-bit word", "why_tests_cant": "2^64 inputs, and a wrong inverse constant may still succeed on small inputs", "anchors": ["include/zensim/math/Hash.hpp: hash, unhash", "include/zensim/execution/ConcurrencyPrimitive.cpp: twang_mix64, twang_unmix64"]}
{"id": "C03", "title": "Bit utilities meet their arithmetic specifications", "statement": "round_down/round_up return the nearest multiples of a power-of-two alignment; bit_length is the number of binary digits; next_2pow is the least power of two not below its argument; next_power_of_two is the same on u32 for 1<=i<=2^31; num_bits_on is the population count; binary_reverse mirrors the word; count_leading_zeros counts leading zeros; bit_spread after bit_pack recovers the masked data bits.", "quantifier": "every word within the documented width (and every power-of-two alignment)", "why_tests_cant": "word-parallel tricks must hold on all 2^64 words", "anchors": ["include/zensim/math/bit/Bits.h: round_down, round_up, bit_length, bit_count, next_2pow, next_power_of_two, num_bits_on, binary_reverse, count_leading_zeros, bit_pack, bit_spread"]}
{"id": "C04", "title": "bit_mask behaves as a subset of {0..Size-1}", "statement": "After any sequence of setOn/setOff/toggle/set (single bit and whole mask) and &=, |=, -=, ^=, isOn(n) agrees with a mathematical set of indices below Size, countOn is its cardinality, countOff its complement's, countOffset(k) the number of members below k, findFirstOn/findNextOn the least member (from a start) or Size, findFirstOff/findNextOff the least non-member or Size, and == is set equality.", "quantifier": "every mask size, every operation sequence, every index below Size", "why_tests_cant": "behaviour depends on word boundaries, padding bits and histories mixing whole-mask and single-bit operations", "anchors": ["include/zensim/types/Mask.hpp: bit_mask"]}
{"id": "C05", "title": "RingBuffer is the window of the last Size pushes", "statement": "After any sequence of push_back and pop, size() and operator[](0..size()-1) and back() equal those of a bounded deque that drops its oldest element when an element is pushed at capacity and drops its newest element on pop (a no-op when empty).", "quantifier": "every capacity >= 1, every operation history, every element type", "why_tests_cant": "wrap-around errors depend on the full history of pushes and pops", "anchors": ["include/zensim/container/RingBuffer.hpp: RingBuffer"]}
{"id": "C06", "title": "SmallString is a truncating NUL-terminated string", "statement": "Construction from a C string stores its first NBytes-1 characters, terminated; size() is the stored length; operator+ is truncated concatenation; operator== against a C string holds iff the stored string equals it; no operation reads or writes outside the NBytes buffer.", "quantifier": "every buffer size >= 1 and every NUL-terminated input", "why_tests_cant": "off-by-one at the exact capacity boundary for every length combination", "anchors": ["include/zensim/types/SmallVector.hpp: BasicSmallString"]}
{"id": "C07", "title": "UniquePtr releases every owned object exactly once", "statement": "Over any history of construction, move construction, move assignment (including self-move), swap, release, reset and destruction on any number of UniquePtr objects, no object is deleted twice, no two UniquePtrs own the same object, and once all UniquePtrs are destroyed every object ever handed over has been deleted or explicitly released.", "quantifier": "every finite history over any number of pointers and objects", "why_tests_cant": "ownership errors depend on aliasing and on operation order", "anchors": ["include/zensim/ZpcResource.hpp: UniquePtr"]}
{"id": "C08", "title": "stack_allocator hands out aligned, in-range, disjoint blocks", "statement": "Every successful allocate(bytes, alignment) returns an address that is a multiple of the alignment, lies with its block inside the buffer and is disjoint from every live block; deallocate in LIFO order makes the space reusable; a failing allocate leaves the allocator able to serve any request that fits.", "quantifier": "every buffer, every sequence of allocate/deallocate, every power-of-two alignment", "why_tests_cant": "depends on the address of the buffer, alignments and the failure history", "anchors": ["include/zensim/memory/Allocator.cpp: stack_allocator", "include/zensim/memory/Allocator.h: stack_allocator"]}
{"id": "C09", "title": "Virtual-memory resources: committed ranges are resident, eviction never touches neighbours", "statement": "After commit(offset,bytes) succeeds, check_residency(offset,bytes) is true until an evict overlaps it; evict(offset,bytes) never makes a byte outside [offset,offset+bytes) non-resident (arena) and the residency answers coincide with the set of pages actually mapped.", "quantifier": "every sequence of commit/evict/check with arbitrary offsets and sizes", "why_tests_cant": "rounding and clamping errors show only at particular offset/size/granularity combinations and histories", "anchors": ["include/zensim/memory/Allocator.cpp: arena_virtual_memory_resource, stack_virtual_memory_resource"]}
{"id": "C10", "title": "Vector behaves as a finite sequence", "statement": "After any sequence of resize, resize-with-fill, push_back, append, copy, clone, move, clear, setVal and reorder, size() and the elements equal those of a mathematical list (elements introduced by a growing resize are unspecified), capacity() >= size(), and every access stays inside the allocation.", "quantifier": "every operation history and every element value", "why_tests_cant": "reallocation makes behaviour history dependent", "anchors": ["include/zensim/container/Vector.hpp: Vector"]}
{"id": "C11", "title": "TileVector addresses every (channel, element) at its own in-range slot", "statement": "Distinct (channel, element) pairs of a TileVector address distinct slots, all inside the buffer; property ranges of differently named properties are disjoint and cover the channels; append_channels keeps every existing value and zero-fills new channels; resize keeps the values of surviving elements; reorderTiles with a permutation permutes tiles.", "quantifier": "every lane width, channel layout, size and permutation", "why_tests_cant": "index arithmetic must be injective for every size and channel count", "anchors": ["include/zensim/container/TileVector.hpp: TileVector, TileVectorUnnamedView"]}
{"id": "C12", "title": "callbacks registry: ids are fresh and inserted callbacks stay registered", "statement": "insert(f) returns an id under which f is registered until that id is erased, assigned or cleared; ids returned by insert are pairwise distinct; invocation calls exactly the registered functions, in increasing id order.", "quantifier": "every history of insert/assign/erase/clear/move/copy", "why_tests_cant": "id collisions require particular histories", "anchors": ["include/zensim/container/Callables.hpp: callbacks"]}
{"id": "C13", "title": "Collapse/ndrange enumerates the index box exactly once", "statement": "Iterating Collapse(n1,...,nd) visits every tuple (i1,...,id) with 0<=ik<nk exactly once, in lexicographic order, and nothing else, and terminates.", "quantifier": "every dimension and every vector of non-negative extents", "why_tests_cant": "arbitrary dimension and extents, including zero extents", "anchors": ["include/zensim/ZpcIterator.hpp: Collapse"]}
{"id": "C14", "title": "Sequential scans and reduce compute the left folds", "statement": "With the sequential policy inclusive_scan, exclusive_scan and reduce write exactly the prefix folds (resp. the fold) of the input with the given operator and initial value, whatever the operator; the input may alias the output.", "quantifier": "every input sequence, operator and initial value", "why_tests_cant": "holds for arbitrary (non-associative, non-commutative) operators and lengths", "anchors": ["include/zensim/execution/ExecutionPolicy.hpp: SequentialExecutionPolicy::inclusive_scan, exclusive_scan, reduce"]}
{"id": "C15", "title": "OpenMP inclusive_scan is independent of the number of threads", "statement": "For an associative operator, the OpenMP inclusive_scan writes the same result as the sequential one for every number of threads.", "quantifier": "every input, every thread count, every associative operator", "why_tests_cant": "thread count and partition shape are unbounded; only some (length, threads) pairs exercise partial chunks", "anchors": ["include/zensim/omp/execution/ExecutionPolicy.hpp: OmpExecutionPolicy::inclusive_scan_impl"]}
{"id": "C16", "title": "OpenMP exclusive_scan is independent of the number of threads", "statement": "For an associative operator, the OpenMP exclusive_scan writes the same result as the sequential one for every number of threads and every initial value.", "quantifier": "every input, initial value, thread count, associative operator", "why_tests_cant": "as above", "anchors": ["include/zensim/omp/execution/ExecutionPolicy.hpp: OmpExecutionPolicy::exclusive_scan_impl"]}
{"id": "C17", "title": "OpenMP reduce is independent of the number of threads", "statement": "For an associative operator, the OpenMP reduce returns init combined with all elements, for every number of threads and every initial value.", "quantifier": "every input, initial value, thread count, associative operator", "why_tests_cant": "as above", "anchors": ["include/zensim/omp/execution/ExecutionPolicy.hpp: OmpExecutionPolicy::reduce_impl"]}
{"id": "C18", "title": "Sequential merge_sort_pair is a stable sort", "statement": "merge_sort_pair with the sequential policy leaves the (key,value) pairs as the stable sort of the input under the given strict weak order.", "quantifier": "every input length and every strict weak order", "why_tests_cant": "ping-pong buffering and block boundaries depend on the length", "anchors": ["include/zensim/execution/ExecutionPolicy.hpp: SequentialExecutionPolicy::merge_sort_pair_impl"]}
{"id": "C19", "title": "OpenMP merge_sort(_pair) sorts for every thread count", "statement": "The OpenMP stable merge sort leaves the stable sort of the input for every length and number of threads.", "quantifier": "every input, every thread count", "why_tests_cant": "the buffer parity of each thread's chunk depends on length and thread count", "anchors": ["include/zensim/omp/execution/ExecutionPolicy.hpp: OmpExecutionPolicy::merge_sort_pair_impl, merge_sort_impl"]}
{"id": "C20", "title": "Sequential radix_sort(_pair) is a stable sort on the selected bits", "statement": "radix_sort(_pair) over bits [sbit,ebit) outputs the stable sort of the input by those bits; over the full width it is ascending numeric order, for unsigned and signed keys.", "quantifier": "every input, key width and bit range", "why_tests_cant": "multi-pass behaviour with skipped passes and partial last digit", "anchors": ["include/zensim/execution/ExecutionPolicy.hpp: SequentialExecutionPolicy::radix_sort, radix_sort_pair"]}
{"id": "C21", "title": "OpenMP radix_sort(_pair) equals the sequential result for every thread count", "statement": "For every number of threads the OpenMP radix sort outputs the same stable sort as the sequential one.", "quantifier": "every input, key width, bit range and thread count", "why_tests_cant": "per-thread histogram offsets depend on the partition", "anchors": ["include/zensim/omp/execution/ExecutionPolicy.hpp: OmpExecutionPolicy::radix_sort_impl, radix_sort_pair_impl"]}
{"id": "C22", "title": "sort_pair orders by the comparator it is given", "statement": "The unstable sort_pair permutes the (key,value) pairs into an order that is ascending under the given comparator.", "quantifier": "every input and every strict weak order", "why_tests_cant": "quick-sort partitions depend on the data", "anchors": ["include/zensim/execution/ExecutionPolicy.hpp: SequentialExecutionPolicy::quick_sort_impl, sort_pair"]}
{"id": "C23", "title": "CAS-loop atomics lose no update", "statement": "When any number of threads execute atomic_add/atomic_max/atomic_min (CAS-loop versions) on one location under any interleaving, each finished call took effect exactly once: the final value is the fold of all operands, and every returned value is the location's value immediately before that call's effect.", "quantifier": "every number of threads, every schedule, every operand", "why_tests_cant": "schedules are unbounded", "anchors": ["include/zensim/execution/Atomics.hpp: atomic_add_impl, atomic_max, atomic_min, atomic_cas"]}
{"id": "C24", "title": "RBTreeMap behaves as a finite map", "statement": "Over any sequence of insert, operator[], assignment through operator[], erase (by key, by iterator, by range) and clear, lookup, count and size agree with a finite map: insert sets the value of the key whether or not it was present, operator[] adds a default value for a missing key, erase reports whether the key was present; no null or freed node is read, and destruction frees every node.", "quantifier": "every operation history and every totally ordered key type", "why_tests_cant": "rebalancing cases depend on deep histories", "anchors": ["include/zensim/container/RBTreeMap.hpp: RBTreeMap"]}
{"id": "C25", "title": "RBTreeMap stays balanced", "statement": "After any operation sequence the tree is a binary search tree with black root, no red node with a red child and equal black counts on all root-to-leaf paths, hence height at most 2*log2(n+1).", "quantifier": "every operation history", "why_tests_cant": "the violation may need specific deletion patterns", "anchors": ["include/zensim/container/RBTreeMap.hpp: maintainAfterInsert, maintainAfterRemove"]}
{"id": "C26", "title": "RBTreeMap ordered access", "statement": "Iteration visits the entries in strictly increasing key order (reverse iteration in decreasing order), each once, in both directions of both iterator kinds; lower_bound/upper_bound return the first entry not less than / greater than the key; erase through iterators removes exactly the entries denoted and returns the position behind them.", "quantifier": "every reachable tree and key", "why_tests_cant": "depends on tree shape", "anchors": ["include/zensim/container/RBTreeMap.hpp: begin, lower_bound, upper_bound, inorderTraversal"]}
{"id": "C27", "title": "bht: concurrent insertion assigns every key one dense index", "statement": "Any number of threads inserting arbitrary (possibly equal) keys into a bht under any interleaving: each key is stored at most once, exactly one inserter of each stored key obtains a non-negative index and the others obtain the 'exists' result, and the indices handed out are exactly 0..size-1.", "quantifier": "every schedule, thread count, key multiset and hash functions", "why_tests_cant": "races between scanning and claiming a slot need specific interleavings", "anchors": ["include/zensim/container/Bht.hpp: BHTView::insert, atomicSwitchIfEqual, atomicTileLoad"]}
{"id": "C28", "title": "bht: after insertion, query and the active-key list agree", "statement": "After any completed concurrent insertion phase without failure, query(k) returns the index given to k's inserter for every inserted key and the sentinel for every other key, and activeKeys[query(k)] = k.", "quantifier": "every insertion history, schedule and queried key", "why_tests_cant": "as above", "anchors": ["include/zensim/container/Bht.hpp: BHTView::query, BHTView::insert, _activeKeys"]}
{"id": "C29", "title": "bht: resize keeps every key at its index", "statement": "resize to a larger capacity keeps the key set, and query(k) returns the same index as before for every key.", "quantifier": "every table content, capacity and hash functions", "why_tests_cant": "re-insertion order and bucket overflow depend on the contents", "anchors": ["include/zensim/container/Bht.hpp: bht::resize"]}
{"id": "C30", "title": "bcht: insertion of keys yields a consistent index map", "statement": "Inserting keys into a bcht (sequential policy): every key is stored once; the first insertion of each key gets the next dense index, later insertions report 'exists', and query returns that index, regardless of cuckoo displacements.", "quantifier": "every key sequence and hash functions", "why_tests_cant": "displacement chains depend on the whole content", "anchors": ["include/zensim/container/Bcht.hpp: BCHTView::insert, query"]}
{"id": "C31", "title": "HashTable: inserted keys are found", "statement": "After inserting any set of keys into a HashTable that is not full, query returns each key's index, and a key never inserted yields the sentinel; no access leaves the table.", "quantifier": "every table size, key sequence and hash function", "why_tests_cant": "probe wrap-around occurs only for particular hash values", "anchors": ["include/zensim/container/HashTable.hpp: HashTableView::insert, query"]}
{"id": "C32", "title": "SpatialHash neighbour search is complete", "statement": "After build, iter_neighbors(bv) reports every primitive whose box shares a grid cell with bv, and iter_neighbors(p) every primitive whose box contains the point p.", "quantifier": "every box set, cell size and query", "why_tests_cant": "cell boundary coincidences and degenerate boxes", "anchors": ["include/zensim/container/SpatialHash.hpp: SpatialHash::build, SpatialHashView::iter_neighbors"]}
{"id": "C33", "title": "LBvh build produces a well-formed pre-order tree", "statement": "For any multiset of Morton codes (sorted), build lays out a full binary tree in pre-order in which every primitive occurs in exactly one leaf, each trunk node's escape index is the first node after its subtree (or -1), levels are the length of the left spine, and parents are consistent.", "quantifier": "every number (>2) and every sorted sequence of codes including duplicates", "why_tests_cant": "the binary searches and duplicate handling must be right for all code sequences", "anchors": ["include/zensim/container/Bvh.hpp: LBvh::build, _build_build_topo, _build_supp_topo, _build_reorder_leaf, _build_reorder_trunk"]}
{"id": "C34", "title": "LBvh queries report exactly the overlapping primitives", "statement": "On a built and refitted LBvh, iter_neighbors(bv,f) calls f exactly once for each primitive whose box overlaps bv and for no other, and terminates.", "quantifier": "every primitive set, every query box, any overlap predicate monotone under box merging", "why_tests_cant": "stackless traversal depends on tree shape and pruning pattern", "anchors": ["include/zensim/container/Bvh.hpp: LBvhView::iter_neighbors, ray_intersect"]}
{"id": "C35", "title": "LBvh self-queries report each overlapping pair once", "statement": "self_iter_neighbors over all leaves reports each unordered pair of distinct overlapping primitives exactly once and never pairs a primitive with itself.", "quantifier": "every primitive set", "why_tests_cant": "as above", "anchors": ["include/zensim/container/Bvh.hpp: LBvhView::self_iter_neighbors"]}
{"id": "C36", "title": "LBvh refit computes the exact bounding boxes under every schedule", "statement": "After the parallel bottom-up refit, every node's box is the union of the boxes of the primitives below it, for every interleaving of the leaf threads.", "quantifier": "every tree, every schedule", "why_tests_cant": "the last-arriver protocol must work in all interleavings", "anchors": ["include/zensim/container/Bvh.hpp: LBvh::refit, _refit_bottom_up"]}
{"id": "C37", "title": "LBvs sweep queries report exactly the overlapping primitives", "statement": "On a built LBvs, iter_neighbors(bv,f) calls f exactly once for each primitive whose box overlaps bv, and self_iter_neighbors over all nodes reports each overlapping unordered pair exactly once.", "quantifier": "every primitive set and query", "why_tests_cant": "binary search boundaries with repeated keys", "anchors": ["include/zensim/container/Bvs.hpp: LBvsView::locate, iter_neighbors, self_iter_neighbors"]}
{"id": "C38", "title": "SparseMatrix build from triplets sums duplicates", "statement": "build from (row,col,value) triplets yields a matrix whose entry (i,j) is the sum of the values of all triplets at (i,j); ptrs is monotone from 0 to nnz, each stored (row,col) occurs once.", "quantifier": "every triplet list, shape and schedule of the parallel kernels", "why_tests_cant": "duplicates and atomics order vary", "anchors": ["include/zensim/math/matrix/SparseMatrix.hpp: SparseMatrix::build, fastBuild"]}
{"id": "C39", "title": "SparseMatrix transposeFrom transposes", "statement": "After B.transposeFrom(policy, A), B has A's transposed shape and B(j,i) = A(i,j) for all i,j, including when B is A itself.", "quantifier": "every well-formed sparse matrix", "why_tests_cant": "depends on structure of the matrix, aliasing and prior state of B", "anchors": ["include/zensim/math/matrix/SparseMatrix.hpp: SparseMatrix::transposeFrom"]}
{"id": "C40", "title": "SparseMatrix element lookup finds exactly the stored entries", "statement": "On a well-formed matrix (binary-search variant: with rows ordered), locate/exist/operator()(i,j) find the stored entry at (i,j) when there is one and report absence otherwise, without reading outside the arrays.", "quantifier": "every well-formed matrix and coordinate", "why_tests_cant": "empty rows, first row and first-entry boundaries", "anchors": ["include/zensim/math/matrix/SparseMatrix.hpp: SparseMatrixView::locate, exist, operator()"]}
{"id": "C41", "title": "spmv computes the matrix-vector product", "statement": "spmv (row- and column-major, plain, masked, each semiring) writes for every (unmasked) row the semiring sum over stored entries in that row of entry times input component, for every schedule.", "quantifier": "every well-formed matrix of any shape, input vector, mask, schedule", "why_tests_cant": "rectangular shapes and accumulation order", "anchors": ["include/zensim/math/matrix/SparseMatrixOperations.hpp: spmv, spmv_classic, spmv_mask"]}
{"id": "C42", "title": "Graph colouring is proper, complete and terminates", "statement": "fast_independent_sets / maximum_independent_sets on a symmetric graph give every vertex a colour in 1..count and adjacent vertices different colours, and terminate.", "quantifier": "every finite symmetric graph and weight assignment", "why_tests_cant": "depends on graph structure and weight ties", "anchors": ["include/zensim/graph/Coloring.hpp: fast_independent_sets, maximum_independent_sets"]}
{"id": "C43", "title": "union_find labels connected components under every schedule", "statement": "After the parallel union_find on a symmetric graph, two vertices have the same representative iff they are connected, the representative being the least vertex of the component, under every interleaving of the edge operations with path halving and CAS hooking.", "quantifier": "every finite symmetric graph and every schedule", "why_tests_cant": "lock-free interleavings", "anchors": ["include/zensim/graph/ConnectedComponents.hpp: union_find"]}
{"id": "C44", "title": "maximum_flow returns the value of a maximum flow", "statement": "maximum_flow(source,sink) returns the maximum flow value: it equals the capacity of some source/sink cut and is attained by a feasible flow.", "quantifier": "every capacity matrix with reverse edges, every source/sink pair, every schedule", "why_tests_cant": "optimality is a statement about all flows", "anchors": ["include/zensim/graph/MaximumFlow.hpp: maximum_flow"]}
{"id": "C45", "title": "Mutex provides mutual exclusion", "statement": "Between a successful lock/try_lock of the portable Mutex and the matching unlock, no other thread's lock/try_lock succeeds, under every interleaving, spurious wake-ups included.", "quantifier": "every number of threads and every schedule", "why_tests_cant": "schedules are unbounded", "anchors": ["include/zensim/execution/ConcurrencyPrimitive.hpp: Mutex", "include/zensim/execution/ConcurrencyPrimitive.cpp: Mutex::lock, unlock, try_lock"]}
{"id": "C46", "title": "Parking lot wakes and removes exactly the waiter it signals", "statement": "ParkingLot::unpark/futex wake removes from the wait queue exactly the waiters it signals; every other parked waiter stays parked in the queue and can be woken later.", "quantifier": "every queue content, key and wake count", "why_tests_cant": "needs particular numbers of simultaneously parked threads", "anchors": ["include/zensim/execution/ConcurrencyPrimitive.cpp: ParkingLot::unpark, WaitQueue::erase, emulated_futex_wake"]}
{"id": "C47", "title": "rational arithmetic is exact and canonical", "statement": "Provided no intermediate overflows, + - * / on rational values return the exact rational result in lowest terms with positive denominator whenever the operands are; == is equality of values on canonical rationals.", "quantifier": "every pair of canonical rationals", "why_tests_cant": "gcd-based simplification must be right for all operands", "anchors": ["include/zensim/math/Rational.hpp: rational", "include/zensim/ZpcMathUtils.hpp: math::gcd"]}
{"id": "C48", "title": "rational ordering is the ordering of values", "statement": "operator< and operator> on rationals with positive denominators decide exactly the order of the represented values, and terminate.", "quantifier": "every pair of rationals with positive denominators", "why_tests_cant": "continued-fraction comparison of unbounded length", "anchors": ["include/zensim/math/Rational.hpp: rational::operator<, operator>"]}
{"id": "C49", "title": "NumCCD dyadic arithmetic and interval bisection are exact", "statement": "Without overflow, NumCCD + is the exact dyadic sum, < compares values, == on reduced numbers is value equality, is_sum_leq_1 decides value sum <= 1, and Interval::bisect splits an interval at its midpoint.", "quantifier": "every pair of dyadic numbers in range", "why_tests_cant": "normalisation invariants over arbitrary bisection depth", "anchors": ["include/zensim/math/Rational.hpp: NumCCD, Interval::bisect, reduction"]}
{"id": "C50", "title": "AdaptiveGrid coordinate codecs are mutually inverse", "statement": "At every level, tile_offset_to_coord and coord_to_tile_offset are mutually inverse between tile offsets and cell-origin coordinates within a block, likewise for hierarchy offsets, and a coordinate is determined by its block key, its tile offset and its sub-cell remainder.", "quantifier": "every dimension, level configuration, coordinate (negative ones too)", "why_tests_cant": "shift/mask arithmetic over all coordinates", "anchors": ["include/zensim/geometry/AdaptiveGrid.hpp: coord_to_key, coord_to_tile_offset, tile_offset_to_coord, coord_to_hierarchy_offset, hierarchy_offset_to_coord"]}
{"id": "C51", "title": "BvttFront records and groups front entries", "statement": "Concurrent push_back on a front within capacity records each (prim,node) pair exactly once, and reorder groups the recorded pairs by node without losing any.", "quantifier": "every schedule, every entry list within capacity", "why_tests_cant": "schedules and counts", "anchors": ["include/zensim/container/Bvtt.hpp: BvttFront::reorder, BvttFrontView::push_back"]}
{"id": "C52", "title": "handle_resource keeps handing out valid aligned memory as it grows", "statement": "Every allocate(bytes, alignment) of a handle_resource returns a pointer that is a multiple of the alignment and lies, with its block, inside the buffer currently held, above every block handed out before; memory handed out earlier stays valid until it is deallocated.", "quantifier": "every upstream resource honouring size and alignment, every sequence of requests", "why_tests_cant": "growth replaces the buffer at history- and address-dependent moments", "anchors": ["include/zensim/memory/Allocator.cpp: handle_resource::do_allocate"]}
{"id": "C53", "title": "Mutex: a sleeping locker is never forgotten", "statement": "A thread that went to sleep inside Mutex::lock is not forgotten: whenever it sleeps unsignalled, some thread owns the mutex or has released it and is about to wake a sleeper; its wait node stays valid until it has returned.", "quantifier": "every number of threads and every schedule (false for three or more; proved while at most one thread waits at a time, hence for two threads)", "why_tests_cant": "depends on the interleaving of the word, the waiter count and the queue lock, and on the number of simultaneous sleepers", "anchors": ["include/zensim/execution/ConcurrencyPrimitive.cpp: Mutex::lock, Mutex::unlock, ParkingLot::parkFor, ParkingLot::unpark"]}
{"id": "C54", "title": "Interpolation weights and grid sampling", "statement": "In exact arithmetic, the weights a GridArena (or the bspline/delta weight functions) gives a position are those of the centred B-spline or delta kernel at each grid node around it: non-negative, summing to 1, with the position as their weighted mean, and the derivative pads are their derivatives. Hence isample returns the exact value of every affine field at the position, never leaves the range [minimum, maximum] of the stencil, and the gradient weights return the slope; on collocated and staggered grids.", "quantifier": "all positions (rationals), all six kernels, every number of dimensions, all grid contents", "why_tests_cant": "an identity over a continuum of positions and all dimensions; a wrong base node or a wrong boundary of a piecewise formula shows only on part of them", "anchors": ["include/zensim/math/curve/InterpolationKernel.hpp: base_node, *_bspline_weights, delta_*point_weights, GridArena", "include/zensim/math/VecInterface.hpp: xlerp"]}
{"id": "C55", "title": "zs::function is a value that owns its callable", "statement": "A zs::function is empty or holds one callable. Assigning, copying, moving, calling and destroying functions acts on these values as written; operator bool tells whether there is one; every callable constructed is destroyed exactly once and none is used after its destruction.", "quantifier": "every number of function objects and every sequence of operations (false as stated: proved for the uses listed in FnSpec.tame, the others are refuted)", "why_tests_cant": "leaks, double destruction and use after destruction depend on the history of assignments and on exceptions, and need not show", "anchors": ["include/zensim/ZpcFunction.hpp: function<R(Args...)>"]}
{"id": "C56", "title": "zs::Owner destroys its object exactly once", "statement": "A zs::Owner is empty or holds one object. Assigning a value, copying, moving and resetting owners acts on these contents as written; isActive() tells which; every object constructed is destroyed exactly once and none is used after its destruction.", "quantifier": "every number of owners, assignable and non-assignable types, every sequence of operations (false for copies of owners; proved for the rest)", "why_tests_cant": "double destruction depends on which overload the copy picks and on the history, and often goes unnoticed", "anchors": ["include/zensim/ZpcImplPattern.hpp: Owner, InplaceStorage"]}
{"id": "C57", "title": "Matrix functions of zs::vec compute the matrix operations", "statement": "Products, transposes, dyadic and diagonal products, affine products, traces, determinants (of every size), inverses (sizes 1 to 4, of invertible matrices), dot and cross products of zs::vec are the corresponding operations of linear algebra.", "quantifier": "all sizes and shapes, all entries, every commutative ring (inverse: every field) as element type", "why_tests_cant": "each is a polynomial or rational identity in all entries; tests sample finitely many matrices and none for large sizes", "anchors": ["include/zensim/math/VecInterface.hpp: operator*, transpose, dot, cross", "include/zensim/math/Vec.h: determinant, inverse, cross_matrix, dyadic_prod, diag_mul, affine transform"]}
{"id": "C58", "title": "Raw-array matrix helpers and parallel", "statement": "The helpers of MatrixUtils.h on column-major arrays compute the operations their names say (product, transposed products, determinant, cofactor matrix, trace, cross product), and parallel(a, b) holds exactly of parallel vectors.", "quantifier": "all arrays and vectors over every commutative ring (false for matrixCofactor3d, vec_crossMul_vec_3D and parallel)", "why_tests_cant": "identities in nine or more variables; sign and transposition errors vanish on symmetric or diagonal samples", "anchors": ["include/zensim/math/matrix/MatrixUtils.h", "include/zensim/math/matrix/Utility.h: cross", "include/zensim/math/VecInterface.hpp: parallel"]}
{"id": "C59", "title": "zs::complex implements complex arithmetic", "statement": "+, -, *, / of zs::complex, with complex and real operands, ==, conj, norm and unary minus are the operations of the complex numbers; abs(z) is the magnitude and sqrt(z) the square root with non-negative real part.", "quantifier": "all operands over every field (abs, sqrt: every real closed field); false for the product of two complex numbers", "why_tests_cant": "polynomial identities in all four components; the wrong product agrees with the right one on real operands and many small samples", "anchors": ["include/zensim/math/Complex.hpp", "include/zensim/math/MathUtils.h: abs, sqrt"]}
{"id": "C60", "title": "Smallest positive real roots of quadratic and cubic polynomials", "statement": "get_smallest_positive_real_quad_root(a, b, c, tol) and get_smallest_positive_real_cubic_root(a, b, c, d, tol) return the smallest positive real root of the polynomial, and a negative number if there is none.", "quantifier": "all coefficients over every real closed field (false for negative leading coefficients, double roots, roots at 0 and cubics whose resolvent has no real principal cube root)", "why_tests_cant": "the claim compares the result with all roots of all polynomials; missed roots mean missed collisions and do not show in sampled scenes", "anchors": ["include/zensim/math/MathUtils.h: get_smallest_positive_real_quad_root, get_smallest_positive_real_cubic_root"]}
{"id": "C61", "title": "Rotations: constructors, angle extraction, quaternions", "statement": "Rotation built from an angle, an axis and an angle, Euler angles (roe, ypr) or a pair of vectors is the corresponding proper rotation; extractAxisRotation and extractAngles return parameters that rebuild the same matrix; quaternion2matrix of a unit quaternion is the rotation v -> q v q* and the quaternion products are Hamilton's; orthogonal() returns a non-zero perpendicular vector.", "quantifier": "all angles, axes, rotation matrices, vectors and quaternions over every real closed field, including opposite vectors and half turns (the round trip is false inside the tolerance of near_zero)", "why_tests_cant": "nine polynomial identities over all rotations, with degenerate cases of measure zero (gimbal lock, half turns, opposite vectors) that random tests never hit", "anchors": ["include/zensim/math/Rotation.hpp", "include/zensim/math/VecInterface.hpp: orthogonal, normalized"]}
{"id": "C62", "title": "Transform composes affine maps in the documented order", "statement": "With points as row vectors, setToTranslation/Scale/Rotation are the maps x + v, x * v and r x; preTranslate/preScale/preRotate apply the new map before the current one and the post versions after it; decompose_transform returns the translation, rotation and stretch whose product is the transform, for both conventions.", "quantifier": "every dimension, transform, vector and point over every commutative ring; decomposition for every affine transform and every polar decomposition", "why_tests_cant": "order-of-composition errors cancel for commuting samples; identities hold for all dimensions and entries", "anchors": ["include/zensim/math/matrix/Transform.hpp"]}
{"id": "C63", "title": "sqrtNewtonRaphson returns a square root within its tolerance", "statement": "For every non-negative argument at least as large as the internal threshold, sqrtNewtonRaphson terminates and returns a value whose square exceeds the argument by no more than the stopping rule allows; negative arguments give NaN. Full claim: the relative accuracy holds for every non-negative argument.", "quantifier": "every argument and tolerance, every ordered field with the constants of the code, every number of iterations", "why_tests_cant": "termination and accuracy of an unbounded iteration must hold for every starting value, including values below the threshold", "anchors": ["include/zensim/math/MathUtils.h"]}
{"id": "C64", "title": "ConjugateGradient solves symmetric positive definite systems", "statement": "If solve returns before the iteration limit, the preconditioned residual of the free dofs of the returned vector is within min(relTol * initial, tol). On a system symmetric positive definite on the free dofs with a projected preconditioner it stops within as many iterations as there are free dofs; it leaves fixed dofs as they were; at every stop the returned vector minimises the energy over the search space of that many iterations; with tolerance 0 it solves the system.", "quantifier": "every size, system, right-hand side, start vector, tolerances and iteration limit", "why_tests_cant": "termination and optimality are statements about all matrices of all sizes and every iteration", "anchors": ["include/zensim/math/linear/ConjugateGradient.hpp", "include/zensim/math/linear/LinearOperators.hpp"]}
{"id": "C65", "title": "ConjugateResidual solves symmetric positive definite systems", "statement": "If solve stops before the limit, the residual of the free dofs of the returned vector meets the tolerance; on a system symmetric positive definite on the free dofs it stops within as many iterations as there are free dofs, leaves fixed dofs as they were, and at every stop minimises the residual (in the preconditioner's norm) over the search space. Full claim: it also stops as soon as the residual of the free dofs meets the tolerance, and solves are independent of each other.", "quantifier": "every size, system, right-hand side, start vector, tolerance and iteration limit; every sequence of solves", "why_tests_cant": "termination and optimality are statements about all matrices; the dependence between solves needs two calls with particular right-hand sides", "anchors": ["include/zensim/math/linear/ConjugateResidual.hpp", "include/zensim/math/linear/LinearOperators.hpp"]}
{"id": "C66", "title": "Givens rotations and the QR, Gram-Schmidt and bidiagonal factorisations", "statement": "A GivensRotation built from two entries of a column turns the second into zero, the first into the length of both and leaves other rows alone. qr factors every square matrix into a rotation times an upper triangle with a non-negative diagonal but for the last entry; gram_schmidt factors every invertible 3x3 matrix into an orthogonal matrix times an upper triangle with a positive diagonal; upper_bidiagonalize and zero_chasing keep the product U B V^T, keep U and V rotations and return an upper bidiagonal B.", "quantifier": "every matrix of every size (3x3 where the code is for 3x3), exact real arithmetic", "why_tests_cant": "the identities must hold for all real entries, including zero columns and equal entries, and for every size", "anchors": ["include/zensim/math/matrix/Givens.hpp", "include/zensim/math/matrix/QRSVD.hpp"]}
{"id": "C67", "title": "Polar and singular value decompositions of 2x2 matrices", "statement": "polar_decomposition returns R and S with A = R S, S symmetric with non-negative trace and R a rotation at least as near to A as every other rotation. qr_svd returns rotations U and V and values with A = U diag V^T, |s1| <= s0.", "quantifier": "every real 2x2 matrix, every rotation compared with, exact real arithmetic", "why_tests_cant": "optimality quantifies over all rotations and the identity over all matrices", "anchors": ["include/zensim/math/matrix/QRSVD.hpp"]}
{"id": "C68", "title": "Polar and singular value decompositions of 3x3 matrices", "statement": "qr_svd of a 3x3 matrix terminates, after a number of steps depending on the tolerance alone; U and V are rotations, the values are sorted with only the last one possibly negative, and the product is within 128 eps * max(|A|/2, 1) of A. polar_decomposition returns a symmetric S and a rotation R, nearest to R S, with R S within the same tolerance of A. Full claim: the accuracy is relative to the size of A.", "quantifier": "every real 3x3 matrix, every tolerance, every number of steps, exact real arithmetic", "why_tests_cant": "termination of the implicit-shift iteration and its accuracy must hold for all matrices; the loss of small matrices shows only below the absolute tolerance", "anchors": ["include/zensim/math/matrix/QRSVD.hpp", "include/zensim/math/matrix/Givens.hpp"]}
{"id": "C69", "title": "Eigendecomposition of 2x2 matrices, make_pd and orthogonal", "statement": "eigen_decomposition of a symmetric 2x2 matrix returns an orthonormal basis of eigenvectors with the smaller eigenvalue first. make_pd replaces the matrix by a positive semi-definite one such that no positive semi-definite matrix is nearer by more than the cut-off allows, and leaves matrices with eigenvalues above the cut-off alone. orthogonal() of a 3-vector is perpendicular to it and not zero unless the vector is. Full claim: also for integer matrices, which the function accepts.", "quantifier": "every symmetric matrix, every cut-off, every positive semi-definite matrix compared with, exact real arithmetic", "why_tests_cant": "optimality quantifies over all positive semi-definite matrices; the identities must hold for all entries, including equal eigenvalues", "anchors": ["include/zensim/math/matrix/Eigen.hpp", "include/zensim/math/VecInterface.hpp"]}
{"id": "C70", "title": "Jacobi eigendecomposition of larger matrices", "statement": "For symmetric matrices of sizes other than 2 and 3, eigen_decomposition terminates after a number of sweeps bounded by the size and the tolerance and returns orthonormal columns E; make_pd returns a positive semi-definite matrix. Full claim: M = E diag(e) E^T up to the tolerance, for every symmetric matrix.", "quantifier": "every size, every symmetric matrix, every tolerance, exact real arithmetic", "why_tests_cant": "termination and the loss of the largest entry after a rotation depend on exact coincidences of entries that random tests do not hit", "anchors": ["include/zensim/math/matrix/Eigen.hpp"]}
{"id": "C71", "title": "Point-edge and point-triangle distances are the least distances", "statement": "dist2_pe_unclassified (2D and 3D), dist2_pt_unclassified, dist_pt_sqr and pt_category_and_dist2 return the least squared distance between the point and any point of the edge or triangle, attained by a point of it; the category names the corner, edge or face on which a closest point lies.", "quantifier": "all points, edges and triangles with coordinates in any ordered field; SpatialQuery functions in every dimension", "why_tests_cant": "Seven regions of a triangle and their boundaries; minimality is a statement about all points of the triangle, which sampling cannot settle.", "anchors": ["include/zensim/geometry/Distance.hpp:1114-1200", "include/zensim/geometry/Distance.hpp:3873-3984", "include/zensim/geometry/SpatialQuery.hpp:19-297"]}
{"id": "C72", "title": "Edge-edge distances are the least distances", "statement": "dist_ee_sqr, ee_category_and_dist2 and dist2_ee_unclassified return the least squared distance between a point of the first and a point of the second edge, including parallel, crossing and touching edges.", "quantifier": "all pairs of edges with coordinates in any ordered field; SpatialQuery functions in every dimension and for every tolerance", "why_tests_cant": "Nine combinations of end points and interiors, parallel and nearly parallel cases and the tolerance; minimality quantifies over all pairs of points.", "anchors": ["include/zensim/geometry/Distance.hpp:2315-2435", "include/zensim/geometry/SpatialQuery.hpp:313-470"]}
{"id": "C73", "title": "Edge-triangle intersection, edge-edge mollifier, derivatives of the point-point distance", "statement": "et_intersected holds exactly when the edge and the triangle have a common point; mollifier_ee lies in [0,1], vanishes exactly for parallel edges and joins 1 with matching slope at the threshold; g_EEM, H_EEM, dist_grad_pp and dist_hess_pp are the first and second derivatives of EEM and dist2_pp.", "quantifier": "all edges, triangles, thresholds and displacements with coordinates in any ordered field", "why_tests_cant": "Intersection and derivatives are statements about all points and all displacements; the coplanar and parallel cases are measure zero.", "anchors": ["include/zensim/geometry/Distance.hpp:227-268", "include/zensim/geometry/Distance.hpp:2486-2498", "include/zensim/geometry/Distance.hpp:2836-2899", "include/zensim/geometry/Distance.hpp:4025-4066"]}
{"id": "C74", "title": "Analytic level sets return signed distances", "statement": "getSignedDistance of AnalyticLevelSet<Plane|Cuboid|Sphere|Cylinder> and distance(box, p) return the signed distance of the query point: not positive exactly for points of the solid, and its magnitude is the least Euclidean distance to the boundary (from inside) or to the solid (from outside). getNormal of a sphere is a unit vector along which the signed distance grows at unit speed. getBoundingBox is the smallest box around the solid.", "quantifier": "all solids (any dimension for planes, boxes and balls; the three axes for cylinders), all query points", "why_tests_cant": "The minimum ranges over a continuum of boundary points for a continuum of query points; a wrong region case (corner beside a cap, inside near an edge) is hit only by particular points.", "anchors": ["include/zensim/geometry/AnalyticLevelSet.h:29-43", "include/zensim/geometry/AnalyticLevelSet.h:63-118", "include/zensim/geometry/AnalyticLevelSet.h:143-159", "include/zensim/geometry/AnalyticLevelSet.h:187-240", "include/zensim/geometry/AnalyticLevelSet.h:292-306"]}
{"id": "C75", "title": "Bounding volumes, broad phase and ray tests miss nothing", "statement": "overlaps of boxes, of balls and of points is true exactly when the two have a common point; merge and get_bounding_box give the smallest enclosing box; pt_ccd_broadphase and ee_ccd_broadphase keep every pair that comes within dist at some time of the interval and discard every pair that an axis separates; ray_tri_intersect returns the parameter of the hit and infinity when there is none; ray_box_intersect is true exactly when the ray meets the box; getUniformCoord returns the relative position clamped to the box.", "quantifier": "all boxes, balls, points, velocities and times, all rays, triangles and boxes", "why_tests_cant": "A missed collision needs a particular trajectory or a ray along a face; the infinities and NaN of the slab test appear only for exactly axis-parallel rays.", "anchors": ["include/zensim/geometry/AnalyticLevelSet.h:256-290", "include/zensim/geometry/AnalyticLevelSet.h:308-435", "include/zensim/geometry/BoundingVolumeInterface.hpp:11-54"]}
{"id": "C76", "title": "SparseGrid is a map from integer coordinates to values", "statement": "A SparseGrid view behaves as a map from integer coordinates (negative ones included) to channel values, defined on the aligned blocks activated so far: insert(x) activates exactly the block of the node nearest to x and renumbers nothing; hasVoxel tells whether a voxel's block is active; value/valueOr return what was last stored at that very (channel, coordinate), the background (or given) value elsewhere; decomposeCoord and iCoord are inverse bijections between active voxels and (block, cell) numbers; a caching accessor answers as a direct read; face f+dim of a cell is face f of its neighbour and sampling a staggered affine field at a face is exact.", "quantifier": "every power-of-two side length, dimension, number of channels, sequence of insertions, assignments and resets, every coordinate", "why_tests_cant": "Unboundedly many coordinates and operation sequences; negative coordinates, block borders and stale cache entries matter only in particular combinations.", "anchors": ["include/zensim/geometry/SparseGrid.hpp:266-364", "include/zensim/geometry/SparseGrid.hpp:407-455", "include/zensim/geometry/SparseGrid.hpp:550-580", "include/zensim/geometry/SparseGrid.hpp:763-891", "include/zensim/math/curve/InterpolationKernel.hpp:574-703"]}
{"id": "C77", "title": "Material point transfers conserve mass and momentum", "statement": "P2GTransfer, ComputeGridBlockVelocity and G2PTransfer (3D, quadratic kernel, APIC) conserve: P2G adds the particles' total mass, centre of mass, momentum and angular momentum (affine spin included) to the grid, whatever the order of its atomic additions; internal forces have no resultant and, for the symmetric equation-of-state stress, no torque; GridAngularMomentum reports exactly the particles' momenta; G2P reproduces an affine velocity field exactly (velocity, C, J, F); a whole step on a cleared grid changes momentum and angular momentum only by the external force. Two nodes never share a grid cell, and the launch is defined exactly when every block of every particle's stencil is active.", "quantifier": "all particle sets, positions, velocities, affine states, non-negative masses, grid spacings, block sizes, active block tables, orders of atomic additions and of the grid launch", "why_tests_cant": "Conservation is an identity over a continuum of particle positions and over every interleaving of the atomic additions; a wrong weight moment, a transposed affine matrix or an aliased cell shows only as drift hidden by rounding.", "anchors": ["include/zensim/simulation/transfer/P2G.hpp:46-125", "include/zensim/simulation/transfer/G2P.hpp:43-82", "include/zensim/simulation/grid/GridOp.hpp:91-108", "include/zensim/simulation/grid/GridOp.hpp:223-249", "include/zensim/simulation/Utils.hpp:9-185"]}
{"id": "C78", "title": "Active blocks cover the transfers; index buckets hold exactly their particles", "statement": "ComputeSparsity activates exactly the blocks of the particles' shifted nearest nodes, once each; EnlargeSparsity adds exactly the blocks in the given box around them and renumbers none; partition_for_particles followed by EnlargeSparsity(0,2) activates every block a particle-to-grid transfer touches, and its table is large enough. index_buckets_for_particles makes one bucket per occupied cell; counts, offsets and indices describe consecutive pieces of a permutation of all particles, each piece listing exactly the particles of its cell; every particle within dx of a position is listed in a bucket whose coordinate differs by at most one per axis from bucketCoord of the position.", "quantifier": "all particle positions (negative ones included), spacings, block lengths, displacements, orders of the insertions and every interleaving of the atomic increments and stores", "why_tests_cant": "Negative coordinates, cells exactly on a border and interleavings of the fetch-and-add with the stores form an unbounded space; a missed neighbour or an inactive block shows up only for particular positions.", "anchors": ["include/zensim/simulation/sparsity/SparsityOp.hpp:41-194", "include/zensim/simulation/sparsity/SparsityCompute.tpp:5-23", "include/zensim/simulation/particle/Query.tpp:9-57", "include/zensim/container/IndexBuckets.hpp:66-127"]}
{"id": "C79", "title": "Orientation predicates return the sign of the determinant", "statement": "After init_exact, orient2d(pa,pb,pc) is positive, negative or zero exactly when the points are in counterclockwise order, in clockwise order or collinear, whichever of its stages returns; exchanging two points negates the sign and rotating them keeps it; the first stage of orient3d has the sign of the volume whenever it returns. init_exact terminates with epsilon 2^-53 and splitter 2^27+1; two_sum and two_product lose nothing; fast_expansion_sum_zeroelim is exact and its last component has the sign of the sum.", "quantifier": "all binary64 coordinates that do not underflow (zero or at least 2^-397 in magnitude; multiples of 2^-320 for orient3d), all expansions of at most 16 components", "why_tests_cant": "nearly collinear inputs reach the later stages for a vanishing fraction of inputs, and correctness depends on rounding errors of every operation", "anchors": ["include/zensim/geometry/Predicates.hpp:124-151", "include/zensim/geometry/Predicates.hpp:209-333", "include/zensim/geometry/Predicates.hpp:399-470", "include/zensim/geometry/Predicates.hpp:492-592", "include/zensim/geometry/Predicates.hpp:1029-1065"]}
{"id": "C80", "title": "Stress and stiffness of the isotropic elasticity models are the derivatives of their energies", "statement": "For FixedCorotated, StvkWithHencky and NeoHookean: dpsi_dsigma is the gradient and d2psi_dsigma2 the Hessian of psi_sigma; along every motion of the deformation gradient with a differentiable singular value decomposition the energy changes at the rate first_piola : dF/dt and the stress at the rate first_piola_derivative . vec(dF/dt); first_piola_derivative is symmetric, and positive semi-definite with project_SPD. EquationOfState's psi, first_piola and first_piola_derivative are successive derivatives; lame_parameters and E_nu_from_lame_parameters are inverse to each other.", "quantifier": "all Lame parameters, all stretches in the domain of the material, all differentiable motions U(t), S(t), V(t), dimensions 1 to 3", "why_tests_cant": "A finite-difference test samples a few deformations with a tolerance; it cannot establish the derivative identities for all motions and cannot see coefficients that are wrong only for inverted elements, in a narrow band of nearly equal stretches, or in one dimension.", "anchors": ["include/zensim/physics/ConstitutiveModel.hpp:34", "include/zensim/physics/ConstitutiveModel.hpp:121", "include/zensim/physics/ConstitutiveModel.hpp:131", "include/zensim/physics/constitutive_models/FixedCorotated.h:23", "include/zensim/physics/constitutive_models/StvkWithHencky.hpp:23", "include/zensim/physics/constitutive_models/NeoHookean.hpp:24", "include/zensim/physics/constitutive_models/EquationOfState.hpp:16"]}
{"id": "C81", "title": "Invariants of the deformation gradient, the materials built on them and the node-to-deformation matrices are consistent", "statement": "I_wrt_F<0..2> and I_wrt_F_a<5> return a value, its gradient and its Hessian; for NeoHookeanInvariant and StableNeohookeanInvarient the energy changes at the rate first_piola : dF/dt and the stress at the rate first_piola_derivative . vec(dF/dt) along every differentiable motion, the energies are independent of the frame and the undeformed body is free of stress; NeoHookeanInvariant agrees with NeoHookean; eval_stretching_matrix is the Hessian in the principal stretches; AnisotropicArap's first_piola and first_piola_derivative are the derivatives of its psi; dFdXMatrix maps node positions to the deformation gradient and dFAdF maps vec(F) to vec(FA); mohrColumbFriction is the coefficient for the configured angle.", "quantifier": "all material parameters, all differentiable motions of F (det F > 0 for NeoHookeanInvariant), dimensions 1 to 3 (dFdXMatrix: all dimensions)", "why_tests_cant": "A finite-difference check samples a few matrices; index conventions (row- or column-major, which minor, which sign) agree by accident on symmetric or diagonal samples, and a constant factor in a stress is invisible to any test that only uses the stress.", "anchors": ["include/zensim/physics/ConstitutiveModel.hpp:263", "include/zensim/physics/ConstitutiveModel.hpp:435", "include/zensim/physics/ConstitutiveModel.hpp:503", "include/zensim/physics/ConstitutiveModel.hpp:662", "include/zensim/physics/ConstitutiveModel.hpp:769", "include/zensim/physics/constitutive_models/NeoHookean.hpp:97", "include/zensim/physics/constitutive_models/AnisotropicArap.hpp:39"]}
{"id": "C82", "title": "Plastic return mappings deliver admissible stresses and leave elastic states alone", "statement": "project_sigma of NonAssociativeDruckerPrager, VonMisesCapped, NonAssociativeVonMises, SnowPlasticity and NonAssociativeCamClay maps every positive stretch vector to one whose stress satisfies the yield condition; states that satisfy it are left unchanged; the mapping is idempotent; deviators keep their direction; Drucker-Prager flow preserves volume; hardening keeps the product of plastic and elastic volume (Cam-Clay tips) and hardens under compression, softens under stretching (snow).", "quantifier": "all positive stretches, all dimensions (Cam-Clay: below 6), all material parameters with positive shear and bulk modulus, all non-negative yield parameters", "why_tests_cant": "The mappings are piecewise with tolerances and square roots; sampled stretches rarely hit the tips, the hydrostatic axis or states where the volume changes during the projection, and a test that recomputes the yield function with the trial volume repeats the code's mistake.", "anchors": ["include/zensim/physics/plasticity_models/NonAssociativeDruckerPrager.hpp:31", "include/zensim/physics/plasticity_models/VonMisesCapped.hpp:31", "include/zensim/physics/plasticity_models/NonAssociativeVonMises.hpp:25", "include/zensim/physics/plasticity_models/SnowPlasticity.hpp:27", "include/zensim/physics/plasticity_models/NonAssociativeCamClay.hpp:35"]}
{"id": "C83", "title": "threadsafe_queue is a linearizable FIFO queue without lost wake-ups", "statement": "When any number of threads call push, wait_and_pop, try_pop and empty on one threadsafe_queue, every call takes effect at one moment between its call and its return with the result it returns, the effects form a history of a sequential first-in first-out queue, no element is lost, duplicated or reordered, no thread reads the front of an empty queue, and no wake-up is lost: when no thread inside the queue can go on, every pending call is a wait_and_pop sleeping on an empty queue.", "quantifier": "every number of threads, every sequence of calls by each thread, every interleaving, every choice of the thread woken by notify_one, every pattern of spurious wake-ups", "why_tests_cant": "Lost wake-ups and reorderings need particular interleavings of three or more threads that a test run hits rarely or never.", "anchors": ["include/zensim/execution/Concurrency.h:23-91"]}
{"id": "C84", "title": "concurrent_map's operations are atomic and its pointers stay valid", "statement": "When any number of threads call set, erase, emplace, get and find on one concurrent_map, no two of them work on the map at the same time unless both only look up; every call answers as a map to which the earlier calls were applied; a pointer or reference returned by find or get for a key can be used and reads the current value of that key.", "quantifier": "every number of threads, every sequence of calls and uses of returned pointers, every interleaving", "why_tests_cant": "Use of a returned reference after another thread erased or reassigned the key is a race that tests rarely trigger and that does not fail visibly when it happens.", "anchors": ["include/zensim/execution/Concurrency.h:93-137"]}
{"id": "C85", "title": "Colliders: velocity of the moving level set, sticky, slip and separating response", "statement": "For a Collider with scale s, rotation R, translation b and their rates, getVelocity(x) is the velocity of the material point at x under x = R s X + b; queryInside and resolveCollision act exactly on the points inside the moved level set, deeper than the erosion; Sticky gives a point the collider's velocity, Slip removes exactly the normal part of its relative velocity, Separate does so only when the point approaches; no response increases the relative speed and a second call changes nothing.", "quantifier": "every level set, dimension 2 or 3, scale, rotation, translation and rates, every point, velocity and erosion, in exact real arithmetic", "why_tests_cant": "The claims range over all motions and all points; tests with unscaled colliders and unit normals do not see the scale and normalisation errors.", "anchors": ["include/zensim/geometry/Collider.h:10-196", "include/zensim/geometry/AnalyticLevelSet.h:29-43"]}
{"id": "C86", "title": "AdaptiveGrid: hierarchy maintenance and hierarchical reads", "statement": "complementTopo succeeds on a grid whose arrays match its tables, and afterwards the blocks of each level are exactly the former ones plus every coarser block containing one, each block occurs once, a child-mask bit is on exactly when the child block exists, former blocks keep their values and masks, and added blocks are zero and inactive. Every coordinate then reads the cell of the finest block around it (or the background outside all blocks), and the read through hash tables, the read through child offsets and ranks, value, valueOr and getValueLevel agree; topoObliviousProbeValue finds the same values where no active tile lies above a finer block. A user would further expect that complementing the topology changes no value that can be read, that coordinates outside all blocks keep reading the background, and that complementTopo may be called again.", "quantifier": "all level configurations accepted by the static_asserts, all dimensions, any number of levels and blocks, all tile contents and masks, every order of concurrent insertions and of the coarsest blocks, all coordinates", "why_tests_cant": "the position of a child depends on all masks and on the order of all blocks; tests see a few trees only", "anchors": ["include/zensim/geometry/AdaptiveGrid.hpp:370-400", "include/zensim/geometry/AdaptiveGrid.hpp:535-640", "include/zensim/geometry/AdaptiveGrid.hpp:968-1187", "include/zensim/geometry/AdaptiveGrid.hpp:1838-1955", "include/zensim/container/Vector.hpp:628-647"]}
{"id": "C87", "title": "Poisson disk sampling: separation, containment, termination", "statement": "PoissonDisk::sample in the plane returns feasible points of the box that are pairwise at least minDistance apart, each but the first between one and two minDistances from an earlier one, and it returns after at most twice as many rounds as there are grid cells; with periodic = true the separation also holds across the borders of the box. In space it returns exactly the feasible points of the box among the scaled and repeated reference set, whatever the number of threads, and they are minDistance apart if the repeated reference set is. DenseGrid gives each index of its domain a place of its own inside its storage.", "quantifier": "all distances, boxes, feasibility predicates, numbers of attempts, sequences of random draws, reference sets and numbers of threads, in exact real arithmetic", "why_tests_cant": "the draws are random and the separation depends on which 5x5 neighbourhood of cells is searched; a test sees a few runs on a few boxes only", "anchors": ["include/zensim/geometry/PoissonDisk.hpp:20-306", "include/zensim/container/DenseGrid.hpp"]}
{"id": "C88", "title": "Smoothed friction: potential, force, stiffness and contact stencils", "statement": "The friction potential f0 is differentiable with derivative f1 times the sliding length, which grows from 0 to 1 and is 1 from epsvh on; f2_SF_term is the derivative of f1. The closest-point functions minimise the distance over line, plane or pair of lines; tangent bases are orthonormal and orthogonal to the contact direction; for each stencil (point-point, point-edge, point-triangle, edge-edge) the rel_dx function is the relative motion of the contact points, the TT matrix maps vertex displacements to its tangential part, and f1 times rel_dx_tan_to_mesh is the gradient of the potential with respect to the vertices; these forces add up to zero.", "quantifier": "all thresholds, sliding lengths, non-degenerate configurations, bases, barycentric coordinates and displacement fields, in exact real arithmetic", "why_tests_cant": "the gradient identity and smoothness across the threshold and at rest are statements about limits at every displacement", "anchors": ["include/zensim/geometry/Friction.hpp:9-347"]}
{"id": "C89", "title": "Dihedral angle, gradient and Hessian", "statement": "For two proper triangles sharing an edge, dihedral_angle is the angle in (-pi, pi] by which the second unit normal turns into the first around the common edge; it does not depend on which triangle is named first nor on translations, and a mirror image has the opposite angle. dihedral_angle_gradient is the derivative of the angle with respect to the four points, for all velocities, wherever the angle is not pi (where it jumps to -pi); dihedral_angle_hessian is the derivative of the gradient and is symmetric.", "quantifier": "all four points spanning two non-degenerate triangles, all velocities of the four points, in exact real arithmetic", "why_tests_cant": "the claim is about limits at every configuration; a wrong term in one of the blocks shows up only for velocities and shapes a test happens to choose", "anchors": ["include/zensim/math/DihedralAngle.hpp:15-178"]}
{"id": "C90", "title": "Gradients and Hessians of the squared distances and of the edge-edge mollifier", "statement": "dist_grad_pe, dist_grad_ee, dist_grad_pt and cn2_grad_ee return the gradients of dist2_pe (plane and space), dist2_ee, dist2_pt and cn2_ee with respect to all coordinates, and dist_hess_pe, dist_hess_ee, dist_hess_pt, cn2_hess_ee the symmetric matrices of second derivatives. The mollifier rises monotonically from 0 for parallel edges to 1 at the threshold; mollifier_grad_ee is its gradient everywhere, also at the threshold, and mollifier_hess_ee the derivative of that gradient except at the threshold, where the gradient has a kink and no second derivative exists.", "quantifier": "all points with a non-degenerate edge, non-parallel edges or a proper triangle, all velocities, all positive thresholds, in exact real arithmetic", "why_tests_cant": "hundreds of generated terms have to agree with limits at every configuration; a wrong sign in one term shows only for particular directions", "anchors": ["include/zensim/geometry/Distance.hpp:270-813", "include/zensim/geometry/Distance.hpp:1121-1215", "include/zensim/geometry/Distance.hpp:1218-1910", "include/zensim/geometry/Distance.hpp:2383-2392", "include/zensim/geometry/Distance.hpp:2447-2947", "include/zensim/geometry/Distance.hpp:2948-3591", "include/zensim/geometry/Distance.hpp:3939-4025"]}
{"id": "C91", "title": "Contact deformation Jacobians", "statement": "pFpx_pp2, pFpx_pe2, pFpx_ee2 and pFpx_pt2 return matrices whose last column is the gradient of distance divided by dHat with respect to the coordinates of the contact's points and whose other columns are zero. pFpx_ppp, pFpx_ppe and pFpx_pee, for nearly parallel edges, return in addition the gradient of the area spanned by the two edges in column 4.", "quantifier": "all positions of the points in space with positive distance, proper edge, non-parallel edges or proper triangle, all non-zero dHat, all directions of motion", "why_tests_cant": "The programs are long generated sequences of assignments; a wrong sign or index in one entry only shows for some configurations, and finite differences at sampled points settle neither the entries nor the configurations in between.", "anchors": ["include/zensim/geometry/Distance.hpp:14-222", "include/zensim/geometry/Distance.hpp:815-1110", "include/zensim/geometry/Distance.hpp:1912-2314", "include/zensim/geometry/Distance.hpp:3593-3789"]}
{"id": "C92", "title": "Ranges, zip, enumerate and chunk_view visit every element once, with every policy", "statement": "Iterating a range built with range(begin,end), range(begin,end,increment), range(pointer,n), zip, enumerate or chunk_view visits exactly the elements it denotes, in order: the integers from begin below end by the increment, the array elements, the rows up to the shortest zipped range (numbered from 0 by enumerate), consecutive pieces of at most the chunk size. The sequential policy and the OpenMP policy visit the same elements and range_size is their number.", "quantifier": "for all nestings of zip and enumerate, all bounds, increments, array lengths and chunk sizes, and both 32 and 64 bit signed and unsigned index types", "why_tests_cant": "The iterators are templates over index types and nestings; the failures sit at particular combinations of sign, divisibility and magnitude, and with chunk iterators in the comparison nobody exercises sequentially.", "anchors": ["include/zensim/ZpcIterator.hpp:438-502", "include/zensim/ZpcIterator.hpp:571-706", "include/zensim/ZpcIterator.hpp:709-790", "include/zensim/omp/execution/ExecutionPolicy.hpp:91-97", "include/zensim/execution/ExecutionPolicy.hpp:161"]}
{"id": "C93", "title": "PCG random numbers: full period, equidistribution, reproducible streams, distinct seeds", "statement": "For every increment and every starting state the generator PCG runs through all 2^64 states before it repeats, and in each period every 32-bit result is returned exactly 2^32 times. call_random(i) is the result of call number i of a fresh generator, and the static pcg32_random_r continues the same stream as the member. Different compilation times give different seeds.", "quantifier": "all 64-bit states and increments, all numbers of calls, all times of day", "why_tests_cant": "The period is 2^64 calls; it can only be established by number theory, not by running the generator.", "anchors": ["include/zensim/math/probability/Random.hpp:7-52"]}
{"id": "C94", "title": "Poisson, normal and anti-normal sampling return and invert their distribution functions", "statement": "PDF(lambda,k) is the Poisson probability and PDF(u,o,x) the normal density. rand_p(lambda) returns, for every value of rand(), the least number whose Poisson distribution function exceeds the uniform number, so its results follow the Poisson distribution; rand_normal(u,o) and rand_anti_normal(u,o) return for every value of rand().", "quantifier": "all parameters, all values of the uniform number in [0,1]", "why_tests_cant": "The loops end only with a probability: a test sees the calls that return, and a statistical test does not establish the distribution for every parameter.", "anchors": ["include/zensim/math/probability/Probability.cpp:10-56"]}
{"id": "C95", "title": "Tensor index arithmetic numbers the index box one-to-one in storage order", "statement": "For an indexer with any extents and any storage order (a permutation of the dimensions), offset maps the indices of the box one-to-one onto the numbers from 0 up to the extent. Offsets increase lexicographically in the storage order: the dimension named first is the slowest, the one named last is contiguous. Giving only leading coordinates is the same as giving zeros for the others; in the natural order this is the start of the contiguous block of the remaining dimensions. The prefix sums and suffix products of parameter packs are those of the leading and trailing arguments.", "quantifier": "for all dimensions, extents, storage orders and indices", "why_tests_cant": "The extents and storage orders are template parameters: a test instantiates a handful of shapes, mostly in natural order, where a wrong permutation (storage order against its inverse) gives the same offsets.", "anchors": ["include/zensim/math/VecInterface.hpp:10-57", "include/zensim/ZpcMathUtils.hpp:266-281", "include/zensim/ZpcMathUtils.hpp:1784-1804"]}
{"id": "C96", "title": "Integer gcd, lcm, powers, clamping and result types", "statement": "gcd ends with the greatest common divisor and lcm with the least common multiple whenever it is a value of the type; pow_integral yields base to the exponent in the arithmetic of the type, without overflow in between if the power is representable; clamp yields the nearest point of the interval, min, max and abs what their names say; the result type of a mixed operation can hold every argument.", "quantifier": "for all integer types, widths and values", "why_tests_cant": "The failing cases are single points of large domains (the lowest value against -1, the largest exponent, zero and zero) or combinations of types; freedom from intermediate overflow has to hold for every base and exponent.", "anchors": ["include/zensim/ZpcMathUtils.hpp:296-325", "include/zensim/ZpcMathUtils.hpp:327-382", "include/zensim/ZpcFunctional.hpp:208-267"]}
{"id": "C97", "title": "ConditionVariable: notifications wake the waiters, waits return with the mutex and only when notified", "statement": "When a call of notify_one or notify_all returns, a thread that had entered the wait queue before is signalled (notify_one: one such thread, notify_all: all); in particular a thread that released the mutex in wait cannot miss a notification sent afterwards. wait returns only after a notification and with the mutex held; the mutex has at most one holder throughout. No call is undefined, whatever the number of threads and the interleaving.", "quantifier": "for all numbers of threads and all interleavings of their accesses to the flag, the counter, the wait queue and the mutex", "why_tests_cant": "A lost notification or a read of a freed node needs one particular interleaving, or a particular history of the wait queue; a test that passes has merely not met it.", "anchors": ["include/zensim/execution/ConcurrencyPrimitive.hpp:59-78", "include/zensim/execution/ConcurrencyPrimitive.cpp:157-211", "include/zensim/execution/ConcurrencyPrimitive.cpp:425-472"]}
{"id": "C98", "title": "The preset semirings obey the semiring laws", "statement": "For each preset category of make_semiring over an integer type, add is associative and commutative with identity() as neutral element, multiply is associative, distributes over add, and identity() annihilates; add of any number of arguments is their minimum, maximum, disjunction or sum.", "quantifier": "every category, integer domain type of any width, all argument values and argument counts", "why_tests_cant": "laws over all values of every type; failures only at the values standing for infinity, at overflow and with negative factors", "anchors": ["include/zensim/ZpcFunctional.hpp: monoid, SemiringImpl, multiplier_for, make_semiring"]}
{"id": "C99", "title": "compute_mesh_normal gives area-weighted vertex normals", "statement": "compute_mesh_normal gives every vertex of some triangle the sum of the area normals of the triangles at it, normalised and multiplied by scale (or the given normal of the vertex, normalised), whatever the order of the parallel additions; the version for a part of a mesh does so for the nodes of the part.", "quantifier": "every mesh of any size with triangles in range, every schedule of the additions, every scale", "why_tests_cant": "all meshes and schedules; parts with an offset and isolated nodes", "anchors": ["include/zensim/geometry/Mesh.cpp: compute_mesh_normal, compute_mesh_normal_impl"]}
{"id": "C100", "title": "RandomNumber draws weights, boxes, balls and rotations of the right shape", "statement": "randomBarycentricWeights returns nonnegative weights of sum one, randInBox and fill numbers between the bounds, randInBall a point of the ball, randRotation a rotation, whatever numbers the generator delivers; the rejection loops return the first accepted attempt and end.", "quantifier": "every stream of the generator, every dimension, every box, ball and number of attempts", "why_tests_cant": "all streams and dimensions; rejection loops have no bound", "anchors": ["include/zensim/math/RandomNumber.hpp: RandomNumber"]}
{"id": "C101", "title": "Index literals are checked decimal numerals", "statement": "A literal of _th or _c compiles exactly if it consists of decimal digits and separators and its decimal value fits in size_t, and is then that value; separators do not matter.", "quantifier": "every sequence of characters of any length", "why_tests_cant": "the overflow guard for all numerals", "anchors": ["include/zensim/ZpcFunctional.hpp: index_literals"]}
{"id": "C102", "title": "value_seq scans, reductions and shuffles", "statement": "value_seq::scan<0..3> yields for each position the combination of the values before it, up to it, after it, from it on; reduce combines all values; shuffle picks the values at the given indices, composes, and permutes under a permutation of the indices.", "quantifier": "every sequence of any length, every index list, every kind of scan, every lawful monoid; sums and products of unsigned types and extrema of all integer types", "why_tests_cant": "sequences of every length and all operations", "anchors": ["include/zensim/ZpcFunctional.hpp: value_seq"]}
{"id": "C103", "title": "Views of degrees of freedom", "statement": "A DofView presents a structure as numbered degrees of freedom: get, set and the iterators agree on number e*dim+d being component d of entry e, a write changes that place alone, iteration visits each place once, and DofCompwiseOp, the unary operators, DofFill and IdentitySystem yield for every degree of freedom the operation on the inputs' values before the call, also in place.", "quantifier": "every structure size, dimension, channel and entry kind, every memory, every operation and every order in which a policy runs the indices", "why_tests_cant": "all sizes, dimensions, aliasings and parallel orders", "anchors": ["include/zensim/types/View.h: DofView", "include/zensim/math/linear/LinearOperators.hpp: DofCompwiseOp, DofAssign, DofFill, IdentitySystem"]}
{"id": "C104", "title": "Dispatch over several variants calls the visitor once, on the alternatives held", "statement": "VariantTaskExecutor(visitor)(v1, ..., vn) calls the visitor exactly once, with the alternatives the variants hold, if the visitor is callable on them, and never otherwise.", "quantifier": "every number of variants, every number of alternatives of each, every held combination, every visitor", "why_tests_cant": "a compile-time recursion over the product of all alternatives, for every arity", "anchors": ["include/zensim/types/Polymorphism.h: VariantTaskExecutor"]}
{"id": "C105", "title": "Refitting keeps exactly the active blocks, extending adds exactly the surrounding ones", "statement": "After refit_level_set_domain the level set contains exactly the blocks that held an active value (an sdf below the background plus the threshold, another property of magnitude above it), with all their values and a consistent block numbering. After extend_level_set_domain with n layers it contains exactly the blocks within n blocks of an old one; old blocks keep number and values, new ones are zero with the sdf at the background plus dx, and the room reserved before each round suffices.", "quantifier": "every level set, threshold, set of properties, number of layers and order in which the loops run or insert", "why_tests_cant": "parallel insertion orders and uninitialised memory cannot be enumerated; the growth bound is over every domain and number of layers", "anchors": ["include/zensim/geometry/LevelSetUtils.tpp: mark_level_set", "include/zensim/geometry/LevelSetUtils.tpp: refit_level_set_domain", "include/zensim/geometry/LevelSetUtils.tpp: extend_level_set_domain"]}
{"id": "C106", "title": "Extension over another level set reaches exactly the connected inside", "statement": "extend_level_set_domain(pol, ls, sdf) returns exactly if finitely many blocks are reached from the domain through cells that touch and at which sdf is negative; the domain then is the set of reached blocks, old blocks keep their numbers, and no round inserts more blocks than the reserve made before it.", "quantifier": "every level set with blocks at multiples of the side length, every sign function and every order of the parallel visits", "why_tests_cant": "a fixpoint over unbounded domains, under every interleaving of the insertions", "anchors": ["include/zensim/geometry/LevelSetUtils.tpp: extend_level_set_domain(pol, ls, sdfLsv)"]}
{"id": "C107", "title": "Every way of naming an element of a tensor names the same one", "statement": "For a tensor with any extents, padded storage extents and storage order, t(i, j, ...), t[i][j]... and t.val(k) with k the row-major number name the same element; different coordinates name different elements inside the data. A view obtained by subscripting leading coordinates, or given by a prefix and a base, names by call, further subscripts and val exactly the tensor elements at its prefix and base plus its coordinates.", "quantifier": "every dimension, extents, storage extents, storage order, view and coordinates", "why_tests_cant": "dimensions, extents and orders are template parameters: a test instantiates a handful, mostly in natural order without padding, where most mix-ups coincide", "anchors": ["include/zensim/math/Tensor.hpp:10-197", "include/zensim/ZpcTuple.hpp:381-399"]}
{"id": "C108", "title": "Sampling a sparse level set", "statement": "Reading a level set at a cell coordinate gives the value stored in that cell of its block, or the default where the block is absent; the faces of a cell are read where they are stored. Sampling at an index-space position with the linear, quadratic or cubic kernel reproduces every affine field, at cell positions and at the face centres of a staggered level set, and never leaves the range of the values around. The four-point ipack at a face equals the general ipack at the centre of that face, and isample of component d of a property equals component d of its ipack.", "quantifier": "every dimension, table, grid, channel layout, default, coordinate and position, negative ones included", "why_tests_cant": "a statement about all fields and positions; block borders, negative coordinates, absent blocks and the channel layout combine, and the usual layouts hide a wrong face orientation", "anchors": ["include/zensim/geometry/SparseLevelSet.hpp:461-493", "include/zensim/geometry/SparseLevelSet.hpp:524-588", "include/zensim/geometry/SparseLevelSet.hpp:663-711", "include/zensim/geometry/SparseLevelSet.hpp:843-949", "include/zensim/geometry/Structure.hpp:319-331"]}
{"id": "C109", "title": "A level set is where its motions put it", "statement": "After any sequence of translate, rotate (by an orthogonal matrix) and scale (by an invertible matrix) on a new SparseLevelSet, or on one placed by resetTransformation, worldToIndex and indexToWorld are inverse to each other, for cell-centred and other categories. translate moves every position by the vector, rotate turns and scale stretches it about the position of the index origin. The cell size dx remains the length of one index step. getIndexToWorldTransformation returns the matrix that indexToWorld applies, and returns what resetTransformation was given. getMaterialVelocity turns a stored velocity as the motions turned the positions.", "quantifier": "for every dimension, field of numbers, cell size, affine matrix, sequence of motions, category, position and index", "why_tests_cant": "the placement is kept in five matrices updated separately by each motion, and agreement is about all products of them in all orders; axis-aligned or symmetric test matrices hide a transposed factor", "anchors": ["include/zensim/geometry/SparseLevelSet.hpp:59-71", "include/zensim/geometry/SparseLevelSet.hpp:140-187", "include/zensim/geometry/SparseLevelSet.hpp:369-376", "include/zensim/geometry/SparseLevelSet.hpp:421-428", "include/zensim/geometry/SparseLevelSet.hpp:756-762", "include/zensim/math/matrix/Transform.hpp:116-156"]}
{"id": "C110", "title": "Cells tile index space and the bounding box covers the level set", "statement": "indexToCell returns exactly the cell whose own position (cellToIndex) has the given position in the half-open unit box around it, so every position belongs to one cell and a cell is found again at its position; the same holds among the faces of one orientation of a staggered level set. The bounding box covers the world position of every index between _min and _max, however the level set is turned, stretched or moved, and is the smallest such box.", "quantifier": "for every dimension, category, orientation, position (negative ones included), cell, placement and index range", "why_tests_cant": "cell boundaries, negative positions and arbitrary rotations form unbounded families; that eight corners bound all interior positions is a statement about all affine maps", "anchors": ["include/zensim/geometry/SparseLevelSet.hpp:352-365", "include/zensim/geometry/SparseLevelSet.hpp:379-416", "include/zensim/ZpcMathUtils.hpp:1810-1814"]}
{"id": "C111", "title": "A sparse grid is where its motions put it, like a level set", "statement": "After resetTransformation with an invertible affine matrix and any sequence of translate, rotate (orthogonal) and scale (nonzero factors) on a SparseGrid, worldToIndex and indexToWorld are inverse to each other. translate moves every position by the vector; rotate and scale leave the position of index 0 and turn or stretch the grid about it. voxelSize(i) is the length of the step to the next index in direction i. The same motions of a level set and a sparse grid of the same cell size put both at the same place.", "quantifier": "for every dimension, field of numbers, affine matrix, sequence of motions, position and index", "why_tests_cant": "agreement is about all products of motion matrices in all orders; symmetric or axis-aligned matrices in tests hide transposition and order", "anchors": ["include/zensim/geometry/SparseGrid.hpp:159-182", "include/zensim/geometry/SparseGrid.hpp:254-262", "include/zensim/geometry/SparseGrid.hpp:388-404", "include/zensim/geometry/AdaptiveGrid.hpp:692-716", "include/zensim/math/matrix/Transform.hpp:17-79", "include/zensim/math/Vec.h:704-721"]}
{"id": "C112", "title": "Growing a HashTable keeps its entries", "statement": "HashTable::resize for any expected number of entries keeps every inserted key with its index, the order of the active keys and the counter, never shrinks the table, stays inside its arrays and ends; insertion afterwards goes on numbering where it stopped. HashTable::preserve for another number of entries keeps the first entries with their indices.", "quantifier": "for every key type, hash function, sequence of insertions and expected number of entries", "why_tests_cant": "every set of keys and every hash function gives another collision pattern; loss of entries needs particular patterns at particular sizes", "anchors": ["include/zensim/container/HashTable.hpp:221-296", "include/zensim/container/HashTable.hpp:422-469"]}
{"id": "C113", "title": "Dense fields are row-major arrays", "statement": "A DenseField of any number of dimensions, constructed with or reshaped to a shape, has as many elements as the product of the extents; linearOffset maps the lists of valid indices one to one onto its elements in row-major order; fewer indices give the first element of the sub-array; a write at valid indices is read back and changes no other element; reshaping to a shape with as many elements keeps them in order.", "quantifier": "for every shape of any dimension, element type, sequence of writes and reshapes, and indices", "why_tests_cant": "the number of dimensions and the extents are run-time values without bound; aliasing between indices is a statement about all pairs", "anchors": ["include/zensim/container/DenseField.hpp:37-53", "include/zensim/container/DenseField.hpp:121-122", "include/zensim/container/DenseField.hpp:146-170", "include/zensim/container/DenseField.hpp:214-230"]}
{"id": "C114", "title": "Copyable pointers own their object alone and copy by value", "statement": "After any sequence of constructions, copies, moves, assignments (also to itself), writes, resets, swaps and destructions of copyable_ptr, every object not yet deleted has exactly one owner and no pointer refers to a deleted one; each use has the effect it has when variables hold values and share nothing, so a copy equals the original and is independent of it, nothing is deleted twice, and once all pointers are gone or empty every object is deleted; copying an empty pointer gives an empty pointer.", "quantifier": "for every element type, number of pointers and sequence of uses", "why_tests_cant": "aliasing, leaks and double deletes depend on the history of uses, of which there are infinitely many; a run shows one of them, and a null dereference need not be noticed", "anchors": ["include/zensim/types/Pointers.hpp:8-113"]}
{"id": "C115", "title": "The background job queue runs jobs once, in order, and finishes them before it goes", "statement": "However the threads interleave, the jobs given to IO::insert_job are run one at a time, each once, in the order of insertion; the worker does not sleep over a waiting job unless a notification is about to come, and once awake it runs it; when flush returns, the jobs inserted before its call have been run; the destructor returns, and when it has, every job inserted has been run.", "quantifier": "for every number of inserting threads and jobs, jobs that insert further jobs, and every interleaving, with or without spurious wake-ups", "why_tests_cant": "the orders in which the threads meet the mutex, the flag and the condition variable cannot be enumerated by running; the failures need a particular order", "anchors": ["include/zensim/io/IO.h:7-51", "include/zensim/execution/Concurrency.h:35-39", "include/zensim/execution/Concurrency.h:74-80", "include/zensim/execution/Concurrency.h:88-91"]}
