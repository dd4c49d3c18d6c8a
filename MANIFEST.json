{
 "claims": [
  {
   "property": "C01",
   "status": "proved",
   "theorems": [
    "C01_expand_interleaves",
    "C01_compact_inverts_expand",
    "C01_morton_32",
    "C01_morton_64"
   ],
   "note": "Bit-exact interleaving, inverse by compaction, and decoder for the 32- and 64-bit 3-D codes. The float-to-integer scaling is outside the model."
  },
  {
   "property": "C02",
   "status": "proved",
   "theorems": [
    "C02_hash32_bijection",
    "C02_hash64_bijection",
    "C02_twang_bijection",
    "C02_hash_combine_injective"
   ],
   "note": "Unsigned instantiations; both directions; also injectivity of hash_combine in the value."
  },
  {
   "property": "C03",
   "status": "partial",
   "theorems": [
    "C03_round_down",
    "C03_round_up",
    "C03_interleaved_bit_mask",
    "C03_bit_length",
    "C03_next_2pow",
    "C03_next_2pow_top_undefined",
    "C03_next_power_of_two",
    "C03_num_bits_on",
    "C03_binary_reverse",
    "C03_count_leading_zeros",
    "C03_is_bit_on",
    "C03_bit_pack",
    "C03_bit_spread",
    "C03_spread_pack_roundtrip_partial",
    "C03_bit_pack_spread_undefined_refuted"
   ],
   "note": "All utilities; next_2pow above 2^(w-1) and bit_pack/bit_spread on masks 0 and 2^63 are undefined (refuted), and the pack/spread round trip needs at most 32 mask bits because the result is an int."
  },
  {
   "property": "C04",
   "status": "partial",
   "theorems": [
    "C04_mask_is_index_set_partial",
    "C04_whole_queries_partial",
    "C04_least_from_meaning",
    "C04_padding_leaks_refuted",
    "C04_equality_padding_refuted",
    "C04_all_on_missed_refuted",
    "C04_countOffset_end_refuted"
   ],
   "note": "Exact refinement to an index set for Size a multiple of 64, or for programs without whole-mask on/toggle; otherwise padding bits of the last word leak (refuted by witness). countOffset(Size) with Size a multiple of 64 reads out of range (refuted)."
  },
  {
   "property": "C05",
   "status": "proved",
   "theorems": [
    "C05_ring_refines_bounded_deque",
    "C05_ring_counters_bounded",
    "C05_ring_size1_head_bounded_refuted"
   ],
   "note": "Full refinement for every capacity and history. Extra: int counters stay bounded for Size>=2; for Size=1 the head counter grows without bound (refuted boundedness)."
  },
  {
   "property": "C06",
   "status": "proved",
   "theorems": [
    "C06_string_from_cstr",
    "C06_string_from_object",
    "C06_string_size",
    "C06_string_concat",
    "C06_string_equality"
   ],
   "note": "All constructors, size, ==, + ; no out-of-range access."
  },
  {
   "property": "C07",
   "status": "proved",
   "theorems": [
    "C07_no_double_delete",
    "C07_unique_owner",
    "C07_owned_is_alive",
    "C07_no_leak"
   ],
   "note": "Per-object ownership automaton over all histories, self-move included; deleter identity also tracked."
  },
  {
   "property": "C08",
   "status": "partial",
   "theorems": [
    "C08_live_blocks_ok",
    "C08_free_then_reuse",
    "C08_fitting_request_served_partial",
    "C08_failure_poisons_refuted",
    "C08_zero_size_free_refuted"
   ],
   "note": "Alignment, range, disjointness and LIFO reuse proved for every history; the claim that a failing allocate leaves the allocator usable is refuted (head is moved before the check), and zero-sized blocks cannot be freed (refuted)."
  },
  {
   "property": "C09",
   "status": "partial",
   "theorems": [
    "C09_arena_residency_exact",
    "C09_arena_commit_stays_resident",
    "C09_arena_evict_local",
    "C09_stack_residency_exact",
    "C09_stack_commit_evict",
    "C09_beyond_reserve_refuted"
   ],
   "note": "Exact for ranges inside the reservation (offset+bytes without size_t wrap), arbitrary histories including failing system calls; ranges reaching beyond the reservation are clamped and reported committed/resident (refuted)."
  },
  {
   "property": "C10",
   "status": "partial",
   "theorems": [
    "C10_vector_is_sequence",
    "C10_reorder_elements_partial",
    "C10_reorder_size_mismatch_throws",
    "C10_reorder_keeps_size_refuted",
    "C10_push_back_own_element_refuted",
    "C10_aligned_resize_capacity"
   ],
   "note": "List refinement proved for every history; reorder puts elements right for every schedule but sets size() to capacity() (refuted), push_back of an own element reads freed storage when reallocating (refuted). Virtual-allocator branch and non-host memory not modelled."
  },
  {
   "property": "C11",
   "status": "partial",
   "theorems": [
    "C11_addresses_distinct_in_range",
    "C11_property_ranges_partition_channels",
    "C11_tilevector_is_table",
    "C11_step_outcome",
    "C11_every_operation_runs",
    "C11_copy_without_channels_refuted",
    "C11_reorder_partial_tile_drops_element_refuted"
   ],
   "note": "Addressing, property ranges and the table specification hold for every history, every order of parallel assignments; refuted: copying a TileVector without channels divides by zero, and reorderTiles with a partly filled last tile can push live elements beyond size(). Not modelled: device memory, named views' tag lookup beyond offsets, tile pack/tuple reads."
  },
  {
   "property": "C12",
   "status": "partial",
   "theorems": [
    "C12_callbacks_registered_partial",
    "C12_callbacks_registered_refuted"
   ],
   "note": "Proved when assign is used on ids that insert returned; refuted otherwise (assign to an unissued id makes a later insert silently ineffective)."
  },
  {
   "property": "C13",
   "status": "partial",
   "theorems": [
    "C13_collapse_enumerates_box_partial",
    "C13_lex_increasing_once",
    "C13_collapse_zero_inner_extent_refuted",
    "C13_collapse_nonnegative_extents"
   ],
   "note": "Proved for first extent >= 0 and inner extents >= 1, any dimension, and described exactly for inner extents >= 0 (a zero inner extent counts as one); the claim is refuted for a zero inner extent (Collapse(2,0) visits 2 tuples)."
  },
  {
   "property": "C14",
   "status": "partial",
   "theorems": [
    "C14_seq_inclusive_scan",
    "C14_seq_exclusive_scan_partial",
    "C14_seq_exclusive_scan_inplace_refuted",
    "C14_seq_reduce"
   ],
   "note": "Inclusive scan and reduce: any operator, in place or disjoint. Exclusive scan proved when the output does not overwrite unread input; in-place exclusive scan is refuted."
  },
  {
   "property": "C15",
   "status": "partial",
   "theorems": [
    "C15_omp_inclusive_scan_partial",
    "C15_omp_inclusive_scan_noncommutative_refuted"
   ],
   "note": "Every thread count and every schedule between barriers, for associative and commutative operators; refuted for non-commutative ones."
  },
  {
   "property": "C16",
   "status": "partial",
   "theorems": [
    "C16_omp_exclusive_scan_partial",
    "C16_omp_exclusive_scan_init_refuted"
   ],
   "note": "Every thread count and schedule, associative commutative operator, init a left identity; refuted for other initial values (dropped)."
  },
  {
   "property": "C17",
   "status": "partial",
   "theorems": [
    "C17_omp_reduce_partial",
    "C17_omp_reduce_init_refuted"
   ],
   "note": "Every thread count and schedule, any monoid with init its identity; refuted for other initial values (counted once per thread)."
  },
  {
   "property": "C18",
   "status": "proved",
   "theorems": [
    "C18_seq_merge_sort_stable",
    "C18_stable_sort_unique"
   ],
   "note": "Any length, any strict weak order, any content of the temporary storage; the stable sort is unique."
  },
  {
   "property": "C19",
   "status": "partial",
   "theorems": [
    "C19_omp_merge_sort_stable_partial",
    "C19_omp_merge_sort_even_split_partial",
    "C19_omp_merge_sort_stable_refuted"
   ],
   "note": "Right for every thread order when all non-empty chunks need the same parity of merge passes (in particular even splits and short inputs); false otherwise, refuted by 513 elements on 2 threads."
  },
  {
   "property": "C20",
   "status": "proved",
   "theorems": [
    "C20_seq_radix_sort_stable",
    "C20_seq_radix_sort_numeric"
   ],
   "note": "Any key width, signedness, bit range and buffer content; full width is numeric order."
  },
  {
   "property": "C21",
   "status": "proved",
   "theorems": [
    "C21_omp_radix_sort_equals_seq"
   ],
   "note": "Every thread count and every interleaving of the scattered stores gives the sequential result."
  },
  {
   "property": "C22",
   "status": "partial",
   "theorems": [
    "C22_sort_pair_ascending_by_less_partial",
    "C22_sort_pair_comparator_refuted"
   ],
   "note": "Proved that the OpenMP pair sort sorts ascending by the built-in less of keys; that it honours the comparator argument is refuted."
  },
  {
   "property": "C23",
   "status": "partial",
   "theorems": [
    "C23_integer_atomics_indivisible",
    "C23_signed_atomics_indivisible",
    "C23_final_value_is_fold",
    "C23_float_add_indivisible",
    "C23_float_minmax_indivisible_partial",
    "C23_float_max_loses_update_refuted"
   ],
   "note": "Integers, and floating-point add/exchange, in full (linearizable under every schedule, bounded number of steps, fold of operands). Floating-point max/min proved when -0 does not occur; with -0 an update can be lost (refuted): the loop compares values while the compare-exchange compares bits."
  },
  {
   "property": "C24",
   "status": "proved",
   "theorems": [
    "C24_rbtree_map_is_finite_map",
    "C24_rbtree_map_count_nonempty",
    "C24_rbtree_map_count_empty_refuted"
   ],
   "note": "heap-level model with explicit nodes and links; every history of operations from the empty map (run) refines the finite map and is memory safe, destroy frees all. count() on an empty map dereferences the null root: C24_..._count_empty_refuted (finding). Assumes == and Compare form a strict total order (record total_order)."
  },
  {
   "property": "C25",
   "status": "proved",
   "theorems": [
    "C25_rbtree_map_balanced",
    "C25_rbtree_map_search_cost"
   ],
   "note": "red-black shape stated on the heap (rbh), key order around every node, path bound 2*log2(size+1), and the number of nodes a lookup reads."
  },
  {
   "property": "C26",
   "status": "proved",
   "theorems": [
    "C26_rbtree_map_ordered_access",
    "C26_rbtree_map_erase_through_iterators",
    "C26_const_reverse_decrement_refuted"
   ],
   "note": "walks, bounds and erasing through iterators after every history. const_reverse_iterator's operator-- at crend() goes to the largest entry instead of the smallest: C26_const_reverse_decrement_refuted (finding)."
  },
  {
   "property": "C27",
   "status": "proved",
   "theorems": [
    "C27_wide_key_slot_accesses_indivisible",
    "C27_insertion_is_safe_and_wait_free",
    "C27_insertion_numbers_each_key_once",
    "C27_failure_unflagged_refuted",
    "C27_sentinel_key_refuted"
   ],
   "note": "Any number of threads, any interleaving at the level of single loads, compare-exchanges, counter increments and writes; wait-free step bound; failure causes characterised. Sequentially consistent memory, host code path. Two additional refuted expectations: failure on a capacity-0 table leaves the success flag set; the all-0x3f key is reported as existing. Wide keys: the slot lock makes accesses indivisible (separate model)."
  },
  {
   "property": "C28",
   "status": "proved",
   "theorems": [
    "C28_query_is_position_in_active_keys"
   ],
   "note": "Every table reachable by construction, parallel insertion phases, successful resizes and resets is the dictionary of its active keys."
  },
  {
   "property": "C29",
   "status": "partial",
   "theorems": [
    "C29_resize_keeps_dictionary_partial",
    "C29_resize_loses_keys_refuted"
   ],
   "note": "Proved for every schedule when no reinsertion returns the failure token; the unconditional claim is refuted: three full buckets lose keys on growth (flagged in _buildSuccess)."
  },
  {
   "property": "C30",
   "status": "partial",
   "theorems": [
    "C30_dictionary_partial",
    "C30_new_key_gets_next_number_partial",
    "C30_failure_drops_one_key",
    "C30_first_and_later_insertions_partial",
    "C30_resize_keeps_dictionary_partial",
    "C30_reinsertion_refuted",
    "C30_lost_key_refuted",
    "C30_active_keys_overrun_refuted",
    "C30_reserved_key_refuted"
   ],
   "note": "Full statement refuted: a displaced key re-inserted is stored twice (C30_reinsertion_refuted), a failing insertion drops another key (C30_lost_key_refuted, exact effect in C30_failure_drops_one_key), activeKeys overrun, reserved key. Proved: the dictionary for all histories of distinct keys with displacement, resize and reset and no failure token; the full statement incl. repetitions when no bucket overflows. Host code, compare_key = true; GPU/OpenMP versions not modelled."
  },
  {
   "property": "C31",
   "status": "partial",
   "theorems": [
    "C31_insertions_number_the_keys",
    "C31_query_finds_inserted_keys_partial",
    "C31_insert_into_full_table_diverges",
    "C31_query_out_of_bounds_refuted"
   ],
   "note": "Insertion proved in full (sequential calls) from a reset table; query proved for tables with no occupied slot size-127, refuted otherwise (probe reads slot size: guard uses > instead of >=); inserting into a full table proved to diverge. Not modelled: preserve(), concurrent insertion, device code."
  },
  {
   "property": "C32",
   "status": "partial",
   "theorems": [
    "C32_box_query_reports_shared_cells",
    "C32_overlapping_boxes_are_reported_partial",
    "C32_point_query_partial",
    "C32_point_on_upper_face_refuted",
    "C32_flat_box_refuted",
    "C32_empty_build_refuted"
   ],
   "note": "Proved for every schedule of the build kernels: box queries report each primitive exactly once per shared cell (cells open at upper faces), nothing else; overlapping boxes and points inside are reported. Refuted for points on upper faces on grid lines, for flat boxes in the first dimension, and after build with no primitives (old structure kept). Exact integer coordinates; floating-point rounding, int overflow and failures of reinsertion during table growth are not modelled."
  },
  {
   "property": "C33",
   "status": "proved",
   "theorems": [
    "C33_build_lays_out_tree_in_preorder"
   ],
   "note": "LBvh::build from the sorted Morton codes on (more than two primitives), any order of the iterations of each parallel loop: no access outside an array or to an unwritten element, pre-order layout of a full binary tree over the sorted primitives, escape indices, levels, parents and leaf indices as specified by BvhSpec.stored. Morton code computation and the radix sort (C19) are inputs here; buildRefit is not covered."
  },
  {
   "property": "C34",
   "status": "proved",
   "theorems": [
    "C34_monotone_query",
    "C34_iter_neighbors_exact",
    "C34_subtree_query",
    "C34_nearest_point"
   ],
   "note": "All of iter_neighbors, ray_intersect (through the monotone-test theorem), the treelet and front variants and find_nearest_point on a tree left by build and refit. Coordinates are integers standing for the compared floating-point values."
  },
  {
   "property": "C35",
   "status": "partial",
   "theorems": [
    "C35_self_pairs_once_partial",
    "C35_pairs_itself_refuted",
    "C35_self_pairs_small"
   ],
   "note": "Refuted for more than two primitives: self_iter_neighbors(leafId) starts at the leaf itself and so always reports that leaf's own primitive first (C35_pairs_itself_refuted). Apart from these, each overlapping pair is reported exactly once (partial theorem); with at most two primitives the full claim holds."
  },
  {
   "property": "C36",
   "status": "proved",
   "theorems": [
    "C36_refit_boxes_every_schedule"
   ],
   "note": "Every interleaving of single shared-memory accesses under sequential consistency; nonempty boxes (merge of an inverted box is not a union). Memory fences are not modelled."
  },
  {
   "property": "C37",
   "status": "proved",
   "theorems": [
    "C37_build_total",
    "C37_refit_total",
    "C37_iter_neighbors_exact",
    "C37_self_pairs_exact",
    "C37_locate"
   ],
   "note": "Device sort of build is a contract (host build does not compile: float radix sort). refit on the sequential policy uses the verified merge sort. Boxes with min<=max, finite coordinates. Point queries (vec) do not compile (bv._max). Finding: LBvs::build cannot be instantiated with the sequential or OpenMP policy."
  },
  {
   "property": "C38",
   "status": "proved",
   "theorems": [
    "C38_build_sums_duplicates",
    "C38_topology_build_stores_each_coordinate_once",
    "C38_fast_build_stores_every_coordinate"
   ],
   "note": "build, topology build (with and without Mirror) and fastBuild; every order of the atomic and plain operations"
  },
  {
   "property": "C39",
   "status": "partial",
   "theorems": [
    "C39_transpose_from_partial",
    "C39_transpose_to_other_layout",
    "C39_transpose_keeps_old_shape_refuted",
    "C39_transpose_in_place_refuted"
   ],
   "note": "Transposed entries proved when B already has the transposed shape. Refuted: transposeFrom between equal layouts never assigns the shape; A.transposeFrom(A) uses uninitialised memory. The opposite-layout branch does not compile (pointer comparison of different types); its statements are shown to be right for scalar values."
  },
  {
   "property": "C40",
   "status": "partial",
   "theorems": [
    "C40_lookup_finds_exactly_the_stored_entries",
    "C40_binary_search_partial",
    "C40_binary_search_out_of_bounds_refuted"
   ],
   "note": "linear lookup fully proved; binary search proved on rows not starting at 0 or whose first entry is not after the target; refuted elsewhere (unsigned wrap-around, out-of-bounds read)"
  },
  {
   "property": "C41",
   "status": "partial",
   "theorems": [
    "C41_spmv_classic_adds_the_product",
    "C41_spmv_computes_the_product_partial",
    "C41_spmv_mask_computes_the_unmasked_rows",
    "C41_integer_semirings_are_lawful",
    "C41_spmv_wide_column_major_refuted",
    "C41_spmv_tall_column_major_refuted",
    "C41_spmv_real_truncates_refuted"
   ],
   "note": "spmv_classic and spmv_mask fully; spmv for row-major and square column-major. Refuted: column-major rectangular spmv (range(nrows) instead of ncols), and plus_times over floating point (SemiringImpl::value_type is int, products truncated)"
  },
  {
   "property": "C42",
   "status": "partial",
   "theorems": [
    "C42_fast_terminates_complete",
    "C42_fast_proper_partial",
    "C42_maximum_terminates_complete",
    "C42_maximum_proper_partial",
    "C42_maximum_classes_maximal",
    "C42_maximum_degree_bound",
    "C42_fast_proper_with_ties_refuted",
    "C42_maximum_proper_with_ties_refuted"
   ],
   "note": "Termination and completeness for all weights; properness when adjacent weights differ; maximum_independent_sets classes are maximal and colours bounded by degree + 1. Properness with equal weights at adjacent vertices is refuted for both functions. Float weights modelled as integers (only compared)."
  },
  {
   "property": "C43",
   "status": "proved",
   "theorems": [
    "C43_union_find_components",
    "C43_union_find_progress",
    "C43_union_find_terminates",
    "C43_array_holds_labels_refuted"
   ],
   "note": "Plain loads/stores of path halving are taken as indivisible (they race with the CAS in C++ terms). Representative = root reached by following fas; fas itself is not flattened (C43_array_holds_labels_refuted)."
  },
  {
   "property": "C44",
   "status": "partial",
   "theorems": [
    "C44_every_schedule_gives_a_feasible_flow",
    "C44_maximum_flow_partial",
    "C44_maximum_flow_ends",
    "C44_search_ends_on_every_schedule",
    "C44_source_is_sink_refuted",
    "C44_overlapping_invocations_miss_the_flow_refuted",
    "C44_missing_transposed_entry_refuted"
   ],
   "note": "Under every interleaving of the search kernel and of the table construction the result is the value of a feasible flow and the matrix holds its residual capacities; no access out of bounds, search bounded. When kernel invocations do not overlap (sequential policy, any order) the result equals a cut capacity and bounds every flow (max-flow = min-cut). Overlapping invocations: refuted, the call may return 0 with maximum 5. Also refuted: source = sink never returns; missing transposed entry indexes out of bounds. Value type unbounded Z; insertion failures of the edge table excluded."
  },
  {
   "property": "C45",
   "status": "proved",
   "theorems": [
    "C45_mutual_exclusion",
    "C45_free_mutex_can_be_taken"
   ],
   "note": "Any number of threads, any interleaving of single accesses (sequentially consistent, weak compare-exchange may fail spuriously), spurious wake-ups and arbitrary interference on the shared wait queue included; try_lock only fails while somebody owns the mutex; a free mutex can be taken."
  },
  {
   "property": "C46",
   "status": "partial",
   "theorems": [
    "C46_queue_well_formed",
    "C46_one_waiter_at_a_time_partial",
    "C46_wake_nobody",
    "C46_wake_one_effect",
    "C46_removes_what_it_signals_refuted",
    "C46_second_sleeper_refuted",
    "C46_unrelated_address_refuted",
    "C46_wake_all_refuted",
    "C46_wake_all_last_partial",
    "C46_timeout_removes_itself_partial",
    "C46_timeout_refuted",
    "C46_timeout_result",
    "C46_futex_wake_single_partial",
    "C46_futex_wake_zero_refuted"
   ],
   "note": "Refuted in general: unpark advances its cursor before erasing, so it frees the waiter behind the one it signals (also of an unrelated address), notify_all reads a freed node as soon as a second waiter is queued, a timed-out head waiter reads its node after delete, and futex wake with count 0 wakes one. Proved: exact effect on every queue, well-formedness over all histories, correct behaviour while at most one thread at a time is inside parkFor."
  },
  {
   "property": "C47",
   "status": "partial",
   "theorems": [
    "C47_add_sub_mul_exact",
    "C47_div_exact_canonical",
    "C47_make_exact_canonical",
    "C47_neg_exact_canonical",
    "C47_eq_is_value_equality",
    "C47_no_overflow_below_2_31",
    "C47_add_mul_canonical_partial",
    "C47_add_canonical_refuted"
   ],
   "note": "+ - * exact and in lowest terms for every sign pattern, / and constructors exact and canonical, == on canonical values; overflow explicit, none below 2^31. A positive denominator after + and * is proved for non-negative operands and false otherwise (refuted: -1/4 + -5/4 = 3/-2)."
  },
  {
   "property": "C48",
   "status": "partial",
   "theorems": [
    "C48_less_is_value_order",
    "C48_greater_is_value_order_partial",
    "C48_greater_unreduced_refuted",
    "C48_less_after_add_refuted"
   ],
   "note": "operator< in full for positive denominators; operator> for canonical operands (refuted for 1/2 > 2/4); after a sum with a negative denominator < is wrong (refuted)."
  },
  {
   "property": "C49",
   "status": "partial",
   "theorems": [
    "C49_dyadic_sum_exact_partial",
    "C49_dyadic_sum_exact_refuted",
    "C49_dyadic_order_is_value_order",
    "C49_bisect_exact"
   ],
   "note": "Order, is_sum_leq_1 and bisect in full on dyadic numbers of [0,1]; + exact except when the power underflows (refuted: 1+1). The conversion from double is not modelled."
  },
  {
   "property": "C50",
   "status": "proved",
   "theorems": [
    "C50_tile_offset_roundtrip",
    "C50_tile_coord_roundtrip",
    "C50_hierarchy_offset_roundtrip",
    "C50_hierarchy_coord_roundtrip",
    "C50_key_is_block_origin",
    "C50_coordinate_determined",
    "C50_child_block_determined",
    "C50_leaf_cell_determined",
    "C50_blocks_nest",
    "C50_cell_size"
   ],
   "note": "Codecs of AdaptiveGridImpl (283-319) for all configurations accepted by the static_asserts that fit in int; not modelled: the level tables, accessors and restructuring."
  },
  {
   "property": "C51",
   "status": "partial",
   "theorems": [
    "C51_push_back_records_each_pair_once",
    "C51_reorder_groups_by_node",
    "C51_reorder_after_overflow_refuted"
   ],
   "note": "Proved for every schedule while the pushes fit in the capacity (push_back) and for every front within capacity (reorder); refuted after an overflow: the counter exceeds the capacity and reorder indexes out of bounds."
  },
  {
   "property": "C52",
   "status": "partial",
   "theorems": [
    "C52_offsets_in_buffer_partial",
    "C52_in_place_partial",
    "C52_growth_refuted"
   ],
   "note": "In-buffer offsets proved for every upstream; alignment and validity of earlier blocks hold only while the buffer is not replaced, refuted by witness on growth."
  },
  {
   "property": "C53",
   "status": "partial",
   "theorems": [
    "C53_no_lost_wakeup_partial",
    "C53_two_threads",
    "C53_three_threads_refuted"
   ],
   "note": "Proved while at most one thread at a time waits (unconditionally for two threads); refuted for three threads, where a sleeping locker's node is freed and nobody can wake it. Only this mutex uses the queue."
  },
  {
   "property": "C54",
   "status": "proved",
   "theorems": [
    "C54_weights_are_bsplines",
    "C54_arena_weights_are_bsplines",
    "C54_weights_partition_unity",
    "C54_derivative_weights",
    "C54_sample_reproduces_affine",
    "C54_face_sample_reproduces_affine",
    "C54_gradient_reproduces_slope",
    "C54_face_gradient_reproduces_slope",
    "C54_sample_in_range",
    "C54_face_sample_in_range",
    "C54_bspline_weight_is_quadratic"
   ],
   "note": "exact rational arithmetic replaces floating point; sqrt of the delta kernels is any function that respects equality, is non-negative, never above the true root and exact on 1 and 1/4; the grid lookup with its default is a parameter"
  },
  {
   "property": "C55",
   "status": "partial",
   "theorems": [
    "C55_value_semantics_partial",
    "C55_copy_assign_leaks_refuted",
    "C55_move_assign_leaks_refuted",
    "C55_assign_empty_refuted",
    "C55_self_assign_refuted",
    "C55_throwing_assign_refuted",
    "C55_assign_noncopyable_refuted",
    "C55_move_self_referencing_refuted"
   ],
   "note": "proved for all sequences of operations in which copy/move assignment only targets an empty function (or itself), plain lvalue assignment has another, full, copyable source, constructors throw only into an empty function and no self-referencing callable is moved; every excluded use is refuted (leak, double destruction, use after destruction, wrong operator bool)"
  },
  {
   "property": "C56",
   "status": "partial",
   "theorems": [
    "C56_owner_semantics_partial",
    "C56_copy_construct_refuted",
    "C56_copy_assign_refuted",
    "C56_copy_empty_leaks_refuted",
    "C56_throwing_constructor_refuted",
    "C56_self_value_refuted"
   ],
   "note": "proved for all sequences without copies of (or onto) full owners; copying owners uses the implicit bytewise copy and is refuted, as are throwing constructors and self-assignment for non-assignable types; only the variant for types without default constructor is modelled"
  },
  {
   "property": "C57",
   "status": "proved",
   "theorems": [
    "C57_products",
    "C57_scalars",
    "C57_affine",
    "C57_determinant",
    "C57_inverse",
    "C57_cross"
   ],
   "note": "exact arithmetic over abstract rings and fields: rounding is not modelled"
  },
  {
   "property": "C58",
   "status": "partial",
   "theorems": [
    "C58_arrays3_partial",
    "C58_arrays2_partial",
    "C58_cofactor3d_refuted",
    "C58_crossMul_refuted",
    "C58_parallel_refuted"
   ],
   "note": "all modelled helpers are right except: matrixCofactor3d writes the adjugate (transposed cofactors), vec_crossMul_vec_3D has the wrong signs, parallel looks at one component only (refuted)"
  },
  {
   "property": "C59",
   "status": "partial",
   "theorems": [
    "C59_sums",
    "C59_quotients",
    "C59_product_partial",
    "C59_product_refuted",
    "C59_abs_sqrt"
   ],
   "note": "Sums, differences, quotients, real operands, ==, conj, norm, abs and sqrt proved. complex *= complex overwrites _real before computing _imag: the product is wrong unless (re(xy) - re x) im y = 0 (C59_product_refuted: i*i = -1-i). pow, log, polar and the trigonometric functions need transcendental functions and are not modelled; pow(complex, int) does not compile (x *= x on a const reference)."
  },
  {
   "property": "C60",
   "status": "partial",
   "theorems": [
    "C60_quadratic_partial",
    "C60_linear",
    "C60_quadratic_refuted",
    "C60_cubic_partial",
    "C60_cubic_refuted"
   ],
   "note": "Quadratic: proved for leading coefficient above the tolerance and non-zero discriminant (smallest non-negative root); refuted for a < 0, double roots and a root at 0. Cubic: proved for one real root with a real principal cube root of the resolvent; x^3 - 1 refuted (the branch needs complex products, which are wrong). cbrt stands for pow(z, 1/3) as a parameter."
  },
  {
   "property": "C61",
   "status": "partial",
   "theorems": [
    "C61_axis_angle",
    "C61_euler",
    "C61_conventions",
    "C61_extract_axis_partial",
    "C61_extract_angles_partial",
    "C61_small_angles_refuted",
    "C61_between",
    "C61_orthogonal",
    "C61_quaternions"
   ],
   "note": "All constructors, the round trips outside the near_zero band and the quaternion identities are proved over every real closed field. The unrestricted round trip is refuted: rotations whose angle lies inside the band come back as the identity (or pitch 90 degrees). Square roots are exact; angles are represented by cosine and sine."
  },
  {
   "property": "C62",
   "status": "proved",
   "theorems": [
    "C62_set",
    "C62_pre",
    "C62_post",
    "C62_decompose",
    "C62_decompose_parts"
   ],
   "note": "polar_decomposition is a parameter with the hypothesis that its factors multiply to its argument."
  },
  {
   "property": "C63",
   "status": "partial",
   "theorems": [
    "C63_accuracy",
    "C63_terminates",
    "C63_relative_refuted"
   ],
   "note": "Exact arithmetic. Relative accuracy for every argument is refuted: every argument in (0, eps) gives 0."
  },
  {
   "property": "C64",
   "status": "proved",
   "theorems": [
    "C64_residual",
    "C64_fixed_dofs",
    "C64_converges",
    "C64_optimal",
    "C64_energy",
    "C64_exact",
    "C64_solves"
   ],
   "note": "Exact arithmetic over every real closed field; the system object is three matrices; execution policies, views and printing are not modelled (the code also waits for a key press after every iteration from the second)."
  },
  {
   "property": "C65",
   "status": "partial",
   "theorems": [
    "C65_tolerance",
    "C65_residual",
    "C65_converges",
    "C65_exact",
    "C65_fixed_dofs",
    "C65_optimal",
    "C65_independent_refuted",
    "C65_stops_when_met_refuted"
   ],
   "note": "Exact arithmetic. Two parts of the full claim are refuted: the tested residual keeps the reactions of fixed dofs because the first product is not projected, so the solver continues after the tolerance is met; and solve overwrites the member tol, so a solve changes the tolerance of later ones."
  },
  {
   "property": "C66",
   "status": "proved",
   "theorems": [
    "C66_givens",
    "C66_qr",
    "C66_gram_schmidt",
    "C66_upper_bidiagonalize",
    "C66_zero_chasing"
   ],
   "note": "Exact real arithmetic (any real closed field). gram_schmidt of a singular matrix divides by zero in the code; the theorem asks for a non-zero determinant."
  },
  {
   "property": "C67",
   "status": "proved",
   "theorems": [
    "C67_polar",
    "C67_svd"
   ],
   "note": "Exact real arithmetic (any real closed field); nearest in the Frobenius norm among all 2x2 rotations."
  },
  {
   "property": "C68",
   "status": "partial",
   "theorems": [
    "C68_svd",
    "C68_terminates",
    "C68_polar",
    "C68_polar_terminates",
    "C68_relative_refuted"
   ],
   "note": "Termination, rotations, ordering and accuracy are proved for every matrix with the tolerance of the code. C68_relative_refuted: the tolerance has an absolute floor, so the accuracy is not relative to A; a non-zero matrix with entries up to 128 eps gets all singular values 0."
  },
  {
   "property": "C69",
   "status": "partial",
   "theorems": [
    "C69_eigen2_partial",
    "C69_integer_refuted",
    "C69_make_pd",
    "C69_orthogonal"
   ],
   "note": "Proved for floating point element types in exact real arithmetic. C69_integer_refuted: integer matrices are accepted too, but the working copy keeps the integer type and truncates; diag(1,2) gets the eigenvalues 3/2 and 3/2."
  },
  {
   "property": "C70",
   "status": "partial",
   "theorems": [
    "C70_jacobi_partial",
    "C70_stale_refuted",
    "C70_zero_refuted",
    "C70_one_refuted",
    "C70_make_pd",
    "C70_make_pd_terminates"
   ],
   "note": "Termination, orthonormality of E, the size of the remainder and positive semi-definiteness of make_pd are proved for every size. Accuracy is false: C70_stale_refuted (the index of the largest entry is refreshed only in the two pivot rows, so the loop can stop with large entries off the diagonal), C70_zero_refuted (zero matrix: division by zero), C70_one_refuted (1x1 matrix: reads outside)."
  },
  {
   "property": "C71",
   "status": "partial",
   "theorems": [
    "C71_point_edge",
    "C71_point_interval",
    "C71_point_triangle",
    "C71_point_triangle_category",
    "C71_degenerate_refuted",
    "C71_one_dimension_refuted"
   ],
   "note": "Proved in exact arithmetic: least distance and category for proper edges (2D, 3D) and triangles (any dimension). Refuted: degenerate edges and triangles divide by zero (NaN), and dist2_pe_unclassified in one dimension returns the largest number for a point inside the interval."
  },
  {
   "property": "C72",
   "status": "partial",
   "theorems": [
    "C72_edge_edge",
    "C72_edge_edge_category",
    "C72_integer_coordinates",
    "C72_edge_edge_attained",
    "C72_unclassified",
    "C72_crossing_refuted",
    "C72_point_second_refuted",
    "C72_short_refuted"
   ],
   "note": "Proved: least distance whenever the compared numbers are zero or not below the tolerance (all integer coordinates); result always attained; dist2_ee_unclassified for edges that do not meet. Refuted: crossing coplanar edges (dist2_ee_unclassified returns 1 instead of 0), second edge a point (dist_ee_sqr), short crossing edges for every tolerance."
  },
  {
   "property": "C73",
   "status": "partial",
   "theorems": [
    "C73_intersection_sound",
    "C73_intersection",
    "C73_coplanar_refuted",
    "C73_mollifier",
    "C73_mollifier_derivatives",
    "C73_point_point_derivatives",
    "C73_point_point_gradient",
    "C73_one_dimension_hessian_refuted"
   ],
   "note": "Proved: soundness always, equivalence when the edge is not parallel to the plane; mollifier and its derivatives; point-point gradient in every dimension, Hessian in 2D and 3D. Refuted: coplanar edges are never reported, one-dimensional Hessian lacks mixed terms."
  },
  {
   "property": "C74",
   "status": "partial",
   "theorems": [
    "C74_plane_partial",
    "C74_plane_refuted",
    "C74_cuboid",
    "C74_box_distance",
    "C74_cuboid_of",
    "C74_sphere",
    "C74_sphere_normal",
    "C74_cylinder",
    "C74_sphere_box",
    "C74_cylinder_box",
    "C74_plane_box_refuted"
   ],
   "note": "Boxes, balls, cylinders: signed distance proved for every point (boxes with min <= max, radius and length not negative), distance(box,p) the same; plane proved for unit normals and refuted otherwise (the constructor does not normalise). Bounding boxes of balls and cylinders proved to be the smallest; that of a plane is a single point (refuted). getNormal of boxes and cylinders does not compile (unqualified call into a dependent base) and is not modelled. Exact real arithmetic."
  },
  {
   "property": "C75",
   "status": "partial",
   "theorems": [
    "C75_overlaps",
    "C75_overlaps_point",
    "C75_spheres_overlap",
    "C75_sphere_point",
    "C75_merge",
    "C75_get_bounding_box",
    "C75_uniform_coord_partial",
    "C75_uniform_coord_refuted",
    "C75_pt_broadphase",
    "C75_ee_broadphase",
    "C75_pt_broadphase_discards",
    "C75_ee_broadphase_discards",
    "C75_ray_tri_sound_partial",
    "C75_ray_tri_complete_partial",
    "C75_ray_tri_behind_refuted",
    "C75_ray_tri_small_refuted",
    "C75_ray_box_partial",
    "C75_ray_box_zero_refuted",
    "C75_ray_box_face_refuted",
    "C75_ray_box_face_missed_refuted"
   ],
   "note": "overlaps, merge, get_bounding_box and both broad phases proved. ray_box_intersect proved for a nonzero direction unless the ray starts on an x-face and is parallel to it; refuted for the zero direction and for that face (false positive and false negative through NaN). ray_tri_intersect: hits proved within the tolerance, completeness when the scaled direction exceeds the tolerance; refuted: hits behind the origin are returned, hits in small triangles are missed. getUniformCoord of a flat box divides zero by zero (refuted). Exact arithmetic with IEEE infinities."
  },
  {
   "property": "C76",
   "status": "partial",
   "theorems": [
    "C76_local_codec",
    "C76_value",
    "C76_defined",
    "C76_inactive_write",
    "C76_voxels",
    "C76_insert",
    "C76_accessor",
    "C76_staggered_neighbour",
    "C76_staggered_sample",
    "C76_accessor_side1_refuted",
    "C76_accessor_stale_refuted"
   ],
   "note": "Proved for all side lengths, dimensions, channels and operation sequences over the model (block table as guaranteed by C27/C28, unbounded coordinates, exact positions). Partial because two parts of the claim are false of the code: an accessor on a grid of side length 1 takes the node (2^31-1,...) for its empty cache entry and reads block -1, and an accessor that outlives a clear of the table reads block -1 through its stale entry (both _refuted); writing an inactive voxel is undefined rather than an activation (C76_inactive_write). global_coord_to_local_offset cannot be instantiated (operator precedence in its static_assert)."
  },
  {
   "property": "C77",
   "status": "partial",
   "theorems": [
    "C77_nodes_have_own_cells",
    "C77_defined",
    "C77_p2g_totals",
    "C77_p2g_center",
    "C77_p2g_angular",
    "C77_reported_momentum",
    "C77_internal_torque",
    "C77_eos_symmetric",
    "C77_g2p_affine",
    "C77_step_conserves",
    "C77_stress_acts_refuted"
   ],
   "note": "All conservation statements proved over exact rationals, any particle set, any order of the atomic additions. Refuted part: the stress P2G writes (channels 4-6) never reaches the particles, because ComputeGridBlockVelocity reads only channels 0-3 (C77_stress_acts_refuted). Rounding, maxVel and the other constitutive models are not modelled."
  },
  {
   "property": "C78",
   "status": "partial",
   "theorems": [
    "C78_sparsity",
    "C78_enlarge",
    "C78_partition_covers",
    "C78_partition_side2_refuted",
    "C78_partition_capacity_refuted",
    "C78_buckets",
    "C78_neighbours",
    "C78_neighbours_displacement_refuted"
   ],
   "note": "Proved: sparsity, enlarging, coverage for block sides from 4, buckets under every interleaving, neighbour completeness. Refuted parts: coverage fails for side 2; partition_for_particles sizes its table by particles/blocklen^dim, zero slots for fewer than 64 particles and too few for scattered ones; bucketCoord assumes displacement 0.5. The hash table is abstracted to its key list."
  },
  {
   "property": "C79",
   "status": "partial",
   "theorems": [
    "C79_init",
    "C79_orient2d",
    "C79_covers",
    "C79_consistent",
    "C79_orient3d_partial",
    "C79_two_sum",
    "C79_two_product",
    "C79_expansion_sum",
    "C79_strongly_nonoverlapping_refuted",
    "C79_reads_past_end_refuted",
    "C79_junk_unused",
    "C79_underflow_refuted"
   ],
   "note": "orient2d proved for every coordinate that does not underflow (binary64 with unbounded upper exponent; Flocq, so the standard library's axioms of the reals, classic and functional extensionality are used); orient3dadapt is not modelled. Refuted: tiny coordinates underflow to 'collinear'; the sum of strongly nonoverlapping expansions is not always strongly nonoverlapping (comment at 391-393); fast_expansion_sum_zeroelim reads one element past the end of e or f on every call (without influence on the result)."
  },
  {
   "property": "C80",
   "status": "partial",
   "theorems": [
    "C80_gradient",
    "C80_hessian_partial",
    "C80_hessian_1d_refuted",
    "C80_stress",
    "C80_stiffness_partial",
    "C80_hencky_inverted_refuted",
    "C80_coincident",
    "C80_hencky_coefficient",
    "C80_symmetric",
    "C80_project_spd",
    "C80_lame",
    "C80_lame_inverse",
    "C80_equation_of_state",
    "C80_gamma_refuted"
   ],
   "note": "Exact real arithmetic; the SVD is an argument (any orthogonal U, V). Proved: gradient (dims 1-3), Hessian (all but 1D fixed corotated), stress, stiffness for resolved stretches, limit at coincident stretches, error bound of the Hencky coefficient between, symmetry, positive semi-definiteness after make_pd, Lame conversions, equation of state. Refuted: FixedCorotated's 1D second derivative is the constant 1; the Hencky stiffness has the wrong sign for inverted elements; EquationOfState ignores its gamma argument. first_piola_derivative does not compile in 1D."
  },
  {
   "property": "C81",
   "status": "partial",
   "theorems": [
    "C81_I1_partial",
    "C81_I2",
    "C81_I3",
    "C81_I5",
    "C81_stress",
    "C81_stiffness",
    "C81_objective",
    "C81_rest",
    "C81_neo_hookean_agree_partial",
    "C81_neo_hookean_agree_refuted",
    "C81_stretching",
    "C81_arap_half",
    "C81_arap_stress_refuted",
    "C81_arap_stiffness_refuted",
    "C81_dFdX",
    "C81_dFAdF",
    "C81_friction_angle_refuted"
   ],
   "note": "I1's Hessian is a derivative only where its denominators are not clamped (stretches sum pairwise to at least 1e-6). Refuted: NeoHookeanInvariant subtracts 3 instead of the dimension (2D energy differs from NeoHookean by mu/2); AnisotropicArap::first_piola is half the derivative of psi and first_piola_derivative is the derivative of neither; mohrColumbFriction takes the sine of an angle in degrees."
  },
  {
   "property": "C82",
   "status": "partial",
   "theorems": [
    "C82_drucker_prager_admissible",
    "C82_drucker_prager_friction",
    "C82_drucker_prager_flow_partial",
    "C82_drucker_prager_elastic_refuted",
    "C82_drucker_prager_idempotent_partial",
    "C82_capped_result",
    "C82_capped_elastic",
    "C82_capped_idempotent",
    "C82_von_mises_admissible",
    "C82_von_mises_flow",
    "C82_von_mises_surface_refuted",
    "C82_snow_bounds",
    "C82_snow_hardening_partial",
    "C82_cam_clay_tips",
    "C82_cam_clay_ellipse_partial",
    "C82_cam_clay_admissible_refuted"
   ],
   "note": "Refuted: Drucker-Prager resets uniformly compressed (elastic) states to the undeformed one; NonAssociativeVonMises does not reach the yield surface (old volume is used) nor keeps the volume; Cam-Clay outside of the ellipse can end far outside of it because the volume changes. Drucker-Prager idempotence up to the tolerance for zero shear; snow hardening for volumes of at least 1e-6. Associative models not modelled."
  },
  {
   "property": "C83",
   "status": "proved",
   "theorems": [
    "C83_linearizable",
    "C83_fifo",
    "C83_exclusive",
    "C83_no_lost_wakeup",
    "C83_comes_to_rest"
   ],
   "note": "Sequentially consistent interleavings, std::mutex and std::condition_variable as specified, with spurious wake-ups. Linearizability, FIFO order, mutual exclusion, no lost wake-up, and termination in at most eight steps per thread without new calls."
  },
  {
   "property": "C84",
   "status": "partial",
   "theorems": [
    "C84_exclusion",
    "C84_answers",
    "C84_pointer_partial",
    "C84_pointer_refuted",
    "C84_race_refuted"
   ],
   "note": "Atomicity and answers are proved. A returned pointer or reference reads the key's current value until the key is erased (C84_pointer_partial). The full claim is false: get and find release the lock before their result is used, so the use can read freed memory (C84_pointer_refuted) or race with set (C84_race_refuted)."
  },
  {
   "property": "C85",
   "status": "partial",
   "theorems": [
    "C85_outside",
    "C85_inside",
    "C85_velocity",
    "C85_sticky",
    "C85_slip_partial",
    "C85_separate_partial",
    "C85_no_gain_partial",
    "C85_with_normal",
    "C85_erosion_partial",
    "C85_erosion_refuted",
    "C85_slip_refuted",
    "C85_sphere_normal",
    "C85_small_sphere_refuted"
   ],
   "note": "Proved in exact real arithmetic for any level set; slip, separate and no-gain need unit normals. False in general: the erosion is compared with the depth in material space (C85_erosion_refuted), a plane's normal is not normalised (C85_slip_refuted), the normal of a sphere vanishes within 3e-4 of its center so small spheres do nothing (C85_small_sphere_refuted)."
  },
  {
   "property": "C86",
   "status": "partial",
   "theorems": [
    "C86_blocks",
    "C86_child_masks",
    "C86_data",
    "C86_reads",
    "C86_level",
    "C86_oblivious",
    "C86_background_refuted",
    "C86_active_hidden_refuted",
    "C86_twice_refuted",
    "C86_unsorted_refuted"
   ],
   "note": "Blocks, child masks, data, reads, levels proved for every grid whose arrays have the size of its tables. Refuted: added blocks read 0 instead of the background, hide active coarser tiles, a second complementTopo throws when a level-0 mask vector had spare capacity (Vector::reorder sets size to capacity), SortGridData=false misattributes values."
  },
  {
   "property": "C87",
   "status": "partial",
   "theorems": [
    "C87_grid_offsets",
    "C87_grid_storage_refuted",
    "C87_plane_undefined_refuted",
    "C87_plane_check_partial",
    "C87_plane_samples_partial",
    "C87_plane_finishes_partial",
    "C87_plane_box_refuted",
    "C87_periodic_candidate",
    "C87_periodic_partial",
    "C87_periodic_refuted",
    "C87_space",
    "C87_space_workers",
    "C87_space_apart",
    "C87_space_no_worker_refuted"
   ],
   "note": "Refuted as stated: DenseGrid allocates the product of its weights (one row in the plane), so every planar call is undefined (it prints grid(2,3), outside of the storage); samples may lie up to a cell beyond the upper corner; periodic separation fails unless the sides are whole numbers of cells; no samples in space if hardware_concurrency() is 0. Proved for any storage: separation, feasibility, reach, containment up to one cell, termination (with enough storage), periodic separation for sides of n,m>=3 whole cells, exact result in space for any positive number of workers. Exact real arithmetic; reading of the reference file and setDistanceByPpc are not modelled."
  },
  {
   "property": "C88",
   "status": "partial",
   "theorems": [
    "C88_potential",
    "C88_stiffness",
    "C88_stiffness_sliding_refuted",
    "C88_closest_edge",
    "C88_closest_triangle",
    "C88_closest_edges",
    "C88_basis_points",
    "C88_basis_edge",
    "C88_basis_triangle",
    "C88_basis_edges",
    "C88_points",
    "C88_point_edge",
    "C88_point_triangle",
    "C88_edge_edge",
    "C88_relative_motion",
    "C88_momentum"
   ],
   "note": "All parts proved, in exact real arithmetic, except that f2_SF_term is the derivative of f1 only below the threshold; the comment in the code claims it beyond as well, which is refuted (derivative -1/y^2)."
  },
  {
   "property": "C89",
   "status": "proved",
   "theorems": [
    "C89_angle",
    "C89_exchange",
    "C89_mirror",
    "C89_gradient",
    "C89_hessian",
    "C89_hessian_symmetric"
   ],
   "note": "Exact real arithmetic; degenerate triangles (division by zero) excluded; the branch parameter described in the header comment does not exist in the code."
  },
  {
   "property": "C90",
   "status": "proved",
   "theorems": [
    "C90_point_edge_plane",
    "C90_point_edge",
    "C90_edge_edge",
    "C90_point_triangle",
    "C90_cross_norm",
    "C90_mollifier_values",
    "C90_mollifier_threshold",
    "C90_mollifier_gradient",
    "C90_mollifier_hessian",
    "C90_mollifier_kink"
   ],
   "note": "Exact real arithmetic; degenerate edges, parallel edges and flat triangles (division by zero) excluded; g_EECN2 is not constexpr/noexcept in the code; the generated programs are transcribed statement by statement."
  },
  {
   "property": "C91",
   "status": "proved",
   "theorems": [
    "C91_point_point",
    "C91_point_edge",
    "C91_edge_edge",
    "C91_point_triangle",
    "C91_parallel_point_point",
    "C91_parallel_point_edge",
    "C91_parallel_edge_edge"
   ],
   "note": "Exact real arithmetic; statement-by-statement transcription of the generated code; distances as in dist_pp, dist_pe_unclassified, dist_ee_unclassified, dist_pt_unclassified."
  },
  {
   "property": "C92",
   "status": "partial",
   "theorems": [
    "C92_ranges_partial",
    "C92_chunks_partial",
    "C92_chunks_sequential_refuted",
    "C92_strided",
    "C92_strided_last_refuted",
    "C92_strided_parallel_refuted",
    "C92_descending_refuted",
    "C92_large_unsigned_refuted",
    "C92_wrong_way"
   ],
   "note": "Proved for ascending integer intervals and arrays combined by zip and enumerate to any depth, and for chunks visited in parallel; sequential strided loops characterised. Refuted: chunk iterators always compare equal, so a sequential loop over chunks visits nothing; an increment that does not divide the length drops the last number; in parallel the distance is not divided by the increment, so numbers past the end are visited; descending ranges are empty in parallel; range(n) for unsigned n at or above half the modulus."
  },
  {
   "property": "C93",
   "status": "partial",
   "theorems": [
    "C93_period",
    "C93_equidistributed",
    "C93_calls",
    "C93_seed_refuted"
   ],
   "note": "Period, equidistribution and streams proved in full. The seed claim is refuted: the loop over __TIME__ includes the terminating zero, nine bytes in a 64-bit word, so the tens digit of the hours is shifted out and times ten hours apart give the same seed (exact characterisation proved)."
  },
  {
   "property": "C94",
   "status": "partial",
   "theorems": [
    "C94_densities",
    "C94_poisson_partial",
    "C94_poisson_one_refuted",
    "C94_poisson_fraction_refuted",
    "C94_normal_range",
    "C94_normal_refuted",
    "C94_anti_normal"
   ],
   "note": "Exact real arithmetic. Proved for whole lambda and uniform numbers below 1. Refuted: rand() = RAND_MAX never returns; PDF(lambda, x) resolves to the overload with int lambda, so for a lambda that is not whole the terms use the truncated value and the loop does not end for uniform numbers above a bound (exp(-lambda) if lambda < 1); rand_normal only sums densities at 1, 2, ..., so it never returns 0 or less and does not end for mean <= 0, deviation 1 and uniform numbers from 3/4 on; rand_anti_normal returns only 1 or 2 for deviations from 1."
  },
  {
   "property": "C95",
   "status": "proved",
   "theorems": [
    "C95_bijection",
    "C95_order",
    "C95_fewer",
    "C95_block",
    "C95_packs",
    "C95_ranges"
   ],
   "note": "C95_bijection, C95_order (the offset is the rank of the index in the lexicographic order of the arranged coordinates), C95_fewer, C95_block, C95_packs, C95_ranges. The index type is unbounded: wrap-around of a narrow index type is outside the model."
  },
  {
   "property": "C96",
   "status": "partial",
   "theorems": [
    "C96_gcd_partial",
    "C96_gcd_refuted",
    "C96_lcm_partial",
    "C96_lcm_refuted",
    "C96_pow_partial",
    "C96_pow_signed",
    "C96_pow_unsigned",
    "C96_pow_refuted",
    "C96_clamp",
    "C96_minmax",
    "C96_abs",
    "C96_result",
    "C96_result_holds_partial",
    "C96_result_refuted"
   ],
   "note": "Proved: C96_gcd_partial (greatest common divisor for all values but the lowest against -1), C96_lcm_partial (no intermediate overflow), C96_pow_partial, C96_pow_signed, C96_pow_unsigned, C96_clamp, C96_minmax, C96_abs, C96_result, C96_result_holds_partial (exactly when the result type holds all arguments). Refuted: gcd is undefined for the lowest value and -1 and may be negative; lcm(0,0) divides by zero; negative exponents give 0 and the largest exponent the largest value whatever the base; (signed 8 bit, unsigned 64 bit) gives signed 8 bit. Integer promotion is not modelled."
  },
  {
   "property": "C97",
   "status": "partial",
   "theorems": [
    "C97_mutex",
    "C97_notified_partial",
    "C97_notify_one",
    "C97_no_spurious",
    "C97_defined_partial",
    "C97_notify_all_refuted",
    "C97_two_waiters_refuted",
    "C97_timeout_refuted"
   ],
   "note": "Proved: C97_mutex (all numbers of waiters), and for one waiting thread with any number of notifiers: C97_notified_partial (when a notification returns the queued thread is signalled or another notify_all is about to walk the queue), C97_notify_one (no lost notification), C97_no_spurious, C97_defined_partial (nothing undefined with notify_one only, or with at most one wait). Refuted: a second wait woken by notify_all reads a freed node; with two waiting threads notify_one frees the node of the thread it does not wake; a wait_for that times out reads its deleted node. The mutex is an ideal lock and the wait queue is not shared with other addresses."
  },
  {
   "property": "C98",
   "status": "partial",
   "theorems": [
    "C98_exact",
    "C98_min_partial",
    "C98_max_partial",
    "C98_packs",
    "C98_boolean",
    "C98_plus_times_partial",
    "C98_plus_times_refuted",
    "C98_associative_refuted",
    "C98_overflow_refuted",
    "C98_distributive_refuted",
    "C98_boolean_refuted",
    "C98_sums",
    "C98_and"
   ],
   "note": "min_plus, max_plus, min_times, max_times agree with exact semirings (whose laws are proved, products on non-negative numbers) while the exact result is representable and differs from the sentinel; packs of any size. Refuted: associativity of min_plus when a finite sum reaches the sentinel, overflow, distributivity with negative factors, plus_times over 64 bit integers (value_type is int), neutrality of 0 for boolean over int. Missing: promotion of narrow types, mixed argument types, custom monoids, floating point domains (plus_times over them is in C41)"
  },
  {
   "property": "C99",
   "status": "partial",
   "theorems": [
    "C99_normals",
    "C99_length",
    "C99_flat",
    "C99_given",
    "C99_part_partial",
    "C99_offset_refuted",
    "C99_isolated_refuted"
   ],
   "note": "Exact real arithmetic, all schedules of the atomic additions (and of the stores for given normals). Refuted: a part not starting at node 0 (nodeOffset is never used, the additions go outside the array), isolated nodes (0/0). Missing: rounding, the data race of the equal stores, outputs of another size than the nodes"
  },
  {
   "property": "C100",
   "status": "partial",
   "theorems": [
    "C100_weights",
    "C100_weights_first",
    "C100_weights_all",
    "C100_weights_refuted",
    "C100_box",
    "C100_ball",
    "C100_rotation",
    "C100_rotation_all"
   ],
   "note": "Exact reals; streams of [0,1) arbitrary. Weights convex, first accepted attempt, loop ends exactly if some attempt is accepted, every weight vector below one reachable; boxes, balls (also negative radius), plane rotations. Refuted: unconditional termination. Missing: that the results are uniformly distributed, 3D rotations (quaternion2matrix itself: C61), integers, seeding, rounding"
  },
  {
   "property": "C101",
   "status": "proved",
   "theorems": [
    "C101_literal",
    "C101_separators",
    "C101_octal_refuted"
   ],
   "note": "Exact characterisation of the literals that compile and of their value. Refuted beside it: agreement with C++ numerals with a leading zero (010_th is 10)"
  },
  {
   "property": "C102",
   "status": "partial",
   "theorems": [
    "C102_scan",
    "C102_parts",
    "C102_monoids",
    "C102_shuffle"
   ],
   "note": "Scans of the four kinds and reduce for every lawful monoid, predefined monoids of unsigned sums and products and of extrema shown lawful; shuffles. Missing: signed sums and products (C98_sums gives the packs), logical and custom monoids, conversions between value types, compwise, map, concat and transform (direct pack expansions)"
  },
  {
   "property": "C103",
   "status": "partial",
   "theorems": [
    "C103_read",
    "C103_read_vector",
    "C103_write",
    "C103_write_vector_partial",
    "C103_write_vector_refuted",
    "C103_iterate",
    "C103_compwise",
    "C103_mismatch",
    "C103_unary",
    "C103_fill",
    "C103_identity_partial",
    "C103_identity_channels",
    "C103_identity_refuted",
    "C103_extent_refuted",
    "C103_copy_partial",
    "C103_copy_refuted"
   ],
   "note": "Single reads and writes, vector reads, iteration, component-wise operators and fills for all views and orders; vector writes and IdentitySystem except over channels of scalars, where both are refuted: set(i, vec) writes element i*dim+d of the first channel when dim is not the deduced one, IdentitySystem copies size() of the size()*dim values. The solvers' copies over range(numEntries()) are complete into scalars and run out of bounds into structures of vectors. Missing: index and channel wrap-around, floating-point rounding of the operations (any op is allowed), the vec conversions between value types"
  },
  {
   "property": "C104",
   "status": "proved",
   "theorems": [
    "C104_dispatch",
    "C104_silent"
   ],
   "note": "Alternatives numbered, CheckCallable an arbitrary predicate of the combination; std::visit-based match() is the standard library's"
  },
  {
   "property": "C105",
   "status": "partial",
   "theorems": [
    "C105_refit_partial",
    "C105_marks",
    "C105_refit_refuted",
    "C105_extend",
    "C105_room"
   ],
   "note": "Refit with any active value, the marks, extension by n layers and the reserve bound are proved for every order of the loops. A level set without any active value is refuted: reset(false) keeps the counter and only index 0 would set it, so numBlocks() still reports the old blocks although the table is empty. Missing: staggered grids and dimensions other than 3, the sdf-driven overload of extend_level_set_domain, failing table insertions, rounding of background + threshold, negative nlayers (the loop while (nlayers--) does not end)"
  },
  {
   "property": "C106",
   "status": "proved",
   "theorems": [
    "C106_domain",
    "C106_room",
    "C106_returns",
    "C106_endless"
   ],
   "note": "The domain of extend_level_set_domain(pol, ls, sdfLsv): set of blocks, numbering, reserve, and return exactly for finite reach, for every order of the visits. The averaged properties and marks of the new blocks are not modelled (racy by construction); the sign function is arbitrary and the table never fails"
  },
  {
   "property": "C107",
   "status": "proved",
   "theorems": [
    "C107_distinct",
    "C107_subscript",
    "C107_val",
    "C107_slice",
    "C107_window",
    "C107_root",
    "C107_fewer"
   ],
   "note": "Access by call, subscripts and val of tensor_impl and tensor_view for every dimension, extents, padding, storage order and window. Not modelled: index overflow, whole-tensor arithmetic, variant_vec"
  },
  {
   "property": "C108",
   "status": "partial",
   "theorems": [
    "C108_read",
    "C108_cell",
    "C108_face_read",
    "C108_affine",
    "C108_face_affine",
    "C108_range",
    "C108_four",
    "C108_component_partial",
    "C108_component_refuted"
   ],
   "note": "Reading, affine fields, range and the four-point ipack: any dimension. C108_component_partial: isample by property agrees with ipack when the offset of the property is a multiple of the dimension; refuted otherwise (C108_component_refuted), as isample takes the orientation from the absolute channel, e.g. a velocity behind a one-channel sdf. Missing: world transform, rounding, unnamed-channel ipack, absent properties"
  },
  {
   "property": "C109",
   "status": "partial",
   "theorems": [
    "C109_roundtrip",
    "C109_translate",
    "C109_rotate",
    "C109_scale",
    "C109_scale_uniform",
    "C109_size_partial",
    "C109_matrix",
    "C109_reset",
    "C109_reset_partial",
    "C109_velocity",
    "C109_velocity_partial",
    "C109_reset_refuted",
    "C109_size_refuted",
    "C109_skew_refuted",
    "C109_velocity_refuted"
   ],
   "note": "Proved for all sequences of legitimate motions: round trips, effects of translate/rotate/scale, the returned matrix, velocities since construction, the cell size under uniform scalings since construction. False of the code: resetTransformation stores the transpose of the rotation (decompose_transform with output arguments does not transpose the factors back), so a rotation that is not its own inverse is set the other way round (C109_reset_refuted; C109_reset_partial says exactly when it is kept); resetTransformation leaves dx unchanged (C109_size_refuted); after it, non-uniform scalings turn velocities wrongly (C109_velocity_refuted; uniform ones in C109_velocity_partial); rotate with a matrix that is not orthogonal breaks the round trip (C109_skew_refuted). polar_decomposition is an argument constrained by hypotheses; rounding is not modelled."
  },
  {
   "property": "C110",
   "status": "partial",
   "theorems": [
    "C110_box",
    "C110_box_tight",
    "C110_cell",
    "C110_face",
    "C110_back",
    "C110_face_back",
    "C110_face_position",
    "C110_staggered_refuted"
   ],
   "note": "Everything stated is proved except for staggered level sets without an orientation: indexToCell then returns another cell for face positions (C110_staggered_refuted). The box is smallest when positions lie between the sentinels (largest and lowest number). Exact arithmetic; worldToCell is indexToCell of the position mapped as in C109."
  },
  {
   "property": "C111",
   "status": "partial",
   "theorems": [
    "C111_roundtrip",
    "C111_translate",
    "C111_rotate",
    "C111_scale",
    "C111_origin",
    "C111_voxel",
    "C111_turn_partial",
    "C111_level_set",
    "C111_level_set_refuted",
    "C111_turn_refuted",
    "C111_projective_refuted"
   ],
   "note": "Round trips, translate, the effect of rotate and scale on indices, the fixed index origin and voxelSize are proved for all sequences of motions. False of the code: rotate multiplies from the left, so once voxel sizes differ by direction it does not turn the grid in the world (C111_turn_refuted; C111_turn_partial for uniform voxels); rotate transposes its argument, unlike SparseLevelSet::rotate, so the same motions turn level set and grid in opposite directions (C111_level_set states the exact relation, C111_level_set_refuted); invertible matrices with a projective part are not undone (C111_projective_refuted). Exact arithmetic."
  },
  {
   "property": "C112",
   "status": "partial",
   "theorems": [
    "C112_resize",
    "C112_resize_insert",
    "C112_preserve_partial",
    "C112_preserve_same",
    "C112_preserve_refuted"
   ],
   "note": "resize is proved in full (queries with the proviso of C31 on slot size - 127). preserve is proved when the table grows or the number is unchanged; when it does not grow, RemoveHashTableEntries cuts probe sequences, so with colliding keys a later key is not found and index -1 is written (C112_preserve_refuted). Reinsertion in range order, one at a time."
  },
  {
   "property": "C113",
   "status": "proved",
   "theorems": [
    "C113_size",
    "C113_offset",
    "C113_bijection",
    "C113_prefix",
    "C113_write",
    "C113_reshape",
    "C113_unchecked_refuted"
   ],
   "note": "All parts for host fields; sizes do not wrap. C113_unchecked_refuted records that invalid indices are not detected (without the optional access check they reach other elements), which the claim excludes."
  },
  {
   "property": "C114",
   "status": "partial",
   "theorems": [
    "C114_ownership",
    "C114_values",
    "C114_copy",
    "C114_no_leak",
    "C114_empty_refuted"
   ],
   "note": "All but the last clause is proved, for std::default_delete and a T whose copy is equal to the original. The last clause is false (C114_empty_refuted): copy construction and copy assignment (Pointers.hpp:38-44) evaluate *o without a test, which dereferences null when o is empty, for instance after it was moved from. Not modelled: other deleters, copies from and moves of a unique_ptr, conversions, release."
  },
  {
   "property": "C115",
   "status": "partial",
   "theorems": [
    "C115_order",
    "C115_wakeup",
    "C115_progress",
    "C115_destroyed_partial",
    "C115_flush_partial",
    "C115_joins_partial",
    "C115_flush_refuted",
    "C115_join_refuted",
    "C115_deadlock_refuted",
    "C115_late_refuted",
    "C115_race_refuted"
   ],
   "note": "Order, exactly once, no lost wake-up and progress are proved in full (C115_order, C115_wakeup, C115_progress). flush only waits until the queue is empty: the job taken last may still be running when it returns (C115_flush_partial, C115_flush_refuted). The destructor stores false in bRunning without notifying (IO.h:31), so with an idle worker it hangs in join unless the condition variable wakes up spuriously (C115_join_refuted, C115_deadlock_refuted); it ends if the worker is awake and has not yet decided to sleep (C115_joins_partial), and then every job has been run unless a job inserted another meanwhile (C115_destroyed_partial, C115_late_refuted). bRunning is read and written without synchronisation (C115_race_refuted). Simplified: one thread calls flush, sequentially consistent accesses, jobs do not throw."
  }
 ]
}