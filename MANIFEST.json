{
 "claims": [
  {
   "property": "C01",
   "status": "proved",
   "theorems": [
    "C01_every_history_is_one_of_abstract_maps",
    "C01_operations_return_or_propagate_exceptions"
   ],
   "note": "programs over any number of containers, every operation with exceptions; history refines an abstract-map specification; no operation is undefined"
  },
  {
   "property": "C02",
   "status": "proved",
   "theorems": [
    "C02_size_is_the_number_of_elements"
   ],
   "note": ""
  },
  {
   "property": "C03",
   "status": "proved",
   "theorems": [
    "C03_iteration_visits_every_element_exactly_once"
   ],
   "note": "both iterator increments (regular and interleaved), via cfg field `regular`"
  },
  {
   "property": "C04",
   "status": "proved",
   "theorems": [
    "C04_erase_iterator",
    "C04_erase_range",
    "C04_erase_while_iterating",
    "C04_erase_if"
   ],
   "note": "erase(iterator), erase(first,last), erase loop, erase_if with stateful throwing predicate"
  },
  {
   "property": "C05",
   "status": "proved",
   "theorems": [
    "C05_probing_visits_every_group_exactly_once"
   ],
   "note": "probe loop; termination of find/insert also follows from the table-level theorems"
  },
  {
   "property": "C06",
   "status": "proved",
   "theorems": [
    "C06_size_max_load_bucket_count"
   ],
   "note": ""
  },
  {
   "property": "C07",
   "status": "proved",
   "theorems": [
    "C07_insertion_below_max_load_moves_nothing",
    "C07_erasure_moves_nothing",
    "C07_lookup_changes_nothing"
   ],
   "note": "insertion, erasure by key, lookups; erasure by iterator in C04"
  },
  {
   "property": "C08",
   "status": "proved",
   "theorems": [
    "C08_rehash",
    "C08_rehash_gives_the_smallest_capacity"
   ],
   "note": ""
  },
  {
   "property": "C09",
   "status": "proved",
   "theorems": [
    "C09_reserve_arithmetic",
    "C09_reserve_without_erasures",
    "C09_reserve_after_erasures_refuted"
   ],
   "note": "guarantee without erasures, plus arithmetic; refuted after erasures (anti-drift lowers max_load, reserve is a no-op)"
  },
  {
   "property": "C10",
   "status": "proved",
   "theorems": [
    "C10_max_load_of_fresh_array",
    "C10_documented_inequality_refuted"
   ],
   "note": "exact values for every capacity; literal documentation inequality refuted"
  },
  {
   "property": "C11",
   "status": "proved",
   "theorems": [
    "C11_copy_construct",
    "C11_copy_assign",
    "C11_move_construct",
    "C11_move_construct_with_allocator",
    "C11_move_assign",
    "C11_swap"
   ],
   "note": "all allocator traits"
  },
  {
   "property": "C12",
   "status": "proved",
   "theorems": [
    "C12_equality",
    "C12_equality_symmetric"
   ],
   "note": "predicates of both containers extensionally equal"
  },
  {
   "property": "C13",
   "status": "proved",
   "theorems": [
    "C13_merge"
   ],
   "note": "exception case: exactly one element lost (copying) per the code's erase_on_exit"
  },
  {
   "property": "C14",
   "status": "proved",
   "theorems": [
    "C14_no_double_construction_or_destruction_and_no_leak"
   ],
   "note": "Undefined behaviour encodes double construction/destruction, raw reads, releasing arrays that still hold objects; blocks of memory are accounted for in C54."
  },
  {
   "property": "C15",
   "status": "proved",
   "theorems": [
    "C15_strong_guarantee_of_insertion"
   ],
   "note": ""
  },
  {
   "property": "C16",
   "status": "proved",
   "theorems": [
    "C16_rehash_exceptions",
    "C16_growing_insertion_exceptions"
   ],
   "note": ""
  },
  {
   "property": "C17",
   "status": "proved",
   "theorems": [
    "C17_layouts_agree",
    "C17_control_values",
    "C17_mask_loop"
   ],
   "note": "SSE2, Neon and interleaved layouts against a layout-free specification"
  },
  {
   "property": "C18",
   "status": "proved",
   "theorems": [
    "C18_position_in_range",
    "C18_groups_for",
    "C18_mulx_portable_agrees",
    "C18_mulx32_branches_agree"
   ],
   "note": ""
  },
  {
   "property": "C19",
   "status": "proved",
   "theorems": [
    "C19_every_history_is_one_of_the_specification",
    "C19_operations_return_or_propagate_exceptions",
    "C19_every_node_has_one_owner",
    "C19_no_node_is_lost_or_duplicated",
    "C19_handles_destroy_their_node",
    "C19_extract_by_key",
    "C19_extract_by_position",
    "C19_insert_node_handle",
    "C19_insert_node_handle_with_hint",
    "C19_move_assign_and_swap_handles",
    "C19_closed_addressing_history",
    "C19_closed_addressing_nodes_are_conserved",
    "C19_closed_addressing_insert_node_handle"
   ],
   "note": "unordered_node_map/set (open addressing, FoaNodeModel) and the four closed-addressing containers: histories of containers and handles against separate specifications, extract, insert with and without hint, handle construction, assignment (also to itself), swap, destruction; distinct addresses, allocator of every node, conservation, exceptions at any point. Open-addressing programs with handles exclude copying containers, insert_or_assign and moves between unequal allocators (nodes are then created by copying; C01, C11 and C14 cover the contents)."
  },
  {
   "property": "C20",
   "status": "proved",
   "theorems": [
    "C20_save",
    "C20_load",
    "C20_tracked_positions",
    "C20_round_trip",
    "C20_concurrent_save",
    "C20_concurrent_load",
    "C20_concurrent_and_plain_agree",
    "C20_concurrent_round_trip",
    "C20_load_any_count_refuted",
    "C20_closed_addressing_save",
    "C20_closed_addressing_load",
    "C20_equivalent_keys_are_never_rejected",
    "C20_closed_addressing_tracked_positions",
    "C20_closed_addressing_round_trip"
   ],
   "note": "open-addressing, closed-addressing and concurrent containers; any archive (also with repeated keys or truncated), any previous contents, exceptions at any point; round trip and tracked iterator positions. Counts for which reserve would be undefined are excluded (refutation given). Encoding, class versions and tracking tables of the archive library are not modelled."
  },
  {
   "property": "C21",
   "status": "proved",
   "theorems": [
    "C21_position_is_true_remainder",
    "C21_portable_agrees",
    "C21_position_in_range"
   ],
   "note": ""
  },
  {
   "property": "C22",
   "status": "proved",
   "theorems": [
    "C22_every_history_is_one_of_the_specification",
    "C22_operations_return_or_propagate_exceptions",
    "C22_keys_are_unique_and_size_is_exact",
    "C22_one_operation",
    "C22_no_node_is_leaked_or_shared"
   ],
   "note": "programs over any number of containers and node handles, all operations, exceptions, allocator traits; no leak, no undefined behaviour except the refuted case of C30"
  },
  {
   "property": "C23",
   "status": "proved",
   "theorems": [
    "C23_equivalent_elements_are_adjacent",
    "C23_equal_range_and_count",
    "C23_hint_is_honoured"
   ],
   "note": ""
  },
  {
   "property": "C24",
   "status": "proved",
   "theorems": [
    "C24_iteration_visits_every_element_exactly_once"
   ],
   "note": ""
  },
  {
   "property": "C25",
   "status": "proved",
   "theorems": [
    "C25_load_after_insertion_exceeds_the_maximum_by_at_most_rounding",
    "C25_load_after_rehash_and_reserve_exceeds_the_maximum_by_at_most_rounding",
    "C25_default_load_factor",
    "C25_load_factor_bound_refuted",
    "C25_load_after_range_insertion_exceeds_the_maximum_by_at_most_rounding",
    "C25_load_after_list_assignment_exceeds_the_maximum_by_at_most_rounding",
    "C25_default_load_factor_after_range_insertion"
   ],
   "note": "bound up to relative 2^-23; exact bound for the default maximum below 2^23 elements; exact bound in general refuted. Range insertion and assignment of initializer lists are covered for all containers (Properties_FcaLoad.v)"
  },
  {
   "property": "C26",
   "status": "proved",
   "theorems": [
    "C26_rehash_keeps_nodes",
    "C26_rehash_reaches_every_request_refuted",
    "C26_no_rehash_below_the_maximum_load",
    "C26_reserve_prevents_rehashing",
    "C26_insertions_never_shrink"
   ],
   "note": "requests above the largest prime refuted; after reserve(n), for every max_load_factor, insertions up to size n keep buckets and iterators; insertions never shrink"
  },
  {
   "property": "C27",
   "status": "proved",
   "theorems": [
    "C27_erasure_removes_exactly_the_designated_elements",
    "C27_extraction"
   ],
   "note": "including extraction"
  },
  {
   "property": "C28",
   "status": "proved",
   "theorems": [
    "C28_equality_is_permutation_equality"
   ],
   "note": ""
  },
  {
   "property": "C29",
   "status": "proved",
   "theorems": [
    "C29_failed_insertion",
    "C29_failed_rehash"
   ],
   "note": ""
  },
  {
   "property": "C30",
   "status": "partial",
   "theorems": [
    "C30_threshold_matches_the_buckets_partial",
    "C30_threshold_after_every_assignment_refuted",
    "C30_insertion_after_every_assignment_is_defined_refuted"
   ],
   "note": "holds for programs in which no copy assignment replaces the allocator by an unequal one; refuted otherwise (stale threshold, undefined behaviour from an empty source)"
  },
  {
   "property": "C31",
   "status": "proved",
   "theorems": [
    "C31_bucket_is_in_range",
    "C31_local_iteration"
   ],
   "note": ""
  },
  {
   "property": "C32",
   "status": "proved",
   "theorems": [
    "C32_mutual_exclusion",
    "C32_state_encodes_owners"
   ],
   "note": "any number of threads, every interleaving of atomic accesses (sequentially consistent on the single state word); weak CAS may fail spuriously"
  },
  {
   "property": "C33",
   "status": "proved",
   "theorems": [
    "C33_lock_alone_succeeds",
    "C33_lock_shared_alone_succeeds",
    "C33_pending_mark_has_a_writer",
    "C33_pending_writer_not_starved",
    "C33_someone_gets_in"
   ],
   "note": "solo progress within 3 own steps, pending mark always has a writer, no new readers while pending, somebody gets in"
  },
  {
   "property": "C34",
   "status": "proved",
   "theorems": [
    "C34_whole_container_operations_run_alone",
    "C34_exclusive_group_access",
    "C34_no_deadlock"
   ],
   "note": "composition of the rw_spinlock atomic-access model with the lock plans of the operations; user functions do not themselves lock containers"
  },
  {
   "property": "C35",
   "status": "proved",
   "theorems": [
    "C35_no_equivalent_elements"
   ],
   "note": "Assumes fewer than 2^32 insertions into one probe group during one attempt (counters_fit); sequentially consistent interleaving, abstract locks (C32-C34), byte-per-slot metadata. Necessity of the bound: C43."
  },
  {
   "property": "C36",
   "status": "proved",
   "theorems": [
    "C36_linearizable",
    "C36_instants",
    "C36_other_steps_change_nothing",
    "C36_stored_keys_were_inserted"
   ],
   "note": "Assumes fewer than 2^32 insertions into one probe group during one attempt (counters_fit); sequentially consistent interleaving, abstract locks (C32-C34), byte-per-slot metadata. Traversals take effect element by element; size() is exact up to other calls in progress. Parallel-policy overloads and bulk visit (C40) are not part of this model."
  },
  {
   "property": "C37",
   "status": "proved",
   "theorems": [
    "C37_counters",
    "C37_exact_when_idle",
    "C37_size_of_a_call",
    "C37_growth_makes_room",
    "C37_size_is_at_most_max_load"
   ],
   "note": "Assumes fewer than 2^32 insertions into one probe group during one attempt (counters_fit); sequentially consistent interleaving, abstract locks (C32-C34), byte-per-slot metadata. "
  },
  {
   "property": "C38",
   "status": "proved",
   "theorems": [
    "C38_present_is_found",
    "C38_calls_of_the_function",
    "C38_exclusive_access",
    "C38_changes_are_exclusive"
   ],
   "note": "Assumes fewer than 2^32 insertions into one probe group during one attempt (counters_fit); sequentially consistent interleaving, abstract locks (C32-C34), byte-per-slot metadata. "
  },
  {
   "property": "C39",
   "status": "proved",
   "theorems": [
    "C39_present_elements_are_visited_once"
   ],
   "note": "Assumes fewer than 2^32 insertions into one probe group during one attempt (counters_fit); sequentially consistent interleaving, abstract locks (C32-C34), byte-per-slot metadata. "
  },
  {
   "property": "C40",
   "status": "proved",
   "theorems": [
    "C40_is_a_run",
    "C40_keys_are_looked_up_atomically",
    "C40_every_key_once",
    "C40_like_single_visits",
    "C40_one_lock",
    "C40_no_deadlock",
    "C40_chunk_fits"
   ],
   "note": "visit(first,last,f), bulk_visit_impl and unprotected_bulk_visit. The per-key local variables are the positions of reserved threads of the concurrent machine, so every theorem of C35-C39 and C49 holds of executions with bulk calls; results, count, equality with single visits in order, chunk bounds, one group lock at a time, no deadlock. Same assumptions as C36; parallel-policy overloads do not exist for this function."
  },
  {
   "property": "C41",
   "status": "proved",
   "theorems": [
    "C41_to_concurrent",
    "C41_to_plain",
    "C41_round_trip"
   ],
   "note": "Ordinary pointers; the moved-from hash and predicate objects keep their value; one allocation stands for locks and counters. The converted containers stay in the executions of the concurrent model, so C35-C39, C49, C50 apply to them."
  },
  {
   "property": "C42",
   "status": "proved",
   "theorems": [
    "C42_whole_container_operations",
    "C42_inserted_once"
   ],
   "note": "Assumes fewer than 2^32 insertions into one probe group during one attempt (counters_fit); sequentially consistent interleaving, abstract locks (C32-C34), byte-per-slot metadata. Operations on whole containers run in one step when no other thread is inside (C34); merge between containers with different hash types is not modelled."
  },
  {
   "property": "C43",
   "status": "proved",
   "theorems": [
    "C43_counter_wrap_breaks_uniqueness",
    "C43_wrap_passes_the_check"
   ],
   "note": "refutation: a run of two threads with exactly 2^32 intervening insertions stores two equivalent elements and is not linearizable"
  },
  {
   "property": "C44",
   "status": "proved",
   "theorems": [
    "C44_statistics_are_exact",
    "C44_counting_restarts_cleanly",
    "C44_empty_statistics"
   ],
   "note": "doubles replaced by exact rationals"
  },
  {
   "property": "C45",
   "status": "proved",
   "theorems": [
    "C45_fca_range",
    "C45_fca_assign_list",
    "C45_fca_range_is_one_by_one",
    "C45_fca_hint_does_not_matter",
    "C45_insert_range",
    "C45_assign_list",
    "C45_hint_is_irrelevant"
   ],
   "note": "open addressing (Properties_Foa.v) and closed addressing (Properties_FcaRange.v; also equivalent keys, where all elements of a range are inserted)"
  },
  {
   "property": "C46",
   "status": "proved",
   "theorems": [
    "C46_buffer_is_large_enough",
    "C46_buffer_wraps_refuted"
   ],
   "note": "fits => exact; wrap-around for huge requests refuted"
  },
  {
   "property": "C47",
   "status": "proved",
   "theorems": [
    "C47_failed_move_assignment_keeps_source_usable_refuted"
   ],
   "note": "refutation: failed move assignment leaves the source with the target's hash function"
  },
  {
   "property": "C48",
   "status": "proved",
   "theorems": [
    "C48_self_merge_never_ends"
   ],
   "note": "refutation: the loop never ends"
  },
  {
   "property": "C49",
   "status": "proved",
   "theorems": [
    "C49_steps_are_defined",
    "C49_growth_is_defined",
    "C49_whole_operations_are_defined"
   ],
   "note": "Assumes fewer than 2^32 insertions into one probe group during one attempt (counters_fit); sequentially consistent interleaving, abstract locks (C32-C34), byte-per-slot metadata. "
  },
  {
   "property": "C50",
   "status": "proved",
   "theorems": [
    "C50_no_deadlock",
    "C50_whole_operations_proceed"
   ],
   "note": "Assumes fewer than 2^32 insertions into one probe group during one attempt (counters_fit); sequentially consistent interleaving, abstract locks (C32-C34), byte-per-slot metadata. At the level of abstract locks; progress of the locks themselves is C33/C34."
  },
  {
   "property": "C51",
   "status": "proved",
   "theorems": [
    "C51_insertions_can_retry_forever"
   ],
   "note": "refutation: for every r, a run in which two insertions have restarted 2r times and none has completed"
  },
  {
   "property": "C52",
   "status": "proved",
   "theorems": [
    "C52_left_alone_a_call_completes",
    "C52_no_endless_call"
   ],
   "note": "Termination as an inductive predicate over all continuations of the thread; hypothesis counters_fit as for C35-C38 (fewer than 2^32 increments of one insertion counter during one attempt). The user functions are one step each (they return or throw)."
  },
  {
   "property": "C53",
   "status": "proved",
   "theorems": [
    "C53_calls_that_insert_nothing_are_bounded"
   ],
   "note": "Steps are those of the model (one atomic access each); waiting for a lock is not a step."
  },
  {
   "property": "C54",
   "status": "proved",
   "theorems": [
    "C54_blocks_are_those_of_the_containers",
    "C54_every_log_balances",
    "C54_silent_operations"
   ],
   "note": "Blocks are identified by allocator and size (arrays are values in the model, they have no address). Nodes of the node containers are covered by C19/C14."
  },
  {
   "property": "C55",
   "status": "proved",
   "theorems": [
    "C55_linearizable",
    "C55_instants",
    "C55_other_steps_change_nothing",
    "C55_no_equivalent_elements",
    "C55_counters",
    "C55_exclusive_access",
    "C55_steps_are_defined",
    "C55_present_elements_are_visited_once",
    "C55_calls_of_the_function",
    "C55_no_deadlock",
    "C55_a_call_starts"
   ],
   "note": "A job (the lambda for one group) is a traversal made by an otherwise idle thread, limited to its group. A throwing function ends the program (std::terminate), so such steps do not exist in the model. The standard library's parallel algorithm is modelled as: every job is run once, in any interleaving; std::all_of may leave jobs out once one has returned false."
  },
  {
   "property": "C56",
   "status": "proved",
   "theorems": [
    "C56_closed_addressing_pointers_stay_valid",
    "C56_closed_addressing_exceptions",
    "C56_node_containers_pointers_stay_valid",
    "C56_node_containers_exceptions"
   ],
   "note": "The node containers' programs (NodeSpec) have no insert_or_assign, no copies and no unequal allocators; the closed-addressing ones have all of them. Exceptions: both families."
  },
  {
   "property": "C57",
   "status": "proved",
   "theorems": [
    "C57_no_data_race",
    "C57_other_reads_are_current",
    "C57_steps_are_defined",
    "C57_growth_is_defined",
    "C57_whole_operations_are_defined",
    "C57_no_equivalent_elements",
    "C57_size_counter",
    "C57_only_lookups_can_miss",
    "C57_known_keys_are_found",
    "C57_insertions_insert",
    "C57_inserted_keys_are_found",
    "C57_lookups_are_not_sequentially_consistent",
    "C57_sequentially_consistent_executions_are_included"
   ],
   "note": "Model: ConcModel's programs with reads of happens-before consistent values (WeakModel.v). Executions are sequences respecting happens-before and reads-from (no load-buffering cycles); modification order per location is the order of the steps (writes are made under the exclusive lock or by read-modify-writes); accesses to size and max load are exact; insertion counters are only acquire/release (weaker than the code's seq_cst). Hypothesis counters_fit as in C35-C42. The clause 'lookups are linearizable' is refuted (C57_lookups_are_not_sequentially_consistent). Every sequentially consistent continuation (of operations on keys, traversals and growth, once every thread knows of the containers) is an execution of this model: C57_sequentially_consistent_executions_are_included."
  },
  {
   "property": "C58",
   "status": "proved",
   "theorems": [
    "C58_mutual_exclusion",
    "C58_latest_value_encodes_owners",
    "C58_writes_in_order",
    "C58_unlocking_happens_before_locking",
    "C58_critical_sections_are_ordered",
    "C58_happens_before_goes_forward"
   ],
   "note": "Model: RwWeakModel.v (modification order of state_, coherence within a thread, release sequences of C++20, no cycles of sequenced-before and reads-from). Gives the synchronization between unlocking and locking assumed by the model of C57."
  },
  {
   "property": "C59",
   "status": "proved",
   "theorems": [
    "C59_concurrent_function_objects",
    "C59_concurrent_only_keys_are_stored",
    "C59_concurrent_linearizable",
    "C59_concurrent_finds_equal_elements",
    "C59_concurrent_present_is_found",
    "C59_find_returns_a_matching_element",
    "C59_at_count_contains_agree_with_find",
    "C59_erase_removes_one_matching_element",
    "C59_a_value_like_a_key_acts_as_the_key",
    "C59_insertions_act_as_with_the_converted_key",
    "C59_fca_find",
    "C59_fca_at_and_contains",
    "C59_fca_count_and_equal_range",
    "C59_fca_erase",
    "C59_fca_insertion_and_extraction_act_as_with_the_key"
   ],
   "note": "FOA: FoaHet.v; FCA: FcaHet.v; concurrent containers: ConcHet.v (ConcModel run with keys and values to look up as one type; the predicate is completed to an equivalence on pairs that the code never compares). Transparent try_emplace etc. of concurrent containers are not included."
  },
  {
   "property": "C60",
   "status": "proved",
   "theorems": [
    "C60_check_is_exact",
    "C60_no_self_deadlock",
    "C60_reports_exactly_the_self_locking_programs",
    "C60_ordered_nesting_does_not_deadlock",
    "C60_ordered_nesting_is_not_reported",
    "C60_cross_deadlock_is_not_reported",
    "C60_nested_lookups_can_deadlock_and_are_reported"
   ],
   "note": "Container locks as a whole (the multimutex of C34 is one lock here); the handler of a failed assertion throws in the model, if it aborts the events end at that point. Group locks are not containers' locks and are dealt with in C50."
  },
  {
   "property": "C61",
   "status": "proved",
   "theorems": [
    "C61_a_node_is_in_one_place",
    "C61_handles_and_containers_are_disjoint",
    "C61_handles_are_disjoint",
    "C61_nodes_are_conserved",
    "C61_modification_through_a_handle",
    "C61_extract_returns",
    "C61_insert_returns",
    "C61_inserted",
    "C61_extractions_get_different_nodes",
    "C61_is_a_run"
   ],
   "note": "Programs over ConcModel's threads plus node handles. Simplifications: insertions of values are modelled as the construction of a node in a private handle followed by an insertion from it; all containers have equal allocators; copies, initializer lists and range insertions of values are not among the whole-container operations of these programs; inserting an empty handle does not access the container and is not a step. When f1 of insert_and_visit throws the element stays inserted (RThrew: handle empty or unchanged)."
  },
  {
   "property": "C62",
   "status": "proved",
   "theorems": [
    "C62_when_bucket_count_changes",
    "C62_max_load_does_not_grow",
    "C62_no_rehash_while_there_is_room"
   ],
   "note": "Over ConcModel (C35-C39). In C62_no_rehash_while_there_is_room no operation on whole containers takes effect in the execution considered, on any container."
  },
  {
   "property": "C63",
   "status": "proved",
   "theorems": [
    "C63_insertions_below_max_load_move_nothing",
    "C63_growth_is_amortized",
    "C63_growth_without_drift_is_amortized",
    "C63_growth_at_most_doubles",
    "C63_bucket_count_is_proportional_to_peak_size",
    "C63_ranges_are_sequences_of_insertions"
   ],
   "note": "Over FoaModel/FoaWorld. The number of elements moved is defined from size() and max_load() before and after (GrowSpec.moved); C63_insertions_below_max_load_move_nothing shows that nothing moves otherwise. Sequences exclude rehash, reserve and merge of a container with itself; ranges are covered as sequences of insertions. Hash calls and comparisons are not counted."
  },
  {
   "property": "C64",
   "status": "proved",
   "theorems": [
    "C64_blocks_are_those_of_the_containers",
    "C64_every_log_balances",
    "C64_silent_operations"
   ],
   "note": "Blocks are identified by allocator and number of elements (arrays are values in the model, they have no address). The restrictions of FcaWorld.pre apply (containers of fewer than 2^53 elements; a copy assignment that replaces the allocator does not come from an empty container). Nodes are covered by C29 and C19."
  },
  {
   "property": "C65",
   "status": "proved",
   "theorems": [
    "C65_growth_is_amortized",
    "C65_growth_of_containers_of_usual_sizes_is_amortized",
    "C65_no_element_is_moved_without_a_load_limit",
    "C65_elements_stay",
    "C65_growth_multiplies_bucket_count",
    "C65_bucket_count_is_proportional_to_peak_size"
   ],
   "note": "Hypothesis in_program_arena (FcaProps2): the container's maximum load is up to date, i.e. no copy assignment from an empty container that replaces the allocator (C30). Range insertion, rehash, reserve and max_load_factor(z) are not among the operations counted. Elements lost by an interrupted rehash (C29) count as moved."
  },
  {
   "property": "C66",
   "status": "proved",
   "theorems": [
    "C66_these_operations_call_nothing_and_never_throw",
    "C66_calls_in_the_worst_case",
    "C66_inserting_a_present_key_only_looks_it_up",
    "C66_every_concurrent_run_is_counted",
    "C66_concurrent_lookup_hashes_once",
    "C66_concurrent_insertion_hashes_once_per_growth",
    "C66_concurrent_hash_calls_so_far",
    "C66_fca_these_operations_call_nothing_and_never_throw",
    "C66_fca_calls_in_the_worst_case",
    "C66_fca_rehashing_leaves_elements_alone",
    "C66_fca_inserting_a_present_key_only_looks_it_up",
    "C66_fca_node_handles",
    "C66_fca_two_containers_in_the_worst_case",
    "C66_fca_merge_and_comparison_leave_elements_alone"
   ],
   "note": "Number of calls, and kinds of exceptions, per operation. All operations of the sequential models are covered; for single-key operations of concurrent containers, the calls of the hash function with their key (Properties_ConcHash). Copies, moves and swaps of hash functions, predicates and allocators are not events of the model (the C++ code requires or documents them not to throw in the operations listed)."
  },
  {
   "property": "C67",
   "status": "proved",
   "theorems": [
    "C67_elements_stay_unless_the_container_is_full",
    "C67_growth_is_amortized",
    "C67_growth_without_drift_is_amortized",
    "C67_growth_at_most_doubles",
    "C67_bucket_count_is_proportional_to_peak_size"
   ],
   "note": "Over ConcModel (C35-C39; counters_fit). The executions considered contain no operation on whole containers (on any container)."
  },
  {
   "property": "C68",
   "status": "proved",
   "theorems": [
    "C68_pull_returns_the_element_and_erases_it",
    "C68_pull_erases_as_erase_does",
    "C68_pulling_all_elements"
   ],
   "note": "the value moved from is in state Moved until erase_on_exit destroys it; the element returned is compared as a value"
  },
  {
   "property": "C69",
   "status": "proved",
   "theorems": [
    "C69_insertion_uses_its_arguments_iff_it_inserts",
    "C69_present_key_leaves_arguments_alone",
    "C69_emplace_always_uses_its_arguments_once",
    "C69_emplace_of_key_and_value",
    "C69_failed_insertion_keeps_its_argument_refuted",
    "C69_every_concurrent_run_is_counted",
    "C69_concurrent_insertion_uses_its_arguments_iff_it_inserts",
    "C69_concurrent_arguments_at_most_once",
    "C69_concurrent_failed_growth_keeps_arguments",
    "C69_fca_arguments_are_used_iff_the_key_is_absent",
    "C69_fca_a_node_is_always_made_otherwise",
    "C69_fca_insert_or_assign"
   ],
   "note": "flat containers, and insertions into concurrent containers under any interleaving (Properties_ConcArg); that a failed insertion keeps its argument is refuted for the sequential ones (C69_failed_insertion_keeps_its_argument_refuted) and, when growing fails, proved for the concurrent ones; node containers of open addressing, and the temporaries of emplace of concurrent containers: not covered"
  }
 ]
}