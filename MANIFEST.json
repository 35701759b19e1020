{
 "claims": [
  {
   "property": "C01",
   "status": "proved",
   "theorems": [
    "C01_no_reclaim_while_guarded"
   ],
   "note": "Sequentially consistent interleavings; weak memory not modelled."
  },
  {
   "property": "C02",
   "status": "proved",
   "theorems": [
    "C02_each_retirement_popped_once",
    "C02_conservation",
    "C02_four_advances_reclaim_everything"
   ],
   "note": "Conservation, at-most-once and progress (four advances from quiescence)."
  },
  {
   "property": "C03",
   "status": "proved",
   "theorems": [
    "C03_guards_have_distinct_slots",
    "C03_guard_pins_epoch",
    "C03_at_most_capacity_guards",
    "C03_guard_succeeds_when_slot_free",
    "C03_guard_succeeds_at_hint_wrap_refuted"
   ],
   "note": "Also refuted: an undisturbed guard() may report Unavailable with a free slot when the 64-bit hint wraps."
  },
  {
   "property": "C04",
   "status": "proved",
   "theorems": [
    "C04_drain_is_unique",
    "C04_drain_is_undisturbed",
    "C04_drain_len_is_exact",
    "C04_try_advance_does_not_panic"
   ],
   "note": ""
  },
  {
   "property": "C05",
   "status": "proved",
   "theorems": [
    "C05_slices_do_not_change",
    "C05_slices_live_until_drop",
    "C05_reads_return_published"
   ],
   "note": "All interleavings of all clients, over the epoch registry model."
  },
  {
   "property": "C06",
   "status": "proved",
   "theorems": [
    "C06_one_writer",
    "C06_no_read_while_written"
   ],
   "note": "A call of acquire that has claimed its slot counts as holding it."
  },
  {
   "property": "C07",
   "status": "proved",
   "theorems": [
    "C07_no_assertion_fails"
   ],
   "note": "No assertion fails before the registry has used all u64::MAX epochs (the registry then panics by design)."
  },
  {
   "property": "C08",
   "status": "proved",
   "theorems": [
    "C08_frozen_points"
   ],
   "note": "Contents, readability and refusal to be acquired, written or retired, in every reachable state."
  },
  {
   "property": "C09",
   "status": "proved",
   "theorems": [
    "C09_one_retirement_per_publication",
    "C09_retired_is_hidden",
    "C09_retire_fails_at_once"
   ],
   "note": "Stated on the log of completed calls."
  },
  {
   "property": "C10",
   "status": "proved",
   "theorems": [
    "C10_acquire_iff_free",
    "C10_acquire_after_sequential_history",
    "C10_acquire_after_overlapping_calls_refuted"
   ],
   "note": "Proved whenever the recycled entries are available, and for every history of non-overlapping calls; refuted after overlapping calls (stale duplicate recycled entries use up the 20 attempts). Hypotheses: the epoch and the u32 scan counter are not about to overflow."
  },
  {
   "property": "C11",
   "status": "proved",
   "theorems": [
    "C11_lookups_are_inverse",
    "C11_answers_are_right",
    "C11_no_deadlock"
   ],
   "note": "All interleavings of clients, arbitrary sharding of the two concurrent maps."
  },
  {
   "property": "C12",
   "status": "proved",
   "theorems": [
    "C12_ids_name_live_vectors",
    "C12_set_vectors_stay",
    "C12_ids_are_distinct",
    "C12_failed_set_leaves_nothing",
    "C12_delete_removes_both",
    "C12_failed_delete_keeps_both",
    "C12_delete_answers",
    "C12_visible_before_readable_refuted"
   ],
   "note": "All interleavings of set_element, delete and readers over the full Store and IdMap models. The literal claim fails while a set_element is in progress: its mapping is visible before its slot is published (C12_visible_before_readable_refuted); the theorems name that exception exactly."
  },
  {
   "property": "C13",
   "status": "proved",
   "theorems": [
    "C13_answers_are_right",
    "C13_lists_fit",
    "C13_get_completes",
    "C13_append_vector_appends_what_fits",
    "C13_no_deadlock"
   ],
   "note": "All interleavings of get, set, lock, len, append and append_vector by any number of clients, word by word, including bounds of every access and absence of deadlock."
  },
  {
   "property": "C14",
   "status": "proved",
   "theorems": [
    "C14_queue_keeps_the_closest",
    "C14_simd_lower_bound_is_exact",
    "C14_queue_never_panics",
    "C14_zero_capacity_insert_refuted"
   ],
   "note": "Fixed and auto-resizing queue, any insert/expand history, including the SIMD lower bound. Finding: capacity 0 panics."
  },
  {
   "property": "C15",
   "status": "proved",
   "theorems": [
    "C15_next_is_closest_unvisited",
    "C15_each_candidate_expanded_once",
    "C15_expanded_once_with_drain_best_refuted",
    "C15_expanded_once_with_remove_refuted"
   ],
   "note": "Histories of insert/expand/reconfigure/clear. Findings: drain_best and remove break the property (refuted theorems)."
  },
  {
   "property": "C16",
   "status": "proved",
   "theorems": [
    "C16_no_duplicates_debug",
    "C16_no_duplicates",
    "C16_no_panic",
    "C16_push_reports_novelty",
    "C16_extend_counts_new_ids",
    "C16_untrusted_is_sorted_set",
    "C16_all_unique_is_exact",
    "C16_contains_simd_is_exact",
    "C16_release_trusts_callers_refuted"
   ],
   "note": "Public AdjacencyList API as an operation history, debug and release builds. Finding: release builds trust remap/overwrite callers (refuted theorem)."
  },
  {
   "property": "C17",
   "status": "proved",
   "theorems": [
    "C17_buffer_holds_distinct_sources",
    "C17_aggregation_is_exact"
   ],
   "note": "Inline and heap representation; aggregation over a batch."
  },
  {
   "property": "C18",
   "status": "proved",
   "theorems": [
    "C18_pool_is_the_closest_prefix"
   ],
   "note": "select_nth_unstable/sort_unstable by their std contracts."
  },
  {
   "property": "C19",
   "status": "proved",
   "theorems": [
    "C19_bounded_distinct_subset",
    "C19_duplicate_candidates_refuted",
    "C19_infinite_alpha_refuted"
   ],
   "note": "Findings: duplicate pool ids and alpha >= f32::MAX break it (refuted theorems)."
  },
  {
   "property": "C20",
   "status": "proved",
   "theorems": [
    "C20_kept_is_not_occluded",
    "C20_dropped_is_occluded",
    "C20_equals_textbook_prune",
    "C20_inner_product_dropped_is_occluded",
    "C20_inner_product_kept_refuted"
   ],
   "note": "Finding: with the inner product rule a candidate occluded at every scale can be kept (refuted theorem)."
  },
  {
   "property": "C21",
   "status": "proved",
   "theorems": [
    "C21_pruning_terminates",
    "C21_nan_alpha_refuted"
   ],
   "note": "IEEE 754 arithmetic from Flocq. Finding: a NaN alpha is accepted and loops forever (refuted theorem)."
  },
  {
   "property": "C22",
   "status": "proved",
   "theorems": [
    "C22_results_unique_reachable_scored_sorted",
    "C22_results_locally_complete",
    "C22_exact_when_list_covers_graph",
    "C22_pooled_scratch_is_new",
    "C22_filtered_results"
   ],
   "note": "Any graph, distance, start points, beam width, early-stop rule. Local completeness and exactness are for searches not cut short."
  },
  {
   "property": "C23",
   "status": "proved",
   "theorems": [
    "C23_terminates_without_panic",
    "C23_work_is_bounded"
   ],
   "note": "Termination on every finite graph, with no bound on its size; the model's fuel is shown sufficient."
  },
  {
   "property": "C24",
   "status": "proved",
   "theorems": [
    "C24_reachable_count_is_exact",
    "C24_count_terminates"
   ],
   "note": ""
  },
  {
   "property": "C25",
   "status": "proved",
   "theorems": [
    "C25_results_in_range",
    "C25_second_phase_complete",
    "C25_first_phase_hits",
    "C25_terminates_without_panic",
    "C25_hop_count_refuted"
   ],
   "note": "Finding: the reported hop count is wrong (refuted theorem)."
  },
  {
   "property": "C26",
   "status": "proved",
   "theorems": [
    "C26_pages_do_not_overlap",
    "C26_short_page_means_exhausted",
    "C26_terminates_without_panic",
    "C26_init_ids_are_returned_refuted"
   ],
   "note": "Finding: init_ids are never returned (refuted theorem)."
  },
  {
   "property": "C27",
   "status": "proved",
   "theorems": [
    "C27_overlapping_operations",
    "C27_one_at_a_time",
    "C27_providers_append_exactly",
    "C27_missing_vector_self_loop_refuted",
    "C27_overlap_without_check_refuted",
    "C27_reinserted_batch_refuted"
   ],
   "note": "For every schedule of overlapping operations on providers that skip ids already present, and for operations one at a time on every provider. No self loops if no vector is missing while back edges are pruned; the exceptions (missing vector, overlap on the in-memory crate, re-inserted batch with inner product) are refuted."
  },
  {
   "property": "C28",
   "status": "proved",
   "theorems": [
    "C28_delete_unlinks",
    "C28_missing_vector_refuted",
    "C28_overlapping_insert_refuted",
    "C28_batched_delete_refuted",
    "C28_drop_deleted_exact",
    "C28_consolidate_exact"
   ],
   "note": "For in-place delete run alone on any graph and provider; also exact effects of drop_deleted_neighbors and consolidate_vector. A missing vector, an overlapping insert and the batched delete are refuted."
  },
  {
   "property": "C29",
   "status": "proved",
   "theorems": [
    "C29_partition_covers_exactly",
    "C29_partition_total_refuted",
    "C29_arc_chunks_concat",
    "C29_around_is_a_window",
    "C29_balancer_hands_out_each_item_once"
   ],
   "note": "Finding: partition(usize::MAX,1,0) overflows (refuted theorem)."
  },
  {
   "property": "C30",
   "status": "proved",
   "theorems": [
    "C30_integers_ordered",
    "C30_floats_ordered",
    "C30_strings_ordered",
    "C30_equal_floats_equal_keys_refuted",
    "C30_keys_distinct",
    "C30_empty_collides_refuted",
    "C30_nul_collides_refuted",
    "C30_ranges_do_not_mix",
    "C30_reverse_keys"
   ],
   "note": "Order of integers, floats and strings, distinctness, and separation of ranges, for all fields and values. Exceptions refuted: the two float zeros, Empty against the empty string, field names with NUL."
  },
  {
   "property": "C31",
   "status": "proved",
   "theorems": [
    "C31_index_agrees_with_evaluation",
    "C31_double_bounds_refuted",
    "C31_fractional_threshold_refuted",
    "C31_large_integer_refuted",
    "C31_equality_refuted",
    "C31_paths_refuted",
    "C31_negation_refuted"
   ],
   "note": "Exact agreement for all collections of labels without nulls and arrays whose keys avoid the separator, all filters of $eq, ranges, $and and $or at every depth, with the range comparisons the key ranges decide. The excluded cases are refuted one by one: doubles equal to the bound, fractional bounds on integers, integers above 2^53, the two zeros, integers from 2^63, arrays, separators in keys, negations."
  },
  {
   "property": "C32",
   "status": "proved",
   "theorems": [
    "C32_postings_exact",
    "C32_calls_succeed",
    "C32_failures_are_contained",
    "C32_postings_readable",
    "C32_reinsert_refuted",
    "C32_failed_insert_refuted",
    "C32_large_ids_refuted"
   ],
   "note": "After every history of calls, each retried until it succeeded on a store failing anywhere, posting lists are exact; calls succeed without failures; failures never affect other documents. Refuted: inserting an existing document, deleting after a failed insert, ids from 2^32."
  },
  {
   "property": "C33",
   "status": "proved",
   "theorems": [
    "C33_accepts_exactly",
    "C33_means_what_it_says",
    "C33_siblings_refuted",
    "C33_short_conditions_refuted",
    "C33_bad_operand_refuted"
   ],
   "note": "Acceptance and meaning for all filters that keep one kind of entry per object (at any nesting the parser allows). Silently ignored input outside that is refuted: entries beside a logical operator, conditions that are not objects, $and/$or without an array."
  },
  {
   "property": "C34",
   "status": "proved",
   "theorems": [
    "C34_round_trip",
    "C34_decoding_never_panics",
    "C34_decoding_is_sound"
   ],
   "note": "Round trip for lists and keys shorter than 2^32, no out-of-bounds access for any input, and accepted input is the encoding of the result followed by ignored bytes."
  },
  {
   "property": "C35",
   "status": "proved",
   "theorems": [
    "C35_ids_exclusive",
    "C35_refuted_exhausted",
    "C35_refuted_unreadable"
   ],
   "note": "For every schedule of any number of threads, failing store operations, crashes and restarts, as long as id 2^32-1 has not been minted and blocks can be read at restart. Both exceptions are refuted."
  },
  {
   "property": "C36",
   "status": "proved",
   "theorems": [
    "C36_answers_exact",
    "C36_restart_keeps_ids"
   ],
   "note": "is_free and visit_used agree with the history in every reachable state, total_used between calls, and a restart from any crash point keeps the ids in use and mints above them."
  },
  {
   "property": "C37",
   "status": "proved",
   "theorems": [
    "C37_one_holder",
    "C37_nothing_lost",
    "C37_bounded",
    "C37_objects_are_reused",
    "C37_get_result",
    "C37_vector_length"
   ],
   "note": "Critical sections are single steps; create and modify run outside them."
  },
  {
   "property": "C38",
   "status": "proved",
   "theorems": [
    "C38_layout_round_trip",
    "C38_small_block_refuted",
    "C38_small_file_refuted",
    "C38_duplicate_vertex_refuted"
   ],
   "note": "Files whose inputs fit the format's integer widths; any block size from 104 bytes, any sector size up to the file length. Findings (refuted theorems): blocks of 80-103 bytes, files smaller than a sector, a vertex processed twice in a batch."
  },
  {
   "property": "C39",
   "status": "proved",
   "theorems": [
    "C39_header_round_trip",
    "C39_accepts_exactly_long_enough_input",
    "C39_max_degree_recovered",
    "C39_max_degree_overflow_refuted",
    "C39_version_order"
   ],
   "note": "Finding: max_degree multiplies without overflow check (refuted theorem)."
  },
  {
   "property": "C40",
   "status": "proved",
   "theorems": [
    "C40_reads_the_file_in_order"
   ],
   "note": "Every cache size including 0; seeks are not offered by the API used."
  },
  {
   "property": "C41",
   "status": "proved",
   "theorems": [
    "C41_writes_the_file",
    "C41_no_duplicate_after_error_refuted"
   ],
   "note": "Includes rewinds (reset) and crash prefixes. Finding: after a failed write the cached bytes are written twice (refuted theorem)."
  },
  {
   "property": "C42",
   "status": "proved",
   "theorems": [
    "C42_graph_round_trip",
    "C42_interrupted_save_is_empty",
    "C42_crash_loads_a_prefix",
    "C42_load_total",
    "C42_torn_header_refuted",
    "C42_small_configured_degree_refuted"
   ],
   "note": "Crash points between any two bytes, writes persisted in program order. Findings: torn final header, configured degree below the real one (refuted theorems)."
  },
  {
   "property": "C43",
   "status": "proved",
   "theorems": [
    "C43_vectors_round_trip",
    "C43_save_accepts",
    "C43_interrupted_save_is_empty",
    "C43_crash_loads_a_prefix",
    "C43_load_exact",
    "C43_truncated_file_refuted",
    "C43_torn_header_refuted"
   ],
   "note": "As C42; also an exact description of what loading any byte string gives. Findings: truncated files and torn headers load silently (refuted theorems)."
  },
  {
   "property": "C44",
   "status": "proved",
   "theorems": [
    "C44_atomic_set",
    "C44_steps_within_the_call",
    "C44_calls_take_effect"
   ],
   "note": "Interleavings of atomic word operations, including the non-atomic clear."
  },
  {
   "property": "C45",
   "status": "proved",
   "theorems": [
    "C45_rows_refine_map",
    "C45_append_adds_new_ids",
    "C45_lists_duplicate_free"
   ],
   "note": "Calls are atomic (per-point lock). Whole history refines a map of lists."
  },
  {
   "property": "C46",
   "status": "proved",
   "theorems": [
    "C46_refines_a_list",
    "C46_set_then_get",
    "C46_padding_untouched",
    "C46_layout",
    "C46_fresh",
    "C46_byte_view"
   ],
   "note": "All widths 1..8, both layouts, both representations; refinement to a list of values."
  },
  {
   "property": "C47",
   "status": "proved",
   "theorems": [
    "C47_offsets_accepted_iff_proper",
    "C47_partition_is_even",
    "C47_chunks_cover_the_vector"
   ],
   "note": ""
  },
  {
   "property": "C48",
   "status": "proved",
   "theorems": [
    "C48_cache_returns_inserted_nodes",
    "C48_update_refuted",
    "C48_insert_after_update_refuted"
   ],
   "note": "Distinct inserts. Findings: re-inserting keeps the old list and shifts later ones (refuted theorems)."
  },
  {
   "property": "C49",
   "status": "proved",
   "theorems": [
    "C49_matrix_round_trip",
    "C49_write_exact",
    "C49_read_exact",
    "C49_multivec_round_trip"
   ],
   "note": ""
  },
  {
   "property": "C50",
   "status": "proved",
   "theorems": [
    "C50_iterator_is_list_iterator"
   ],
   "note": "Associated data are returned as bytes (bincode not modelled)."
  },
  {
   "property": "C51",
   "status": "proved",
   "theorems": [
    "C51_slices_in_bounds",
    "C51_creation_total",
    "C51_unaligned_element_refuted"
   ],
   "note": "usize overflow not modelled. Finding: element types with alignment below their size (refuted theorem)."
  },
  {
   "property": "C52",
   "status": "proved",
   "theorems": [
    "C52_export_names_points",
    "C52_two_start_points_refuted",
    "C52_start_point_count_refuted",
    "C52_start_points"
   ],
   "note": "Findings: only one start point is replaced on export; start point count truncated to 32 bits (refuted theorems)."
  },
  {
   "property": "C53",
   "status": "proved",
   "theorems": [
    "C53_freed_ids_first",
    "C53_refuted_two_callers"
   ],
   "note": "For one caller on a store that does not fail; with two callers the flag that free ids exist can be lost (refuted)."
  },
  {
   "property": "C54",
   "status": "proved",
   "theorems": [
    "C54_backfill_complete",
    "C54_refuted_many_tasks"
   ],
   "note": "For all schedules and restarts; ranges are disjoint for at most 2^16 tasks (overlap with over a million tasks refuted)."
  },
  {
   "property": "C55",
   "status": "proved",
   "theorems": [
    "C55_memory_round_trip",
    "C55_manifest_round_trip",
    "C55_refuted_nested_option",
    "C55_refuted_sentinel_string",
    "C55_refuted_reserved_key",
    "C55_insert_checks"
   ],
   "note": "For every type without Option directly inside Option and data without the three reserved strings, in memory and through the manifest for any map order and any text layer that reads back what it prints to the needed depth. Nested options, reserved strings and unchecked reserved keys are refuted."
  },
  {
   "property": "C56",
   "status": "proved",
   "theorems": [
    "C56_integer_exact",
    "C56_integer_complete",
    "C56_refuted_integer_maximum",
    "C56_f64_exact",
    "C56_f64_complete",
    "C56_f32_exact",
    "C56_f32_complete",
    "C56_refuted_float_of_maximum"
   ],
   "note": "Exact or refused for every number and target, apart from one value at the top of the u64 and i64 ranges in each direction (refuted there); complete without exception."
  },
  {
   "property": "C57",
   "status": "proved",
   "theorems": [
    "C57_load_typed",
    "C57_struct_from_own_fields",
    "C57_enum_from_own_variant",
    "C57_manifest_like_memory",
    "C57_refuted_manifest_like_memory",
    "C57_manifest_objects",
    "C57_recoverable",
    "C57_version_text",
    "C57_version_text_distinct"
   ],
   "note": "For every type and value; agreement of manifest and memory needs that no i64 equals the largest (refuted there)."
  },
  {
   "property": "C58",
   "status": "proved",
   "theorems": [
    "C58_saved_artifacts_read_back",
    "C58_saved_for_good",
    "C58_refuted_manifest_named_as_artifact"
   ],
   "note": "For every program that saves, every number of saves, schedule, failing operation and crash, when no two saves to one manifest overlap and manifest names keep apart from artifact names (refuted when a manifest is named as an artifact)."
  },
  {
   "property": "C59",
   "status": "proved",
   "theorems": [
    "C59_manifest_atomic",
    "C59_manifest_of_last_save",
    "C59_load_after_save",
    "C59_refuted_overlapping_saves"
   ],
   "note": "Step by step and for every reachable state, under the same conditions; overlapping saves to one manifest are refuted."
  },
  {
   "property": "C60",
   "status": "proved",
   "theorems": [
    "C60_other_files_untouched",
    "C60_nothing_left_behind",
    "C60_refuted_foreign_temporary",
    "C60_refuted_retry_after_crash"
   ],
   "note": "Under the same conditions; a foreign <manifest>.temp is deleted and a crash blocks retries with the same keys (both refuted)."
  },
  {
   "property": "C61",
   "status": "proved",
   "theorems": [
    "C61_names_distinct_and_inside",
    "C61_loads_stay_inside",
    "C61_memory_exact",
    "C61_disk_and_memory_agree",
    "C61_refuted_trailing_slash"
   ],
   "note": "For every program; a save to disk without failures agrees with the same program in memory. A key with a trailing slash is refuted."
  },
  {
   "property": "C62",
   "status": "proved",
   "theorems": [
    "C62_queue_histories_are_sound",
    "C62_search_results_are_sound",
    "C62_search_ends_without_panic",
    "C62_large_k_is_refused_refuted",
    "C62_every_queue_accepts_insertions_refuted"
   ],
   "note": "For every history of the queue and every search. The missing check of k against total and the panic of a queue made directly with l*k < total are refuted claims."
  },
  {
   "property": "C63",
   "status": "proved",
   "theorems": [
    "C63_queue_diversity_is_exact",
    "C63_search_diversity_is_exact",
    "C63_diversity_with_ties_refuted"
   ],
   "note": "For every history and search in which no two usable candidates are at the same distance; with ties the limit per attribute value is refuted."
  },
  {
   "property": "C64",
   "status": "proved",
   "theorems": [
    "C64_inline_returns_closest_accepted",
    "C64_inline_exact_when_list_covers_graph",
    "C64_inline_terminates_without_panic",
    "C64_inline_navigates_as_unfiltered",
    "C64_results_are_numbers_refuted",
    "C64_adaptive_l_is_bounded",
    "C64_accepted_adaptive_l_never_panics_refuted",
    "C64_raising_l_enlarges_the_list_refuted"
   ],
   "note": "Also: exact if the list covers the graph, the same navigation as the unfiltered search, and bounds for adaptive L. NaN results, a NaN maximum for adaptive L and the shrinking list are refuted claims."
  },
  {
   "property": "C65",
   "status": "proved",
   "theorems": [
    "C65_multihop_returns_closest_accepted",
    "C65_multihop_terminates_without_panic"
   ],
   "note": "For every search that ends normally, and termination without panic when distances are numbers."
  },
  {
   "property": "C66",
   "status": "proved",
   "theorems": [
    "C66_results_are_accepted_and_in_range",
    "C66_results_are_complete",
    "C66_terminates_without_panic",
    "C66_inner_radius_keeps_places_refuted"
   ],
   "note": "Soundness, completeness of both phases up to the maximum, termination. That matches inside the inner radius use up places is a refuted claim."
  },
  {
   "property": "C67",
   "status": "proved",
   "theorems": [
    "C67_flat_search_exact",
    "C67_flat_search_any_processor",
    "C67_flat_search_error"
   ],
   "note": "For every post processor; NaN distances are dropped by the queue."
  },
  {
   "property": "C68",
   "status": "proved",
   "theorems": [
    "C68_id_distance",
    "C68_id_distance_data",
    "C68_back_inserter",
    "C68_vector",
    "C68_disk_output",
    "C68_lengths_checked"
   ],
   "note": "All five buffers, any sequence of pushes and extensions."
  },
  {
   "property": "C69",
   "status": "proved",
   "theorems": [
    "C69_copy_ids",
    "C69_start_points_left_out",
    "C69_deleted_left_out",
    "C69_rerank",
    "C69_rerank_writes_the_closest",
    "C69_tree_rerank",
    "C69_tree_rerank_error",
    "C69_garnet",
    "C69_filter_results",
    "C69_filter_results_error",
    "C69_translate",
    "C69_translate_count_refuted",
    "C69_diversity_drops_deleted_refuted"
   ],
   "note": "All post processors; the result count of Translate and the deletion check of the in-memory diversity reranker are refuted claims."
  },
  {
   "property": "C70",
   "status": "proved",
   "theorems": [
    "C70_search",
    "C70_search_with_vectors",
    "C70_bad_arguments",
    "C70_refuted_padding"
   ],
   "note": "Both entry points, all four search modes, any provider; that results are all allowed points is refuted for `search`, which pads."
  },
  {
   "property": "C71",
   "status": "proved",
   "theorems": [
    "C71_flat_scan",
    "C71_refuted_empty_list"
   ],
   "note": "Accepted points with a NaN PQ distance are not candidates; a zero list size panics (refuted claim)."
  },
  {
   "property": "C72",
   "status": "proved",
   "theorems": [
    "C72_io_limit",
    "C72_as_in_memory",
    "C72_refuted_rerank_reads"
   ],
   "note": "The walk is within the limit; that reranking is, is refuted."
  },
  {
   "property": "C73",
   "status": "proved",
   "theorems": [
    "C73_provider_independent",
    "C73_cache_transparent",
    "C73_file_search"
   ],
   "note": "Any two providers, the cached provider over any provider, and the byte-level provider over a written file."
  },
  {
   "property": "C74",
   "status": "proved",
   "theorems": [
    "C74_selection",
    "C74_parameters"
   ],
   "note": "For every arithmetic, rounding and NaN included."
  },
  {
   "property": "C75",
   "status": "proved",
   "theorems": [
    "C75_greedy",
    "C75_relevance",
    "C75_refuted_nan"
   ],
   "note": "Exact (real) arithmetic, standard library axioms of the reals; how far rounding moves a choice is not bounded. The claim the code makes about NaN norms is refuted."
  },
  {
   "property": "C76",
   "status": "proved",
   "theorems": [
    "C76_in_memory",
    "C76_refuted_deleted",
    "C76_disk"
   ],
   "note": "Both post processors. That the in-memory one leaves out deleted points, as the others do, is refuted."
  },
  {
   "property": "C77",
   "status": "proved",
   "theorems": [
    "C77_fill",
    "C77_transparent",
    "C77_operations",
    "C77_batch_overlay"
   ],
   "note": "For every history of operations, closure and visiting order of the hash map."
  },
  {
   "property": "C78",
   "status": "proved",
   "theorems": [
    "C78_capacity",
    "C78_refuted_wraparound",
    "C78_refuted_only_as_needed"
   ],
   "note": "For fewer than 2^32 - 1 fills; beyond, and that entries are evicted only as needed, is refuted."
  },
  {
   "property": "C79",
   "status": "proved",
   "theorems": [
    "C79_closest",
    "C79_partition",
    "C79_members",
    "C79_shard_count",
    "C79_no_empty_shard_refuted"
   ],
   "note": "For every ordering of distances, heap and dataset; that no shard is left empty is refuted."
  },
  {
   "property": "C80",
   "status": "proved",
   "theorems": [
    "C80_read_vectors",
    "C80_wrong_size",
    "C80_read_after_failure_refuted",
    "C80_shard_vectors"
   ],
   "note": "For every file, ids and consumer; reading on after the consumer failed is refuted."
  },
  {
   "property": "C81",
   "status": "proved",
   "theorems": [
    "C81_merge",
    "C81_partition_then_merge",
    "C81_empty_shard_fails",
    "C81_reachability_refuted"
   ],
   "note": "For every shuffle, reader cache and shard graphs; that reachability survives the merge is refuted."
  },
  {
   "property": "C82",
   "status": "proved",
   "theorems": [
    "C82_hadamard",
    "C82_rejects",
    "C82_isometry",
    "C82_involution",
    "C82_implementations_agree"
   ],
   "note": "In exact arithmetic; rejection in any arithmetic."
  },
  {
   "property": "C83",
   "status": "proved",
   "theorems": [
    "C83_dimensions",
    "C83_total",
    "C83_isometry",
    "C83_subsampled"
   ],
   "note": "Isometry in exact arithmetic; dimensions and absence of panics in any arithmetic."
  },
  {
   "property": "C84",
   "status": "proved",
   "theorems": [
    "C84_round_trip",
    "C84_padding_accepted",
    "C84_double_accepted",
    "C84_accepted_panics_refuted",
    "C84_debug_assert_refuted"
   ],
   "note": "For every transform; that accepted parts are usable, and an assertion said to be implied, are refuted."
  },
  {
   "property": "C85",
   "status": "proved",
   "theorems": [
    "C85_compress",
    "C85_round_trip",
    "C85_rejects",
    "C85_codes_fit"
   ],
   "note": "Nearest codes and the round trip in exact arithmetic; rejection in any arithmetic; that codes fit also for infinities and NaN."
  },
  {
   "property": "C86",
   "status": "proved",
   "theorems": [
    "C86_distances",
    "C86_lengths",
    "C86_train",
    "C86_rescale",
    "C86_constant_data_refuted"
   ],
   "note": "In exact arithmetic, for integer kernels right on the pair; lengths in any arithmetic. That trained quantizers are usable is refuted for constant data."
  },
  {
   "property": "C87",
   "status": "proved",
   "theorems": [
    "C87_compress",
    "C87_error",
    "C87_rejects",
    "C87_codes_fit",
    "C87_infinite_input_refuted"
   ],
   "note": "In exact arithmetic; rejection in any arithmetic. That only finite vectors are accepted is refuted."
  },
  {
   "property": "C88",
   "status": "proved",
   "theorems": [
    "C88_distances",
    "C88_query_distances",
    "C88_rejects"
   ],
   "note": "In exact arithmetic, for kernels right on the pair; rejection in any arithmetic."
  },
  {
   "property": "C89",
   "status": "proved",
   "theorems": [
    "C89_recompress",
    "C89_same_range",
    "C89_rejects"
   ],
   "note": "In exact arithmetic; rejection in any arithmetic."
  },
  {
   "property": "C90",
   "status": "proved",
   "theorems": [
    "C90_distances",
    "C90_cosine",
    "C90_total"
   ],
   "note": "In exact arithmetic; totality and refusal in any arithmetic."
  },
  {
   "property": "C91",
   "status": "proved",
   "theorems": [
    "C91_resumable"
   ],
   "note": "In exact arithmetic."
  },
  {
   "property": "C92",
   "status": "proved",
   "theorems": [
    "C92_distances",
    "C92_dimensions",
    "C92_cosine",
    "C92_overflow_refuted",
    "C92_exact_refuted"
   ],
   "note": "For sums that fit the accumulators, proved to be so up to 33025 dimensions. Beyond, the distance is refuted to be right, and above 2^24 to be exact."
  },
  {
   "property": "C93",
   "status": "proved",
   "theorems": [
    "C93_symmetric",
    "C93_nonnegative",
    "C93_self",
    "C93_cosine_range",
    "C93_cosine_refuted"
   ],
   "note": "IEEE binary32 arithmetic from Flocq, NaNs identified. That the cosine of finite opposite vectors is -1 is refuted."
  },
  {
   "property": "C94",
   "status": "proved",
   "theorems": [
    "C94_squared_l2",
    "C94_inner_product",
    "C94_depends_on_elements"
   ],
   "note": "Below the bound the accumulators hold: 2^31 - 1, 2^32 - 1 for one bit, 2^24 for 8-bit against 8-bit (C96)."
  },
  {
   "property": "C95",
   "status": "proved",
   "theorems": [
    "C95_hamming",
    "C95_transposed"
   ],
   "note": "Hamming distance for fewer than 2^32 elements, transposed product for results below 2^31."
  },
  {
   "property": "C96",
   "status": "proved",
   "theorems": [
    "C96_bytes_nearest",
    "C96_bytes_exact_refuted"
   ],
   "note": "That the result is the exact integer is refuted."
  },
  {
   "property": "C97",
   "status": "proved",
   "theorems": [
    "C97_inner_product",
    "C97_depends_on_elements",
    "C97_ieee"
   ],
   "note": "Exact arithmetic for the value; independence of junk bits and totality in IEEE binary32 as well."
  },
  {
   "property": "C98",
   "status": "proved",
   "theorems": [
    "C98_layout",
    "C98_injective"
   ],
   "note": "All group and packing sizes."
  },
  {
   "property": "C99",
   "status": "proved",
   "theorems": [
    "C99_construction",
    "C99_minimal",
    "C99_nearest",
    "C99_lowest_index_refuted",
    "C99_nearest_refuted_f32",
    "C99_finite_refuted_f32"
   ],
   "note": "Minimal proxy in any arithmetic with the order laws of f32 (proved for IEEE binary32); nearest pivot in exact arithmetic. Refuted: ties to the lowest index; nearest pivot and failure only on infinite distances in f32."
  },
  {
   "property": "C100",
   "status": "proved",
   "theorems": [
    "C100_batch",
    "C100_errors",
    "C100_exact",
    "C100_same_refuted_nan",
    "C100_same_refuted_max"
   ],
   "note": "Under the stated condition on the proxies; without it `same semantics' is refuted in f32."
  },
  {
   "property": "C101",
   "status": "proved",
   "theorems": [
    "C101_process",
    "C101_exact"
   ],
   "note": "Any arithmetic; exact values in exact arithmetic."
  },
  {
   "property": "C102",
   "status": "proved",
   "theorems": [
    "C102_construction",
    "C102_minimal",
    "C102_nearest"
   ],
   "note": "Minimal computed distance, lowest index, in any arithmetic with the order laws of f32; nearest pivot in exact arithmetic."
  },
  {
   "property": "C103",
   "status": "proved",
   "theorems": [
    "C103_exact",
    "C103_total",
    "C103_inflate",
    "C103_same_order_refuted"
   ],
   "note": "Values in exact arithmetic; which calls answer, in any arithmetic. Refuted: equal order of the two computers under the normalized cosine."
  },
  {
   "property": "C104",
   "status": "proved",
   "theorems": [
    "C104_points",
    "C104_errors",
    "C104_disk",
    "C104_disk_refuted_fewer_pivots"
   ],
   "note": "Bit for bit in any arithmetic; end to end in exact arithmetic for 256 pivots. Refuted for fewer pivots: always a panic."
  },
  {
   "property": "C105",
   "status": "proved",
   "theorems": [
    "C105_full",
    "C105_codes",
    "C105_two",
    "C105_dimensions_refuted"
   ],
   "note": "Exact arithmetic, tables of one dimension; without that condition refuted."
  },
  {
   "property": "C106",
   "status": "proved",
   "theorems": [
    "C106_step",
    "C106_start",
    "C106_unique",
    "C106_total_refuted_nan",
    "C106_total_refuted_no_centers"
   ],
   "note": "Any arithmetic whose comparison has the order laws of f32, f32 itself included. Refuted: a point without finite distance, or no centers, panics."
  },
  {
   "property": "C107",
   "status": "proved",
   "theorems": [
    "C107_exact",
    "C107_descends",
    "C107_returned",
    "C107_assignment_refuted",
    "C107_no_steps_refuted"
   ],
   "note": "Exact (rational) arithmetic through the same code. Refuted: the assignments and the residual are those of the centers before the last step."
  },
  {
   "property": "C108",
   "status": "proved",
   "theorems": [
    "C108_picks",
    "C108_empty",
    "C108_exact",
    "C108_no_centers_refuted"
   ],
   "note": "C108_picks and C108_empty for any arithmetic with the order laws of f32; C108_exact over the rationals, with the random samples quantified. Refuted: no centers with data panics."
  },
  {
   "property": "C109",
   "status": "proved",
   "theorems": [
    "C109_chunk",
    "C109_columns",
    "C109_train",
    "C109_pivots",
    "C109_exact",
    "C109_nan_refuted",
    "C109_empty_refuted"
   ],
   "note": "The work on one chunk, the sequential collection of the chunks and the flattening, for any arithmetic with the order laws of f32; C109_exact over the rationals. Refuted: NaN is a panic with one center, and an empty training set a panic for all chunks but the first."
  },
  {
   "property": "C110",
   "status": "proved",
   "theorems": [
    "C110_errors",
    "C110_mean",
    "C110_unique",
    "C110_one_division",
    "C110_range",
    "C110_monotone",
    "C110_perfect",
    "C110_perfect_refuted",
    "C110_no_truth_refuted"
   ],
   "note": "The mean is stated in rational numbers; the errors and the single division hold for any arithmetic. Refuted: repeated ids in the ground truth keep perfect results below 1; no ground truth reports 0."
  },
  {
   "property": "C111",
   "status": "proved",
   "theorems": [
    "C111_value",
    "C111_range",
    "C111_precision_refuted",
    "C111_empty_refuted"
   ],
   "note": "Any arithmetic; the range in rational numbers. Refuted: wrong results do not lower it; without ground truth it is 0/0."
  },
  {
   "property": "C112",
   "status": "proved",
   "theorems": [
    "C112_validated",
    "C112_load",
    "C112_gaps_refuted",
    "C112_negative_refuted",
    "C112_replace_refuted"
   ],
   "note": "Ranges are natural numbers; YAML values as a tree. Refuted: gaps in the numbering, negative max_pts and replacements of unequal size are accepted."
  },
  {
   "property": "C113",
   "status": "proved",
   "theorems": [
    "C113_run",
    "C113_search",
    "C113_capacity",
    "C113_headroom",
    "C113_threshold_refuted",
    "C113_reinsert_refuted"
   ],
   "note": "The index accepts every request it is sent; the threshold test is any function, an exact fraction in C113_headroom (the code computes it in f32). With deferred reclaiming no tag may be inserted twice: refuted otherwise. Thresholds of 1 or more refuted too."
  },
  {
   "property": "C114",
   "status": "proved",
   "theorems": [
    "C114_exact",
    "C114_range",
    "C114_skip_refuted"
   ],
   "note": "The distance function is any function into the bit patterns of f32; ids are positions in the base data after skipping, which is refuted as row numbers of the base file. The lock around the queues and the rayon loop over queries are modelled as one pass per query, which is what each lock serialises."
  },
  {
   "property": "C115",
   "status": "proved",
   "theorems": [
    "C115_round_trip",
    "C115_end_to_end",
    "C115_range_round_trip",
    "C115_few_refuted",
    "C115_inserted_refuted"
   ],
   "note": "Every query needs as many numbers as entries asked for: fewer panic, refuted. Associated data and inserts together panic, refuted. The files are byte lists."
  },
  {
   "property": "C116",
   "status": "proved",
   "theorems": [
    "C116_recall",
    "C116_filtered",
    "C116_share",
    "C116_rejected",
    "C116_padding_refuted",
    "C116_disk_filtered",
    "C116_disk",
    "C116_columns_refuted"
   ],
   "note": "Exact rationals stand for f64. Ids with a decidable equality, any equality of distances. Ground truth needs at least k columns and every query recall_at results: both refuted otherwise."
  },
  {
   "property": "C117",
   "status": "proved",
   "theorems": [
    "C117_linearizable",
    "C117_order",
    "C117_progress",
    "C117_append",
    "C117_stripe"
   ],
   "note": "The bf-tree crate is external: single reads and inserts are atomic and accept records of the validated size. The vectorised membership test is membership (proved in Adjacency). delete_vector of the neighbour provider is never called and not modelled."
  },
  {
   "property": "C118",
   "status": "proved",
   "theorems": [
    "C118_full",
    "C118_agree",
    "C118_code",
    "C118_no_ghost",
    "C118_ghost_refuted",
    "C118_failed_refuted"
   ],
   "note": "Each access of the external bf-tree is atomic; deleted entries may turn into missing ones at any time. Keys are ids (bytes in C117). Agreement of the two stores needs a compressor that never fails: refuted otherwise. While a delete runs the code outlives its vector: refuted."
  },
  {
   "property": "C119",
   "status": "proved",
   "theorems": [
    "C119_new",
    "C119_updates"
   ],
   "note": "For every total preorder, so also for pairs that compare by value only. new_unchecked on a slice that is not a heap is excluded by its contract."
  },
  {
   "property": "C120",
   "status": "proved",
   "theorems": [
    "C120_ends",
    "C120_best",
    "C120_code",
    "C120_compress"
   ],
   "note": "Exact rationals stand for f32 and f64; similarities are compared by their squares. The search raises a level at a whole number plus 0.0001, so the claim is about thresholds at k + 0.0001, and about the stored codes when no scaled component lies within 0.0001 above a whole number. Components of equal size may tie; sizes that differ must not cross at the same scale."
  },
  {
   "property": "C121",
   "status": "proved",
   "theorems": [
    "C121_data",
    "C121_full",
    "C121_query",
    "C121_query_error",
    "C121_query_nan",
    "C121_own_direction",
    "C121_sampled",
    "C121_self",
    "C121_centre",
    "C121_compress",
    "C121_wide_refuted",
    "C121_flat_refuted"
   ],
   "note": "Real numbers stand for f32 and f16: their rounding, and the failure of DataMeta::new when an f16 overflows, are not modelled; the failure when the sum of the codes does not fit sixteen bits is. The transform and the scale search (C120) are arguments. C121_flat_refuted and C121_wide_refuted are findings: a query with equal transformed components gets distances that are NaN, and with eight bits and 515 or more components about half of all vectors cannot be compressed."
  },
  {
   "property": "C122",
   "status": "proved",
   "theorems": [
    "C122_scores",
    "C122_best",
    "C122_errors",
    "C122_reference",
    "C122_chamfer",
    "C122_stale_refuted"
   ],
   "note": "The operations of f32 are arguments; all that is asked of them is that the maximum is associative and that the lowest value is below zero, which holds for f32 without NaN up to the sign of zero. Elements of the micro-kernel's registers are list positions, pointers are offsets, and an access outside a buffer is None. compute_reference is compared under the hypothesis that the pure inner product is the negated fold, since its summation order is its own. C122_stale_refuted is a finding: MaxSim::evaluate without documents succeeds and keeps what the buffer held."
  },
  {
   "property": "C123",
   "status": "proved",
   "theorems": [
    "C123_leaves",
    "C123_names",
    "C123_null",
    "C123_last",
    "C123_escape_refuted",
    "C123_empty_refuted"
   ],
   "note": "Separators of one character; the null theorem and the one on the map hold for every separator. include_array_indices of FlattenConfig is read nowhere in the code, so it is not in the model. Documents are serde_json values without repeated keys. C123_escape_refuted and C123_empty_refuted are findings: names are not escaped and empty containers have no entry, although the documentation says so."
  },
  {
   "property": "C124",
   "status": "proved",
   "theorems": [
    "C124_memory",
    "C124_file",
    "C124_sampling",
    "C124_all",
    "C124_medoid",
    "C124_start",
    "C124_zero_refuted",
    "C124_truncated_refuted",
    "C124_sample_refuted"
   ],
   "note": "C124_medoid is about exact numbers; C124_memory, C124_file and C124_sampling hold for any arithmetic whose comparison is irreflexive and transitive, f32 among them. The generators of random vectors, of sample positions and of the Latin hypercube are arguments. C124_zero_refuted, C124_truncated_refuted and C124_sample_refuted are findings."
  },
  {
   "property": "C125",
   "status": "proved",
   "theorems": [
    "C125_latin",
    "C125_panics",
    "C125_start",
    "C125_tail"
   ],
   "note": "The generator is an argument whose draws stay in range. C125_panics and C125_tail are findings: more samples than rows is a panic rather than an error, and left-over rows are never sampled."
  },
  {
   "property": "C126",
   "status": "proved",
   "theorems": [
    "C126_search",
    "C126_rows",
    "C126_error",
    "C126_aggregate",
    "C126_bound"
   ],
   "note": "A search is any sequence of buffer calls that depends on the answers, ending in an output or an error. Latencies, repetitions and the runtime are not modelled; a panic inside a search, which the code turns into an error, is not a search of the model."
  },
  {
   "property": "C127",
   "status": "proved",
   "theorems": [
    "C127_bitmaps",
    "C127_succeeds",
    "C127_types",
    "C127_negation_refuted",
    "C127_order_refuted",
    "C127_largest_refuted"
   ],
   "note": "Refuted parts: a negation skips documents without the field, its result depends on the order of operands when no document has a field, and the largest 64-bit integer passes the check for exact doubles. Errors and the panic on null are one outcome of the model."
  }
 ]
}