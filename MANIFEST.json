{
 "claims": [
  {
   "property": "C01",
   "status": "proved",
   "theorems": [
    "C01_base64_roundtrip"
   ],
   "note": "All byte lists."
  },
  {
   "property": "C02",
   "status": "proved",
   "theorems": [
    "C02_base64_is_rfc",
    "C02_base64_shape",
    "C02_base64_injective",
    "C02_decode_total",
    "C02_decode_prefix"
   ],
   "note": ""
  },
  {
   "property": "C03",
   "status": "proved",
   "theorems": [
    "C03_handle_roundtrip",
    "C03_handle_injective",
    "C03_handle_decode_encode",
    "C03_handle_bound_exact",
    "C03_handle_overflow_refuted"
   ],
   "note": "Both layouts; the bound on ids is shown to be exact and the first overflow is exhibited."
  },
  {
   "property": "C04",
   "status": "proved",
   "theorems": [
    "C04_type_num_inverse",
    "C04_one_type",
    "C04_walk_next",
    "C04_walk_prev",
    "C04_walk_from_none_refuted"
   ],
   "note": "GetNextType started from NONE never returns; walking starts at a type or at LastElementType()."
  },
  {
   "property": "C05",
   "status": "proved",
   "theorems": [
    "C05_markers_distinct",
    "C05_marker_values",
    "C05_release_allows_create"
   ],
   "note": "Shared and private families (one thread each)."
  },
  {
   "property": "C06",
   "status": "proved",
   "theorems": [
    "C06_markers_refine",
    "C06_release_cleans",
    "C06_release_without_cleanup_refuted"
   ],
   "note": "Elements are fixed during the history; markers on the mesh itself are the allocation table."
  },
  {
   "property": "C07",
   "status": "proved",
   "theorems": [
    "C07_array_is_sequence",
    "C07_array_copies",
    "C07_array_constructors",
    "C07_push_own_refuted"
   ],
   "note": ""
  },
  {
   "property": "C08",
   "status": "proved",
   "theorems": [
    "C08_erase_range_effect",
    "C08_erase_range_right",
    "C08_erase_range_refuted",
    "C08_erase_empty_range_refuted"
   ],
   "note": ""
  },
  {
   "property": "C09",
   "status": "proved",
   "theorems": [
    "C09_replace_exact",
    "C09_assign",
    "C09_replace_shrink_refuted"
   ],
   "note": ""
  },
  {
   "property": "C10",
   "status": "proved",
   "theorems": [
    "C10_chunk_is_sequence",
    "C10_addresses_stable",
    "C10_chunk_copies"
   ],
   "note": ""
  },
  {
   "property": "C11",
   "status": "proved",
   "theorems": [
    "C11_interval_refines",
    "C11_interval_made",
    "C11_set_end_effect",
    "C11_interval_copies",
    "C11_fill_own_refuted"
   ],
   "note": ""
  },
  {
   "property": "C12",
   "status": "proved",
   "theorems": [
    "C12_heap_is_priority_queue",
    "C12_drain_sorts"
   ],
   "note": ""
  },
  {
   "property": "C13",
   "status": "proved",
   "theorems": [
    "C13_change_key_lower",
    "C13_change_key_weak_raise",
    "C13_change_key_raise_refuted"
   ],
   "note": ""
  },
  {
   "property": "C14",
   "status": "proved",
   "theorems": [
    "C14_live_elements_distinct"
   ],
   "note": ""
  },
  {
   "property": "C15",
   "status": "proved",
   "theorems": [
    "C15_reorder_empty_compacts"
   ],
   "note": ""
  },
  {
   "property": "C16",
   "status": "proved",
   "theorems": [
    "C16_tags_separate",
    "C16_positions_stable"
   ],
   "note": ""
  },
  {
   "property": "C17",
   "status": "proved",
   "theorems": [
    "C17_tag_registry",
    "C17_create_idempotent"
   ],
   "note": ""
  },
  {
   "property": "C18",
   "status": "proved",
   "theorems": [
    "C18_storage_read_over_write"
   ],
   "note": ""
  },
  {
   "property": "C19",
   "status": "proved",
   "theorems": [
    "C19_sparse_flag_refuted",
    "C19_sparse_flag_whole"
   ],
   "note": ""
  },
  {
   "property": "C20",
   "status": "proved",
   "theorems": [
    "C20_assignment_refuted",
    "C20_copy_ok",
    "C20_assign_criterion"
   ],
   "note": ""
  },
  {
   "property": "C21",
   "status": "proved",
   "theorems": [
    "C21_union",
    "C21_difference_set",
    "C21_difference_array",
    "C21_intersection_set",
    "C21_intersection_array"
   ],
   "note": "Operands are contents with holes; membership of hidden elements in the set operand is ignored by the code and in the statement."
  },
  {
   "property": "C22",
   "status": "proved",
   "theorems": [
    "C22_history",
    "C22_subtract_itself",
    "C22_subtract_itself_marker_refuted"
   ],
   "note": "PutElement of a member and invalid handles excluded; s.Subtract(s) leaves a marker (characterised and refuted)."
  },
  {
   "property": "C23",
   "status": "proved",
   "theorems": [
    "C23_add_elements",
    "C23_repetition_refuted",
    "C23_put_elements",
    "C23_sorted_by_handle",
    "C23_sorted",
    "C23_unite_sets",
    "C23_sorted_loses_refuted",
    "C23_unite_loses_refuted",
    "C23_sorted_repetition_refuted",
    "C23_centroid_loses_refuted"
   ],
   "note": "Positive for distinct inputs in every mode but centroid; six defects refuted."
  },
  {
   "property": "C24",
   "status": "proved",
   "theorems": [
    "C24_sorted_history",
    "C24_remove",
    "C24_after_removal_refuted",
    "C24_added_twice_refuted",
    "C24_unsorted_part_refuted",
    "C24_stale_hole_refuted"
   ],
   "note": "Positive without holes for any strict total order; four defects after removal or in the unsorted part refuted."
  },
  {
   "property": "C25",
   "status": "proved",
   "theorems": [
    "C25_unsorted_loses",
    "C25_unsorted_last",
    "C25_sorted_exact",
    "C25_keeps_members_refuted"
   ],
   "note": "The wished claim is refuted; exact effect proved for both kinds of sets."
  },
  {
   "property": "C26",
   "status": "proved",
   "theorems": [
    "C26_history",
    "C26_rejected",
    "C26_forest",
    "C26_own_child_refuted",
    "C26_reattach",
    "C26_reattach_refuted",
    "C26_ring",
    "C26_delete_tree"
   ],
   "note": "Positive half for every history in which a set removed from in front of a sibling is not attached again before it is re-created; acyclicity under the caller's obligation not to put a set below itself, both with counterexamples when the obligation is dropped."
  },
  {
   "property": "C27",
   "status": "proved",
   "theorems": [
    "C27_unite",
    "C27_subtract",
    "C27_intersect",
    "C27_unite_empty",
    "C27_unite_empty_repetition_refuted",
    "C27_invalid_handle"
   ],
   "note": "Unite on an empty array refuted; invalid handles shown to be undefined behaviour."
  },
  {
   "property": "C28",
   "status": "proved",
   "theorems": [
    "C28_merge_sorted_rows",
    "C28_merge_sorted_hessian_rows",
    "C28_row_access"
   ],
   "note": ""
  },
  {
   "property": "C29",
   "status": "proved",
   "theorems": [
    "C29_merger_accumulates",
    "C29_merge",
    "C29_push_repeated_refuted",
    "C29_push_nonlocal_refuted"
   ],
   "note": ""
  },
  {
   "property": "C30",
   "status": "proved",
   "theorems": [
    "C30_merge_jacobian_hessian",
    "C30_merge_jacobian_one_hessian",
    "C30_one_empty_refuted"
   ],
   "note": ""
  },
  {
   "property": "C31",
   "status": "proved",
   "theorems": [
    "C31_criterion",
    "C31_owner",
    "C31_empty_refuted",
    "C31_past_end_refuted"
   ],
   "note": ""
  },
  {
   "property": "C32",
   "status": "proved",
   "theorems": [
    "C32_round_trip",
    "C32_moved_interval_refuted"
   ],
   "note": ""
  },
  {
   "property": "C33",
   "status": "proved",
   "theorems": [
    "C33_partition",
    "C33_nested_refuted",
    "C33_triple_refuted"
   ],
   "note": ""
  },
  {
   "property": "C34",
   "status": "proved",
   "theorems": [
    "C34_prepare_ok",
    "C34_update",
    "C34_empty_interval_refuted"
   ],
   "note": ""
  },
  {
   "property": "C35",
   "status": "proved",
   "theorems": [
    "C35_memory_is_faithful",
    "C35_header",
    "C35_little_endian_reader",
    "C35_wider_source",
    "C35_big_endian_refuted",
    "C35_read_uint64"
   ],
   "note": "Little-endian reader; big- and middle-endian readers with equal or wider integers refuted (unsigned loop counter never negative)."
  },
  {
   "property": "C36",
   "status": "proved",
   "theorems": [
    "C36_not_wider",
    "C36_wider_refuted"
   ],
   "note": "Equal widths proved; widening refuted."
  },
  {
   "property": "C37",
   "status": "proved",
   "theorems": [
    "C37_split_string",
    "C37_pieces_unique"
   ],
   "note": ""
  },
  {
   "property": "C38",
   "status": "proved",
   "theorems": [
    "C38_sort_handles",
    "C38_invalid_place_refuted",
    "C38_undef_refuted",
    "C38_big_endian_refuted"
   ],
   "note": "Any std::sort; little-endian memory. Position of invalid handles depends on length, ENUMUNDEF is lost, big-endian order wrong (refuted)."
  },
  {
   "property": "C39",
   "status": "proved",
   "theorems": [
    "C39_sort_by_global_id",
    "C39_negative_refuted"
   ],
   "note": "Long arrays sorted stably; negative ids last in long and first in short arrays (refuted)."
  },
  {
   "property": "C40",
   "status": "proved",
   "theorems": [
    "C40_centroid",
    "C40_hierarchy",
    "C40_epsilon_zero",
    "C40_lexicographic",
    "C40_tag",
    "C40_epsilon_cycle_refuted",
    "C40_search_global_id",
    "C40_search_tag",
    "C40_search_centroid",
    "C40_search_invalid_refuted"
   ],
   "note": "Strict weak order exactly when closeness is transitive on the points used (always for epsilon 0); cycle for positive epsilon and search by value over trailing invalid handles refuted."
  },
  {
   "property": "C41",
   "status": "proved",
   "theorems": [
    "C41_forward",
    "C41_number_of",
    "C41_next_handle",
    "C41_next_handle_types"
   ],
   "note": "Hypotheses: the table of the mesh itself holds one entry (made by the constructor); counters of free and hidden elements right for NumberOf."
  },
  {
   "property": "C42",
   "status": "proved",
   "theorems": [
    "C42_step_back",
    "C42_single_type",
    "C42_deleted_first_refuted",
    "C42_type_change_refuted",
    "C42_empty_type_refuted",
    "C42_end_refuted",
    "C42_prev_handle_types",
    "C42_prev_handle_types_mesh",
    "C42_prev_handle",
    "C42_prev_handle_mesh",
    "C42_prev_handle_refuted"
   ],
   "note": "Holds inside one type; six defects refuted with witnesses (first element, type change, empty type, End, nodes, sets)."
  },
  {
   "property": "C43",
   "status": "proved",
   "theorems": [
    "C43_symmetric",
    "C43_destroy",
    "C43_destroy_in_modification"
   ],
   "note": "All histories of creation, Destroy, Delete, Hide, Show and modifications. Destroy removes exactly what is built on the element. During a modification Destroy fails an assertion."
  },
  {
   "property": "C44",
   "status": "proved",
   "theorems": [
    "C44_find",
    "C44_create",
    "C44_no_duplicates",
    "C44_show_refuted"
   ],
   "note": "FindSharedAdjacency exact in both modes (undefined when all arguments are hidden). No duplicates for histories without Hide, Show and SwapModification; refuted with Show. A new element may have a superset of an existing one's lower elements, never a subset."
  },
  {
   "property": "C45",
   "status": "proved",
   "theorems": [
    "C45_delete",
    "C45_delete_all",
    "C45_delete_closed",
    "C45_delete_all_refuted",
    "C45_end",
    "C45_delete_then_end_is_destroy",
    "C45_number_of",
    "C45_number_of_swap_refuted",
    "C45_hide_show",
    "C45_hide_show_reorders",
    "C45_swap"
   ],
   "note": "Exact set hidden by Delete; 'everything built on it' holds when hidden elements are closed upwards and is refuted otherwise. NumberOf is refuted after SwapModification (exact value given)."
  },
  {
   "property": "C46",
   "status": "proved",
   "theorems": [
    "C46_autodiff_exact",
    "C46_get_jacobian_adds",
    "C46_atan2_is_angle",
    "C46_pow_one_at_zero_refuted"
   ],
   "note": "Real arithmetic; both targets (row and merger). pow(x,1) at 0 refuted."
  },
  {
   "property": "C47",
   "status": "proved",
   "theorems": [
    "C47_serial",
    "C47_places",
    "C47_order",
    "C47_repeatable",
    "C47_parallel",
    "C47_registry",
    "C47_inactive",
    "C47_block_exact",
    "C47_missing_data_refuted",
    "C47_no_data",
    "C47_no_data_refuted",
    "C47_status_refuted",
    "C47_multi",
    "C47_copy",
    "C47_copy_refuted"
   ],
   "note": "Proved for entries all of whose components take part (complete): C47_serial, C47_parallel, C47_order, C47_repeatable, C47_registry, C47_inactive. Without completeness the places are still disjoint (C47_places) but the answers collide: C47_missing_data_refuted, C47_no_data_refuted (exact: C47_no_data), C47_status_refuted (StatusBlockEntry), C47_multi (MultiEntry::Index always throws), C47_copy/C47_copy_refuted (copying compacts registration indices). ExchangeData to ghosts is not modelled."
  },
  {
   "property": "C48",
   "status": "proved",
   "theorems": [
    "C48_names",
    "C48_create",
    "C48_sound",
    "C48_duplicate",
    "C48_copy",
    "C48_assign_refuted"
   ],
   "note": "Holds when CreateSetUnique is not called with a name in use; the defects (two sets of one name, copied and assigned meshes) are proved for every state or by witness."
  },
  {
   "property": "C49",
   "status": "proved",
   "theorems": [
    "C49_tag_to_vector_always_out_of_bounds",
    "C49_vector_to_tag",
    "C49_write_loop"
   ],
   "note": "All eight overloads share the code. CopyVector2Tag and the write loop are shown right when the vector is long enough."
  },
  {
   "property": "C50",
   "status": "proved",
   "theorems": [
    "C50_sparse_dropped",
    "C50_kept_refuted",
    "C50_copy"
   ],
   "note": "The property is false of the code; proved: every sparse record of the copy is empty."
  },
  {
   "property": "C51",
   "status": "proved",
   "theorems": [
    "C51_copy",
    "C51_compacted_copy_overlaps",
    "C51_compact_source"
   ],
   "note": "Equivalence of copy and original for all further calls but ReorderEmpty; for ReorderEmpty an exact split: harmless if the source needs no compaction, overlapping elements otherwise."
  },
  {
   "property": "C52",
   "status": "proved",
   "theorems": [
    "C52_hessian_exact",
    "C52_exp_negated_refuted",
    "C52_exp_nested_refuted",
    "C52_log_refuted",
    "C52_reciprocal_refuted",
    "C52_pow_refuted",
    "C52_product_with_constant_refuted",
    "C52_not_implemented"
   ],
   "note": "Exact on the fragment denotes2; six families refuted, eight operations throw."
  },
  {
   "property": "C53",
   "status": "proved",
   "theorems": [
    "C53_accumulate"
   ],
   "note": ""
  },
  {
   "property": "C54",
   "status": "proved",
   "theorems": [
    "C54_matvec"
   ],
   "note": ""
  },
  {
   "property": "C55",
   "status": "proved",
   "theorems": [
    "C55_matvec_transpose"
   ],
   "note": ""
  },
  {
   "property": "C56",
   "status": "proved",
   "theorems": [
    "C56_assignments",
    "C56_self_product_refuted"
   ],
   "note": "All six assignments, both targets; aliasing products refuted."
  },
  {
   "property": "C57",
   "status": "proved",
   "theorems": [
    "C57_single_precision",
    "C57_double_precision",
    "C57_double_bit31_refuted",
    "C57_double_subnormal_refuted",
    "C57_unknown_format_double",
    "C57_unknown_format_single"
   ],
   "note": "Specification is Flocq's IEEE bit layout; double with bit 31 of the low word set and subnormal double refuted."
  },
  {
   "property": "C58",
   "status": "proved",
   "theorems": [
    "C58_sort",
    "C58_sort_global_id",
    "C58_hole_refuted",
    "C58_other_comparator",
    "C58_other_comparator_refuted",
    "C58_sort_after_clear"
   ],
   "note": "std::sort and qsort are any function that sorts; four defects shown."
  },
  {
   "property": "C59",
   "status": "proved",
   "theorems": [
    "C59_solve_least_squares",
    "C59_solve_exact",
    "C59_error_code",
    "C59_invert_right",
    "C59_invert_left",
    "C59_tiny_pivot_refuted"
   ],
   "note": "Exact arithmetic over any ordered field (rationals, reals); the thresholds 1e-54 and 1e-12 are part of the model. Holds for every rank provided the pivots are zero or at least 1e-54; without it refuted (1e-28 x = 1e-28)."
  },
  {
   "property": "C60",
   "status": "proved",
   "theorems": [
    "C60_cholesky_solves",
    "C60_cholesky_reports",
    "C60_cholesky_report_meaning",
    "C60_cholesky_invert"
   ],
   "note": "Exact arithmetic; the square root is any function with sq x * sq x = x, sq x >= 0 for x >= 0. Only the upper triangle of the matrix matters."
  },
  {
   "property": "C61",
   "status": "proved",
   "theorems": [
    "C61_det",
    "C61_reference_is_determinant",
    "C61_det_singular",
    "C61_small_entry_refuted"
   ],
   "note": "Exact arithmetic; reference is the Laplace expansion, shown multilinear, alternating and normalised. Refuted for entries below 1e-13 (diag(1e-14, 1e14))."
  },
  {
   "property": "C62",
   "status": "proved",
   "theorems": [
    "C62_every_entry_readable",
    "C62_transpose",
    "C62_parts_of_concatenation",
    "C62_concatenation_of_parts",
    "C62_block",
    "C62_part_of_part",
    "C62_repack",
    "C62_matrix_order",
    "C62_entrywise",
    "C62_product",
    "C62_transpose_of_product",
    "C62_kronecker"
   ],
   "note": "Entries from an ordered field (no rounding). Views: SubMatrix, BlockOfMatrix, MatrixTranspose, MatrixConcatRows/Cols, MatrixRepack, sums, differences, negation, scaling by value or entry, Kronecker product, matrices by formula; const access."
  },
  {
   "property": "C63",
   "status": "proved",
   "theorems": [
    "C63_write_then_read",
    "C63_writes_one_entry",
    "C63_entries_distinct",
    "C63_block_outside_shared"
   ],
   "note": "Non-const access. Outside of its argument a block hands out one shared static entry (C63_block_outside_shared)."
  },
  {
   "property": "C64",
   "status": "proved",
   "theorems": [
    "C64_assign_matrix",
    "C64_entrywise_in_place",
    "C64_product_in_place",
    "C64_copy_matrix",
    "C64_assign_window",
    "C64_update_window",
    "C64_sizes_checked",
    "C64_apart",
    "C64_overlapping_parts",
    "C64_transpose_in_place",
    "C64_transpose_in_place_refuted",
    "C64_transpose_size_refuted",
    "C64_update_transpose_refuted",
    "C64_divide_by_entry_refuted",
    "C64_multiply_by_entry_refuted",
    "C64_shift_down_refuted",
    "C64_shrink_in_place_refuted",
    "C64_named_part_rebinds_refuted"
   ],
   "note": "General theorem with a semantic no-overtaking condition, corollaries for separate matrices, entrywise expressions, products and overlapping parts; theorems named _refuted say exactly what A = A^T, A += A^T, A = A*A(r,c), A = A/A(r,c), moving rows down, shrinking in place and named sub-matrices compute instead."
  },
  {
   "property": "C65",
   "status": "proved",
   "theorems": [
    "C65_remove_rows",
    "C65_remove_row",
    "C65_remove_columns",
    "C65_remove_subset",
    "C65_symmetric_places",
    "C65_symmetric_write",
    "C65_symmetric_from"
   ],
   "note": "RemoveRow(s), RemoveColumns, RemoveSubset of Matrix; packed storage of SymmetricMatrix."
  },
  {
   "property": "C66",
   "status": "proved",
   "theorems": [
    "C66_cross_product",
    "C66_transform_maps",
    "C66_transform_rotation",
    "C66_transform_axis",
    "C66_opposite_divides_by_zero"
   ],
   "note": "Over the reals, no rounding. Opposite vectors divide by zero (C66_opposite_divides_by_zero)."
  },
  {
   "property": "C67",
   "status": "proved",
   "theorems": [
    "C67_messages_cover_buffer",
    "C67_each_buffer_unpacked_once",
    "C67_long_buffer_never_unpacked_refuted",
    "C67_receives_match_sends",
    "C67_message_tags_distinct",
    "C67_message_tag_range"
   ],
   "note": "Messages up to INT_MAX bytes are proved right for every arrival order; longer buffers are proved never to be unpacked (or cause an out-of-range write), for every arrival order. Tags overflow int from 1466 processors."
  },
  {
   "property": "C68",
   "status": "proved",
   "theorems": [
    "C68_sources_found",
    "C68_window_finds_the_same",
    "C68_window_sizes",
    "C68_window_loses_buffer_refuted"
   ],
   "note": "The one-sided variant is proved equal under one buffer per destination; it loses a buffer otherwise (witness)."
  },
  {
   "property": "C69",
   "status": "proved",
   "theorems": [
    "C69_array_roundtrip",
    "C69_vector_roundtrip",
    "C69_bytes_independent_of_limit",
    "C69_sizes_exact"
   ],
   "note": "MPI_Pack is modelled as copying bytes; the element width must not exceed the message limit."
  },
  {
   "property": "C70",
   "status": "proved",
   "theorems": [
    "C70_pack_succeeds",
    "C70_message_roundtrip",
    "C70_tag_after"
   ],
   "note": "Proved for an arbitrary operation and receiver state; the format is little endian, message length must fit size_t."
  },
  {
   "property": "C71",
   "status": "proved",
   "theorems": [
    "C71_exchange",
    "C71_agrees_iff",
    "C71_ghost_equals_owner_refuted",
    "C71_remote_reference_refuted",
    "C71_sparse_mismatch_refuted"
   ],
   "note": "Full description proved. 'A ghost holds what its owner holds' is refuted with its exact condition: absent or empty owner data is not propagated. Remote reference tags desynchronise the message (proved for all messages); sparse/dense disagreement misplaces data (witness)."
  },
  {
   "property": "C72",
   "status": "proved",
   "theorems": [
    "C72_receive_buffer"
   ],
   "note": "For tags of a fixed size holding reals, integers or bytes; the other kinds ask the sender for the size (C68)."
  },
  {
   "property": "C73",
   "status": "proved",
   "theorems": [
    "C73_exchange",
    "C73_lists_match",
    "C73_idempotent"
   ],
   "note": "Messages are modelled as lists of per-element data; the byte level is C69-C72. One element type, no selection marker, no reference tags."
  },
  {
   "property": "C74",
   "status": "proved",
   "theorems": [
    "C74_reduce",
    "C74_order_free",
    "C74_accumulate",
    "C74_order_matters_refuted"
   ],
   "note": "The user operation is any function of the old and the received data of one element."
  },
  {
   "property": "C75",
   "status": "proved",
   "theorems": [
    "C75_sync_marker",
    "C75_private",
    "C75_and_is_owner",
    "C75_and_refuted"
   ],
   "note": "SYNC_BIT_AND refuted with a witness; exact characterisation proved."
  },
  {
   "property": "C76",
   "status": "proved",
   "theorems": [
    "C76_enumerate",
    "C76_order"
   ],
   "note": "Numbers are unbounded integers (32-bit overflow not modelled)."
  },
  {
   "property": "C77",
   "status": "proved",
   "theorems": [
    "C77_global_id",
    "C77_storage"
   ],
   "note": "Parallel branch; numbers unbounded."
  },
  {
   "property": "C78",
   "status": "proved",
   "theorems": [
    "C78_find",
    "C78_reference"
   ],
   "note": ""
  },
  {
   "property": "C79",
   "status": "proved",
   "theorems": [
    "C79_total",
    "C79_integrate"
   ],
   "note": "Exact arithmetic in place of floating point for Integrate."
  },
  {
   "property": "C80",
   "status": "proved",
   "theorems": [
    "C80_build_total",
    "C80_search_sound",
    "C80_search_complete",
    "C80_search_float",
    "C80_far_refuted",
    "C80_hull_spanned"
   ],
   "note": "The tree is modelled exactly for every permutation produced by the sort; Cell::Inside is a parameter. For coordinates above about 16000 the float copies of the boxes can be off by more than the margin and a cell is missed (C80_far_refuted)."
  },
  {
   "property": "C81",
   "status": "proved",
   "theorems": [
    "C81_only_hits",
    "C81_segment_exact",
    "C81_segment_float",
    "C81_cells_exact",
    "C81_faces_exact",
    "C81_faces_mixed_refuted"
   ],
   "note": "Element test is a parameter (see C84). Faces of a mixed set are reported twice (C81_faces_mixed_refuted)."
  },
  {
   "property": "C82",
   "status": "proved",
   "theorems": [
    "C82_sphere_exact",
    "C82_sphere_float_refuted"
   ],
   "note": "The box test has no margin, so rounding of boxes to float loses elements (C82_sphere_float_refuted); exact for representable coordinates."
  },
  {
   "property": "C83",
   "status": "proved",
   "theorems": [
    "C83_segment_distance",
    "C83_triangle_distance",
    "C83_degenerate_line",
    "C83_degenerate_refuted",
    "C83_sphere_tri",
    "C83_sphere_face",
    "C83_sphere_cell",
    "C83_ball_inside_refuted"
   ],
   "note": "Over the reals. Degenerate triangles: exact unless the point lies on their line, where 0 is returned (refuted). Balls inside a cell do not count (refuted)."
  },
  {
   "property": "C84",
   "status": "proved",
   "theorems": [
    "C84_segment_tri_iff",
    "C84_segment_tri_complete",
    "C84_segment_tri_sound",
    "C84_tiny_refuted",
    "C84_coplanar_refuted",
    "C84_segment_face_complete",
    "C84_segment_cell_complete",
    "C84_segment_cell_sound",
    "C84_segment_inside_refuted"
   ],
   "note": "Over the reals. Exact characterisation with tolerances; tiny triangles, coplanar segments and segments inside a cell are missed (refuted)."
  },
  {
   "property": "C85",
   "status": "proved",
   "theorems": [
    "C85_radix_total",
    "C85_radix_permutation",
    "C85_radix_ordered",
    "C85_radix_stable"
   ],
   "note": "Exact on bit patterns, with wrap-around of unsigned counters."
  },
  {
   "property": "C86",
   "status": "proved",
   "theorems": [
    "C86_nodes",
    "C86_nodes_visible",
    "C86_nodes_edges",
    "C86_mask",
    "C86_mask_visible",
    "C86_mask_hidden_refuted"
   ],
   "note": "Masked request during modification: exact when the first edge is visible (and the last one for a private mask), otherwise wrong nodes (C86_mask_hidden_refuted)."
  },
  {
   "property": "C87",
   "status": "proved",
   "theorems": [
    "C87_terminates",
    "C87_permutes",
    "C87_sound",
    "C87_complete",
    "C87_cell_refuted",
    "C87_visible",
    "C87_visible_refuted"
   ],
   "note": "Face: full. Cell::FixEdgeOrder does not end on some inputs (C87_cell_refuted). During modification the model covers calls that need no swap; a hidden last edge makes an ordered loop be refused (C87_visible_refuted)."
  },
  {
   "property": "C88",
   "status": "proved",
   "theorems": [
    "C88_accepts",
    "C88_exact",
    "C88_accepts_visible",
    "C88_check_refuted"
   ],
   "note": "The closing edge is not checked and a hidden first edge breaks the check (C88_check_refuted); C88_exact says exactly what is checked."
  },
  {
   "property": "C89",
   "status": "proved",
   "theorems": [
    "C89_reorder",
    "C89_reorder_twice",
    "C89_back_front",
    "C89_swap",
    "C89_ends",
    "C89_ends_refuted"
   ],
   "note": "getEnd reads outside of the array if all nodes of the edge are hidden (C89_ends_refuted)."
  },
  {
   "property": "C90",
   "status": "proved",
   "theorems": [
    "C90_exact",
    "C90_once",
    "C90_mask",
    "C90_count",
    "C90_markers",
    "C90_repeated_refuted"
   ],
   "note": "An element made from a repeated element returns it twice (C90_repeated_refuted); otherwise full."
  },
  {
   "property": "C91",
   "status": "proved",
   "theorems": [
    "C91_symmetric"
   ],
   "note": ""
  },
  {
   "property": "C92",
   "status": "proved",
   "theorems": [
    "C92_face_nodes",
    "C92_cell2_nodes",
    "C92_cell2_mask",
    "C92_cell2_mask_refuted",
    "C92_cell2_edges",
    "C92_cell2_edges_visible",
    "C92_cell2_edges_refuted"
   ],
   "note": "Masked nodes of a cell of dimension two test the mask on vertex edges, not on nodes (C92_cell2_mask_refuted); edges of such a cell are wrong if its first face is hidden (C92_cell2_edges_refuted)."
  },
  {
   "property": "C93",
   "status": "proved",
   "theorems": [
    "C93_exact",
    "C93_once",
    "C93_mutual"
   ],
   "note": ""
  },
  {
   "property": "C94",
   "status": "proved",
   "theorems": [
    "C94_shoelace",
    "C94_start_and_direction",
    "C94_area_is_length_of_normal",
    "C94_triangle",
    "C94_edge",
    "C94_closed_surface"
   ],
   "note": "Over real numbers, without rounding."
  },
  {
   "property": "C95",
   "status": "proved",
   "theorems": [
    "C95_center_of_mass",
    "C95_start_and_direction",
    "C95_in_plane",
    "C95_triangle"
   ],
   "note": "Over real numbers; planar faces with nonzero area (a triangle without area included)."
  },
  {
   "property": "C96",
   "status": "proved",
   "theorems": [
    "C96_translation",
    "C96_exact",
    "C96_global_direction",
    "C96_additive",
    "C96_tetrahedron"
   ],
   "note": "Over real numbers; exactness for planar faces, translation invariance for any faces. The orientation of the faces is a hypothesis (closed)."
  },
  {
   "property": "C97",
   "status": "proved",
   "theorems": [
    "C97_center_of_mass",
    "C97_apex",
    "C97_tetrahedron",
    "C97_translation"
   ],
   "note": "Over real numbers; planar faces. The orientation of the faces is a hypothesis (closed)."
  },
  {
   "property": "C98",
   "status": "proved",
   "theorems": [
    "C98_term",
    "C98_answer",
    "C98_inner_side",
    "C98_polygon",
    "C98_dimension_two_refuted"
   ],
   "note": "Over real numbers. In meshes of dimension two the test accepts every point (C98_dimension_two_refuted)."
  },
  {
   "property": "C99",
   "status": "proved",
   "theorems": [
    "C99_orientation",
    "C99_closes_the_cell",
    "C99_unique",
    "C99_volume"
   ],
   "note": "The search without precomputed orientation; over real numbers for the volume."
  },
  {
   "property": "C100",
   "status": "proved",
   "theorems": [
    "C100_convexity",
    "C100_tolerance",
    "C100_marks"
   ],
   "note": "Over real numbers; the test for convexity of the centroids of the faces, as the code has it."
  },
  {
   "property": "C101",
   "status": "proved",
   "theorems": [
    "C101_check",
    "C101_fix"
   ],
   "note": "The branch for cells that are not convex; over real numbers, planar faces. SwapCells is not modelled."
  },
  {
   "property": "C102",
   "status": "proved",
   "theorems": [
    "C102_inside_marks",
    "C102_all_neighbours",
    "C102_inside_refuted"
   ],
   "note": "The orientation found by Cell::Inside is wrong for faces that do not touch the first one (C102_inside_refuted)."
  },
  {
   "property": "C103",
   "status": "proved",
   "theorems": [
    "C103_matrix_restored",
    "C103_weights_positive",
    "C103_unit_rows",
    "C103_no_iterations_refuted"
   ],
   "note": "One process, over real numbers. For zero iterations the column weights are zero (C103_no_iterations_refuted)."
  },
  {
   "property": "C104",
   "status": "proved",
   "theorems": [
    "C104_factorization",
    "C104_total"
   ],
   "note": "One process, over real numbers; LFILL and DIAGONAL_PERTURBATION not defined."
  },
  {
   "property": "C105",
   "status": "proved",
   "theorems": [
    "C105_solve",
    "C105_linear",
    "C105_invertible",
    "C105_exact"
   ],
   "note": "One process, over real numbers."
  },
  {
   "property": "C106",
   "status": "proved",
   "theorems": [
    "C106_residual",
    "C106_iterations",
    "C106_exact_start_refuted"
   ],
   "note": "One process, over real numbers, arbitrary preconditioner and random numbers. An exact initial vector with zero absolute tolerance is answered with false (C106_exact_start_refuted)."
  },
  {
   "property": "C107",
   "status": "proved",
   "theorems": [
    "C107_exact",
    "C107_step",
    "C107_limit_refuted",
    "C107_zero_tolerance_refuted",
    "C107_ilu2"
   ],
   "note": "One process, over real numbers. The limit of iterations is exceeded by one (C107_limit_refuted); with zero tolerances the loop does not end after the solution was found (C107_zero_tolerance_refuted)."
  },
  {
   "property": "C108",
   "status": "proved",
   "theorems": [
    "C108_roundtrip",
    "C108_value_exact",
    "C108_value_error",
    "C108_value_refuted",
    "C108_not_finite_refuted",
    "C108_offset",
    "C108_offset_refuted"
   ],
   "note": "C108_value_refuted: precision(15) in scientific notation prints 16 digits, one less than a double needs. C108_offset_refuted: the header holds Size() as number of rows, so without explicit interval the last rows of a matrix that does not start at zero are lost. C108_not_finite_refuted: inf and nan are loaded as zero."
  },
  {
   "property": "C109",
   "status": "proved",
   "theorems": [
    "C109_overlay",
    "C109_last_line_refuted",
    "C109_long_annotation_refuted",
    "C109_line_end_refuted"
   ],
   "note": "Three refutations: the text after the last line end is ignored; an annotation of more than 16381 characters makes Load loop forever; an annotation with a line end may become an element."
  },
  {
   "property": "C110",
   "status": "proved",
   "theorems": [
    "C110_partition",
    "C110_parallel",
    "C110_gather_refuted",
    "C110_order"
   ],
   "note": "C110_gather_refuted: with MPI but without MPI files process 0 receives into the wrong string, past its end, unless all other processes have nothing to write."
  },
  {
   "property": "C111",
   "status": "proved",
   "theorems": [
    "C111_roundtrip",
    "C111_interval"
   ],
   "note": "Vector::Save and Vector::Load."
  },
  {
   "property": "C112",
   "status": "proved",
   "theorems": [
    "C112_transversal_found",
    "C112_scaling",
    "C112_maximum_product",
    "C112_maximum_relative_product"
   ],
   "note": "Exact real arithmetic. C112_transversal_found includes that no assertion fails and no undefined index is used."
  },
  {
   "property": "C113",
   "status": "proved",
   "theorems": [
    "C113_plain_product_refuted",
    "C113_stored_zeros_refuted",
    "C113_singular_scaling_refuted"
   ],
   "note": "Three refutations of what one might expect. The third one: columns reached by a failed search stay marked and are ignored by later searches, the code only prints a message."
  },
  {
   "property": "C114",
   "status": "proved",
   "theorems": [
    "C114_product",
    "C114_product_into_empty",
    "C114_transposed_product",
    "C114_adjoint",
    "C114_transposed_into_empty_refuted",
    "C114_transposed_into_empty"
   ],
   "note": "Exact real arithmetic, one thread. C114_transposed_into_empty_refuted: an empty result of the transposed product gets the wrong interval; C114_transposed_into_empty says exactly when it succeeds and what it is then."
  },
  {
   "property": "C115",
   "status": "proved",
   "theorems": [
    "C115_rescale",
    "C115_same_solutions",
    "C115_rescale_p0_refuted",
    "C115_clear",
    "C115_norm_zero",
    "C115_norm_square",
    "C115_hessian_interval_refuted"
   ],
   "note": "Exact real arithmetic; pow(x,1.0/p) is the real root. C115_rescale_p0_refuted: p = 0 turns an equation in two unknowns into 0 = 0. C115_hessian_interval_refuted: the intervals have to agree."
  },
  {
   "property": "C116",
   "status": "proved",
   "theorems": [
    "C116_move_rows",
    "C116_direction_refuted",
    "C116_overlap_refuted"
   ],
   "note": "C116_direction_refuted and C116_overlap_refuted: the function copies from [to] into [from], and smears rows if the ranges meet and [from] precedes [to]."
  },
  {
   "property": "C117",
   "status": "proved",
   "theorems": [
    "C117_hessian_product_exact",
    "C117_hessian_product",
    "C117_drops_refuted",
    "C117_not_scaled_refuted",
    "C117_outside_refuted"
   ],
   "note": "C117_hessian_product_exact covers all sizes; it is the product only if the row, the result and the hessian hold equally many entries, and the refutations show what happens otherwise."
  },
  {
   "property": "C118",
   "status": "proved",
   "theorems": [
    "C118_value",
    "C118_error",
    "C118_minus_after_parenthesis_refuted",
    "C118_sign_after_operation_refuted",
    "C118_tilde",
    "C118_malformed_accepted_refuted",
    "C118_value_with_error_refuted",
    "C118_space_refuted",
    "C118_exponent_refuted"
   ],
   "note": "Over any number type. C118_value is for texts of expression trees by the usual rules except a subtraction directly after a closing parenthesis, which C118_minus_after_parenthesis_refuted shows to fail; further refutations: a minus after an operation, spaces before parentheses, signed exponents, malformed text that is accepted, a value returned with an error."
  },
  {
   "property": "C119",
   "status": "proved",
   "theorems": [
    "C119_multiplier",
    "C119_no_multiplier"
   ],
   "note": "The multiplier with SetSize; the conversion of a number to int is a parameter."
  },
  {
   "property": "C120",
   "status": "proved",
   "theorems": [
    "C120_words",
    "C120_cut_off",
    "C120_last_word_refuted",
    "C120_brackets_refuted",
    "C120_nested_refuted",
    "C120_backslash_refuted"
   ],
   "note": "Refuted for: a value directly before the end mark, a third bracket, parentheses inside of a number of repetitions, quoted text ending with a backslash."
  },
  {
   "property": "C121",
   "status": "proved",
   "theorems": [
    "C121_one_value",
    "C121_braces",
    "C121_fixed",
    "C121_variable",
    "C121_no_braces_refuted",
    "C121_too_many_refuted",
    "C121_star_in_quotes_refuted",
    "C121_open_brace_refuted"
   ],
   "note": "Generic in the kind of data. Refuted: values of larger records without braces, too many values, a star in quoted text, open braces."
  },
  {
   "property": "C122",
   "status": "proved",
   "theorems": [
    "C122_variable",
    "C122_fixed",
    "C122_sparse",
    "C122_integers",
    "C122_bytes",
    "C122_references"
   ],
   "note": "Generic theorems plus integers, bytes and references; for real numbers see C125, for variables and remote references C124. Overflow of int is not modelled. An empty sparse record is not kept (part of the statement)."
  },
  {
   "property": "C123",
   "status": "proved",
   "theorems": [
    "C123_reference",
    "C123_invalid_refuted",
    "C123_mesh_refuted",
    "C123_set_name",
    "C123_quoted_set_name_refuted"
   ],
   "note": "C123_invalid_refuted: an invalid reference becomes a reference to the first node."
  },
  {
   "property": "C124",
   "status": "proved",
   "theorems": [
    "C124_variable",
    "C124_derivatives_refuted",
    "C124_remote_refuted"
   ],
   "note": "The positive part says exactly which derivatives end up where; the refutations say that derivatives and types of remote references are lost for all inputs."
  },
  {
   "property": "C125",
   "status": "proved",
   "theorems": [
    "C125_six_digits",
    "C125_error",
    "C125_coordinates_refuted"
   ],
   "note": "The text of a real number is not modelled, only its value (six digits). C125_coordinates_refuted: points four meters apart become one."
  },
  {
   "property": "C126",
   "status": "proved",
   "theorems": [
    "C126_round_trip",
    "C126_end_mark_refuted",
    "C126_underscore_refuted",
    "C126_value_refuted",
    "C126_stub_root_refuted"
   ],
   "note": "Refuted for: contents with the end mark of data blocks, names that start with an underscore, values that are not printable ASCII. A root without contents gives the right tree but a failed reader."
  },
  {
   "property": "C127",
   "status": "proved",
   "theorems": [
    "C127_documents",
    "C127_stable",
    "C127_text_after_comment_refuted",
    "C127_end_tag_space_refuted",
    "C127_unquoted_refuted",
    "C127_doctype_refuted"
   ],
   "note": "Refuted: text after a comment, a space in an end tag, a value without double quotes before the end of the tag, document types."
  },
  {
   "property": "C128",
   "status": "proved",
   "theorems": [
    "C128_ends",
    "C128_truncated_refuted",
    "C128_self_include_refuted"
   ],
   "note": "Termination for files that include no others. Refuted: exception for truncated data blocks, endless reading of a file that includes itself."
  },
  {
   "property": "C129",
   "status": "proved",
   "theorems": [
    "C129_cut_off",
    "C129_prefix",
    "C129_mismatch_refuted",
    "C129_bad_attribute_refuted"
   ],
   "note": "Truncation is always noticed. Refuted: wrong end tags and some bad attributes leave no trace in the state of the reader."
  },
  {
   "property": "C130",
   "status": "proved",
   "theorems": [
    "C130_destinations"
   ],
   "note": ""
  },
  {
   "property": "C131",
   "status": "proved",
   "theorems": [
    "C131_sequential",
    "C131_determined"
   ],
   "note": ""
  },
  {
   "property": "C132",
   "status": "proved",
   "theorems": [
    "C132_idle_for_ever",
    "C132_every_process_refuted"
   ],
   "note": "Claim that every process gets a cell is refuted for INNER_KMEANS; the condition for idleness is proved. INNER_SKMEANS is C134."
  },
  {
   "property": "C133",
   "status": "proved",
   "theorems": [
    "C133_not_worse",
    "C133_round"
   ],
   "note": "Exact arithmetic."
  },
  {
   "property": "C134",
   "status": "proved",
   "theorems": [
    "C134_every_process",
    "C134_sequential"
   ],
   "note": ""
  },
  {
   "property": "C135",
   "status": "proved",
   "theorems": [
    "C135_interpolates",
    "C135_exact",
    "C135_held_above_refuted"
   ],
   "note": "Exact arithmetic. Claim that the value is held beyond the last argument refuted."
  },
  {
   "property": "C136",
   "status": "proved",
   "theorems": [
    "C136_derivative",
    "C136_both",
    "C136_increment"
   ],
   "note": ""
  },
  {
   "property": "C137",
   "status": "proved",
   "theorems": [
    "C137_monotone",
    "C137_bounded"
   ],
   "note": ""
  },
  {
   "property": "C138",
   "status": "proved",
   "theorems": [
    "C138_single_entry_refuted",
    "C138_empty",
    "C138_assign",
    "C138_self_assign_refuted"
   ],
   "note": "Self-assignment and tables with one entry are refutations."
  },
  {
   "property": "C139",
   "status": "proved",
   "theorems": [
    "C139_range",
    "C139_overrun_refuted",
    "C139_tenths_refuted"
   ],
   "note": "Ranges that are not whole multiples of the step, and 0 to 1 by 0.1 in doubles, are refutations."
  },
  {
   "property": "C140",
   "status": "proved",
   "theorems": [
    "C140_closest",
    "C140_itself"
   ],
   "note": ""
  },
  {
   "property": "C141",
   "status": "proved",
   "theorems": [
    "C141_buffer",
    "C141_zero_capacity_refuted",
    "C141_last_successful",
    "C141_successful",
    "C141_unique",
    "C141_one_more_refuted"
   ],
   "note": "Capacity zero and the bound on the number of unique entries are refutations."
  },
  {
   "property": "C142",
   "status": "proved",
   "theorems": [
    "C142_one_change",
    "C142_types",
    "C142_repeated_refuted",
    "C142_noop",
    "C142_alternating",
    "C142_annealing"
   ],
   "note": "Annealing: for suggestions that exist (the drawing loop ends)."
  },
  {
   "property": "C143",
   "status": "proved",
   "theorems": [
    "C143_noop",
    "C143_alternating",
    "C143_small_buffer_refuted",
    "C143_removed_refuted",
    "C143_bad_adopted_refuted"
   ],
   "note": "Small buffers and restarts with results reported as bad are refutations."
  },
  {
   "property": "C144",
   "status": "proved",
   "theorems": [
    "C144_never_fails",
    "C144_turns",
    "C144_two_values_refuted"
   ],
   "note": "Progress after bad results and for two-valued parameters refuted."
  },
  {
   "property": "C145",
   "status": "proved",
   "theorems": [
    "C145_only_improves",
    "C145_restart_refuted"
   ],
   "note": "Without restarts; with restarts refuted."
  },
  {
   "property": "C146",
   "status": "proved",
   "theorems": [
    "C146_range",
    "C146_step",
    "C146_stuck_refuted",
    "C146_single_value_refuted"
   ],
   "note": "Random numbers, temperature and acceptance are arbitrary functions. Stuck at the ends with strict bounds and single values are refutations."
  },
  {
   "property": "C147",
   "status": "proved",
   "theorems": [
    "C147_saved",
    "C147_unknown_type_refuted",
    "C147_no_parameters"
   ],
   "note": "Unknown types replacing the saved optimizer by null is a refutation."
  },
  {
   "property": "C148",
   "status": "proved",
   "theorems": [
    "C148_symmetric"
   ],
   "note": ""
  },
  {
   "property": "C149",
   "status": "proved",
   "theorems": [
    "C149_disconnect",
    "C149_connect",
    "C149_face_order",
    "C149_refused"
   ],
   "note": ""
  },
  {
   "property": "C150",
   "status": "proved",
   "theorems": [
    "C150_disconnect",
    "C150_connect"
   ],
   "note": ""
  },
  {
   "property": "C151",
   "status": "proved",
   "theorems": [
    "C151_no_new_nodes_refuted",
    "C151_set_as_node_refuted",
    "C151_third_node_refuted"
   ],
   "note": ""
  },
  {
   "property": "C152",
   "status": "proved",
   "theorems": [
    "C152_found_iff_added",
    "C152_names_in_order",
    "C152_entries_found_iff_added",
    "C152_refused",
    "C152_entry_places",
    "C152_scalar_names_refuted",
    "C152_scalar_names"
   ],
   "note": ""
  },
  {
   "property": "C153",
   "status": "proved",
   "theorems": [
    "C153_checked_never",
    "C153_add_refuted",
    "C153_found_unchecked",
    "C153_search_defined",
    "C153_unknown_names_refuted",
    "C153_unknown_names",
    "C153_term_before_submodel_refuted"
   ],
   "note": ""
  },
  {
   "property": "C154",
   "status": "proved",
   "theorems": [
    "C154_initialize",
    "C154_prepare_entries",
    "C154_prepare_iterations",
    "C154_time_step",
    "C154_fill_residual",
    "C154_update_solution",
    "C154_success_is_all",
    "C154_active_submodels",
    "C154_terms_of_inactive_refuted",
    "C154_term_order_refuted",
    "C154_initialize_again_refuted",
    "C154_closed_after_initialize"
   ],
   "note": ""
  },
  {
   "property": "C155",
   "status": "proved",
   "theorems": [
    "C155_multiplier_least",
    "C155_time_step_least",
    "C155_toggle_defined",
    "C155_toggle",
    "C155_toggle_refuted"
   ],
   "note": ""
  },
  {
   "property": "C156",
   "status": "proved",
   "theorems": [
    "C156_references",
    "C156_none_left"
   ],
   "note": ""
  },
  {
   "property": "C157",
   "status": "proved",
   "theorems": [
    "C157_hierarchy",
    "C157_after_delete_set",
    "C157_marked_child_refuted",
    "C157_marked_child_order",
    "C157_former_sibling_refuted",
    "C157_orphans_refuted"
   ],
   "note": ""
  },
  {
   "property": "C158",
   "status": "proved",
   "theorems": [
    "C158_elements",
    "C158_members"
   ],
   "note": ""
  },
  {
   "property": "C159",
   "status": "proved",
   "theorems": [
    "C159_loops",
    "C159_twice_refuted"
   ],
   "note": ""
  },
  {
   "property": "C160",
   "status": "proved",
   "theorems": [
    "C160_complete",
    "C160_maximal",
    "C160_rested",
    "C160_faces_refuted"
   ],
   "note": ""
  },
  {
   "property": "C161",
   "status": "proved",
   "theorems": [
    "C161_shortest",
    "C161_shortest_refuted"
   ],
   "note": ""
  },
  {
   "property": "C162",
   "status": "proved",
   "theorems": [
    "C162_numbers",
    "C162_parts",
    "C162_idle",
    "C162_idle_refuted"
   ],
   "note": ""
  },
  {
   "property": "C163",
   "status": "proved",
   "theorems": [
    "C163_order",
    "C163_pieces",
    "C163_joined",
    "C163_connected_refuted"
   ],
   "note": ""
  },
  {
   "property": "C164",
   "status": "proved",
   "theorems": [
    "C164_levels",
    "C164_one"
   ],
   "note": ""
  },
  {
   "property": "C165",
   "status": "proved",
   "theorems": [
    "C165_get",
    "C165_get_refuted",
    "C165_solve",
    "C165_ignored",
    "C165_accepted_refuted",
    "C165_meaning"
   ],
   "note": ""
  },
  {
   "property": "C166",
   "status": "proved",
   "theorems": [
    "C166_last",
    "C166_parse",
    "C166_values",
    "C166_available",
    "C166_prefix",
    "C166_case_refuted",
    "C166_name",
    "C166_name_refuted",
    "C166_file"
   ],
   "note": ""
  },
  {
   "property": "C167",
   "status": "proved",
   "theorems": [
    "C167_solve",
    "C167_crash",
    "C167_clear_refuted",
    "C167_interval_refuted"
   ],
   "note": ""
  },
  {
   "property": "C168",
   "status": "proved",
   "theorems": [
    "C168_copy",
    "C168_kept",
    "C168_assign_refuted",
    "C168_communicator"
   ],
   "note": ""
  },
  {
   "property": "C169",
   "status": "proved",
   "theorems": [
    "C169_distances"
   ],
   "note": ""
  },
  {
   "property": "C170",
   "status": "proved",
   "theorems": [
    "C170_owners",
    "C170_idle_refuted"
   ],
   "note": ""
  },
  {
   "property": "C171",
   "status": "proved",
   "theorems": [
    "C171_lower",
    "C171_all"
   ],
   "note": ""
  },
  {
   "property": "C172",
   "status": "proved",
   "theorems": [
    "C172_get",
    "C172_last",
    "C172_tags"
   ],
   "note": ""
  },
  {
   "property": "C173",
   "status": "proved",
   "theorems": [
    "C173_load",
    "C173_save",
    "C173_replace"
   ],
   "note": ""
  },
  {
   "property": "C174",
   "status": "proved",
   "theorems": [
    "C174_single",
    "C174_unknown",
    "C174_same",
    "C174_same_refuted",
    "C174_gmv_refuted",
    "C174_case"
   ],
   "note": ""
  },
  {
   "property": "C175",
   "status": "proved",
   "theorems": [
    "C175_rescale",
    "C175_solutions",
    "C175_unit",
    "C175_twice",
    "C175_zero_refuted"
   ],
   "note": "Extends C115: rescaling twice, every row with p = 0, value of second order equations."
  },
  {
   "property": "C176",
   "status": "proved",
   "theorems": [
    "C176_norm",
    "C176_partition",
    "C176_zero",
    "C176_bound",
    "C176_clear"
   ],
   "note": "Extends C115: independence of the partition to processes and bounds."
  },
  {
   "property": "C177",
   "status": "proved",
   "theorems": [
    "C177_restore",
    "C177_wedge",
    "C177_wedge_refuted"
   ],
   "note": ""
  },
  {
   "property": "C178",
   "status": "proved",
   "theorems": [
    "C178_load",
    "C178_voxel",
    "C178_closed"
   ],
   "note": ""
  },
  {
   "property": "C179",
   "status": "proved",
   "theorems": [
    "C179_cells",
    "C179_sizes"
   ],
   "note": ""
  },
  {
   "property": "C180",
   "status": "proved",
   "theorems": [
    "C180_shape",
    "C180_hex",
    "C180_known",
    "C180_missing",
    "C180_hex_refuted",
    "C180_restored",
    "C180_face"
   ],
   "note": ""
  },
  {
   "property": "C181",
   "status": "proved",
   "theorems": [
    "C181_coords",
    "C181_refused",
    "C181_there_and_back",
    "C181_name_refuted",
    "C181_user_refuted"
   ],
   "note": ""
  },
  {
   "property": "C182",
   "status": "proved",
   "theorems": [
    "C182_interval",
    "C182_all_processes",
    "C182_second_time",
    "C182_header",
    "C182_bounds",
    "C182_both_orders_refuted",
    "C182_offset_refuted"
   ],
   "note": ""
  }
 ]
}