{
 "claims": [
  {
   "property": "C01",
   "status": "proved",
   "theorems": [
    "C01_deque_refines_queue",
    "C01_deque_unbounded_queue_refuted"
   ],
   "note": "The refuted theorem is the witness that push_back on a full, rotated deque is undefined."
  },
  {
   "property": "C02",
   "status": "proved",
   "theorems": [
    "C02_deque_within_capacity",
    "C02_deque_grow_at_front",
    "C02_deque_stack_use",
    "C02_deque_clear"
   ],
   "note": ""
  },
  {
   "property": "C03",
   "status": "proved",
   "theorems": [
    "C03_const_back_full",
    "C03_const_back_stale",
    "C03_const_back_refuted",
    "C03_reserve_unwrapped",
    "C03_reserve_wrapped_refuted"
   ],
   "note": ""
  },
  {
   "property": "C04",
   "status": "proved",
   "theorems": [
    "C04_flat_map_refines"
   ],
   "note": ""
  },
  {
   "property": "C05",
   "status": "proved",
   "theorems": [
    "C05_factory_last_registration"
   ],
   "note": ""
  },
  {
   "property": "C06",
   "status": "proved",
   "theorems": [
    "C06_sorted_vector_insert_all",
    "C06_sorted_vector_insert_position",
    "C06_sorted_vector_erase"
   ],
   "note": ""
  },
  {
   "property": "C07",
   "status": "proved",
   "theorems": [
    "C07_header_refines",
    "C07_set_law",
    "C07_set_throws",
    "C07_header_consistent_refuted",
    "C07_labels_constructor_finds_nothing"
   ],
   "note": ""
  },
  {
   "property": "C08",
   "status": "proved",
   "theorems": [
    "C08_resize"
   ],
   "note": "Hypothesis |data| = frames*channels holds for every storage reachable through the API (conclusion of C09_storage_refines, C08, C10)."
  },
  {
   "property": "C09",
   "status": "proved",
   "theorems": [
    "C09_storage_refines"
   ],
   "note": "Out of contract (no claim): unchecked operator() out of range, get_label out of range, set_label of a channel other than the unnamed last one (see C07_set_law)."
  },
  {
   "property": "C10",
   "status": "proved",
   "theorems": [
    "C10_add_channel_duplicate"
   ],
   "note": ""
  },
  {
   "property": "C11",
   "status": "proved",
   "theorems": [
    "C11_interpolated_value",
    "C11_negative_position",
    "C11_last_frame_refuted"
   ],
   "note": "T is read as the real numbers."
  },
  {
   "property": "C12",
   "status": "proved",
   "theorems": [
    "C12_table_resize_columns",
    "C12_table_resize_outcomes",
    "C12_add_column_default_refuted"
   ],
   "note": ""
  },
  {
   "property": "C13",
   "status": "proved",
   "theorems": [
    "C13_table_refines",
    "C12_table_resize_outcomes"
   ],
   "note": "Evaluation order is chosen per call by the boolean attached to it."
  },
  {
   "property": "C14",
   "status": "proved",
   "theorems": [
    "C14_writer_history"
   ],
   "note": ""
  },
  {
   "property": "C15",
   "status": "proved",
   "theorems": [
    "C15_frame_buffer_refines",
    "C15_at_accepts_present_frames_refuted",
    "C15_add_channel_ring_refuted"
   ],
   "note": ""
  },
  {
   "property": "C16",
   "status": "proved",
   "theorems": [
    "C16_channel_means",
    "C16_covariance_values",
    "C16_covariance_laws"
   ],
   "note": "T is read as the real numbers."
  },
  {
   "property": "C17",
   "status": "proved",
   "theorems": [
    "C17_trim",
    "C17_trim_total",
    "C17_trim_unique",
    "C17_trim_right"
   ],
   "note": "Hypothesis fits: the string is shorter than 2^63 characters."
  },
  {
   "property": "C18",
   "status": "proved",
   "theorems": [
    "C18_split",
    "C18_split_total",
    "C18_split_unique",
    "C18_split_join"
   ],
   "note": ""
  },
  {
   "property": "C19",
   "status": "proved",
   "theorems": [
    "C19_quoted_roundtrip",
    "C19_try_quoted_roundtrip",
    "C19_quoted_printable",
    "C19_quoted_roundtrip_refuted"
   ],
   "note": ""
  },
  {
   "property": "C20",
   "status": "proved",
   "theorems": [
    "C20_unquoted_text",
    "C20_quoted_text",
    "C20_decode_escape",
    "C20_decode_total",
    "C20_decode_nothing",
    "C20_try_unquoted_refuted"
   ],
   "note": ""
  },
  {
   "property": "C21",
   "status": "proved",
   "theorems": [
    "C21_begins_with",
    "C21_ends_with",
    "C21_ends_with_refuted"
   ],
   "note": ""
  },
  {
   "property": "C22",
   "status": "proved",
   "theorems": [
    "C22_left_str",
    "C22_right_str",
    "C22_right_str_min",
    "C22_mid_str",
    "C22_left_of_str",
    "C22_right_of_str"
   ],
   "note": "left_str with negative n converts the size to int; the model takes sizes below 2^31 there."
  },
  {
   "property": "C23",
   "status": "proved",
   "theorems": [
    "C23_key_value",
    "C23_key_value_roundtrip"
   ],
   "note": ""
  },
  {
   "property": "C24",
   "status": "proved",
   "theorems": [
    "C24_extension",
    "C24_folder",
    "C24_folder_recompose"
   ],
   "note": ""
  },
  {
   "property": "C25",
   "status": "proved",
   "theorems": [
    "C25_parent_filename",
    "C25_has_filename",
    "C25_join_file",
    "C25_recompose",
    "C25_recompose_refuted",
    "C25_bare_filename_refuted",
    "C25_replace_filename",
    "C25_extension",
    "C25_replace_extension_refuted",
    "C25_stem",
    "C25_make_preferred"
   ],
   "note": ""
  },
  {
   "property": "C26",
   "status": "proved",
   "theorems": [
    "C26_to_int",
    "C26_from_int",
    "C26_from_long",
    "C26_from_unsigned",
    "C26_roundtrip",
    "C26_enum_roundtrip",
    "C26_from_bool",
    "C26_bool_word_refuted",
    "C26_string_is"
   ],
   "note": "Integers, bool, enum and string; float and double text conversion is not modelled. The prop_node part is C37."
  },
  {
   "property": "C27",
   "status": "proved",
   "theorems": [
    "C27_roundtrip",
    "C27_no_build_refuted",
    "C27_postfix_refuted",
    "C27_two_words_refuted"
   ],
   "note": ""
  },
  {
   "property": "C28",
   "status": "proved",
   "theorems": [
    "C28_constexpr_agrees",
    "C28_hash_string",
    "C28_standard_fnv1a",
    "C28_standard_fnv1a_refuted",
    "C28_one_character",
    "C28_common_ending"
   ],
   "note": ""
  },
  {
   "property": "C29",
   "status": "proved",
   "theorems": [
    "C29_str_to_vec",
    "C29_elements_unique",
    "C29_scan_str",
    "C29_numbers",
    "C29_scan_count_refuted"
   ],
   "note": "Element types long, int and string; float elements are not modelled."
  },
  {
   "property": "C30",
   "status": "proved",
   "theorems": [
    "C30_name",
    "C30_element",
    "C30_inverse",
    "C30_lookup"
   ],
   "note": ""
  },
  {
   "property": "C31",
   "status": "proved",
   "theorems": [
    "C31_eof_flag",
    "C31_get_token",
    "C31_token_unique",
    "C31_terminates",
    "C31_not_good",
    "C31_always_returns_refuted",
    "C31_prefix_lost_refuted"
   ],
   "note": ""
  },
  {
   "property": "C32",
   "status": "proved",
   "theorems": [
    "C32_terminates",
    "C32_always_terminates_refuted"
   ],
   "note": "Linear bound on the number of steps."
  },
  {
   "property": "C33",
   "status": "proved",
   "theorems": [
    "C33_roundtrip_trimmed",
    "C33_roundtrip",
    "C33_trimmed_unique"
   ],
   "note": "Readable format. The file is taken to contain exactly the bytes written; on Windows the text-mode stream adds CR, which is also a delimiter."
  },
  {
   "property": "C34",
   "status": "proved",
   "theorems": [
    "C34_value_and_children_refuted",
    "C34_value_and_children_nested_refuted",
    "C34_cut_value_refuted",
    "C34_apostrophe_refuted",
    "C34_white_space_refuted",
    "C34_bad_label_refuted",
    "C34_compact_refuted"
   ],
   "note": "Families of inputs on which the natural round trip fails; each theorem gives the result for the whole family."
  },
  {
   "property": "C35",
   "status": "proved",
   "theorems": [
    "C35_comment_skipped",
    "C35_comment_first",
    "C35_comment_between",
    "C35_empty_comment_refuted",
    "C35_quoted_percent_refuted",
    "C35_trailing_comment_refuted"
   ],
   "note": ""
  },
  {
   "property": "C36",
   "status": "proved",
   "theorems": [
    "C36_load",
    "C36_load_lines",
    "C36_roundtrip",
    "C36_value_after_group_refuted",
    "C36_comment_refuted"
   ],
   "note": "Trees are compared up to access marks. The file is taken to contain exactly the bytes written."
  },
  {
   "property": "C37",
   "status": "proved",
   "theorems": [
    "C37_get",
    "C37_get_any",
    "C37_set_get",
    "C37_set_place",
    "C37_set_others"
   ],
   "note": "Generic in the text conversion; for every policy of when the child vector reallocates. Subtrees are unchanged up to access marks."
  },
  {
   "property": "C38",
   "status": "proved",
   "theorems": [
    "C38_get",
    "C38_path",
    "C38_set_get",
    "C38_set_others"
   ],
   "note": ""
  },
  {
   "property": "C39",
   "status": "proved",
   "theorems": [
    "C39_structural",
    "C39_marks_only",
    "C39_copy",
    "C39_equivalence"
   ],
   "note": ""
  },
  {
   "property": "C40",
   "status": "proved",
   "theorems": [
    "C40_count",
    "C40_clear",
    "C40_get_marks",
    "C40_log",
    "C40_marks_persist_refuted"
   ],
   "note": ""
  },
  {
   "property": "C41",
   "status": "proved",
   "theorems": [
    "C41_keep",
    "C41_overwrite",
    "C41_keys",
    "C41_overwrite_first_refuted"
   ],
   "note": "The two nodes are different objects."
  },
  {
   "property": "C42",
   "status": "proved",
   "theorems": [
    "C42_terminates",
    "C42_cycle",
    "C42_no_include",
    "C42_expand",
    "C42_merge",
    "C42_merge_true_refuted",
    "C42_root_folder_refuted",
    "C42_deep_refuted"
   ],
   "note": "Loading ends for every file system and include graph and leaves no directive; include cycles throw; plain and merging includes are characterised. Refuted: 'merge_children = true' is not read as true, includes of a file in the root folder are looked up elsewhere, acyclic chains of 100 levels throw."
  },
  {
   "property": "C43",
   "status": "proved",
   "theorems": [
    "C43_basic",
    "C43_vector",
    "C43_vec3_quat_transform",
    "C43_set_get",
    "C43_labels",
    "C43_file",
    "C43_carries",
    "C43_vec3_text",
    "C43_vec3_text_refuted",
    "C43_bounds",
    "C43_bounds_int",
    "C43_bounds_printed_refuted"
   ],
   "note": "Float text conversions enter as a codec with a round trip hypothesis. Refuted: bounds printed with operator<< lose their upper limit when read; a text value of a vec3 node overrides its parts."
  },
  {
   "property": "C44",
   "status": "proved",
   "theorems": [
    "C44_delivery",
    "C44_history_decides",
    "C44_receivers",
    "C44_defined",
    "C44_deleted",
    "C44_formatted_short",
    "C44_formatted_refuted",
    "C44_copy_refuted",
    "C44_lowest_refuted"
   ],
   "note": "Delivery over all call histories; the cached lowest level never hides a message. Formatted messages are cut at 1023 characters, copied sinks are not registered."
  },
  {
   "property": "C45",
   "status": "proved",
   "theorems": [
    "C45_sections",
    "C45_defined",
    "C45_unmatched_end_refuted",
    "C45_exclusive_sum",
    "C45_exclusive_nonneg",
    "C45_exclusive_open_refuted",
    "C45_overhead"
   ],
   "note": "All histories; non-negative exclusive time for closed sections and the root, refuted for open ones."
  },
  {
   "property": "C46",
   "status": "proved",
   "theorems": [
    "C46_report",
    "C46_total",
    "C46_internal_refuted"
   ],
   "note": "Times are exact numbers; intervals given up by start_first_measure are accounted for separately."
  },
  {
   "property": "C47",
   "status": "proved",
   "theorems": [
    "C47_transparent",
    "C47_once",
    "C47_pure",
    "C47_weak_order_refuted",
    "C47_recursive",
    "C47_recursive_sound"
   ],
   "note": "Stateful and throwing functions, and functions that recurse through their memoized version."
  },
  {
   "property": "C48",
   "status": "proved",
   "theorems": [
    "C48_counts",
    "C48_sum",
    "C48_reset_refuted",
    "C48_defined"
   ],
   "note": "The reset bug is refuted with a witness."
  },
  {
   "property": "C49",
   "status": "proved",
   "theorems": [
    "C49_flags",
    "C49_undefined",
    "C49_get_undefined",
    "C49_narrow",
    "C49_narrow_refuted"
   ],
   "note": "All storage widths and histories."
  },
  {
   "property": "C50",
   "status": "proved",
   "theorems": [
    "C50_create_unique_folder",
    "C50_first_free_name",
    "C50_blocked_throws",
    "C50_create_directories",
    "C50_trailing_separator_refuted"
   ],
   "note": ""
  },
  {
   "property": "C51",
   "status": "proved",
   "theorems": [
    "C51_copy",
    "C51_keeps_existing",
    "C51_no_place",
    "C51_missing_source",
    "C51_onto_itself",
    "C51_folder_source",
    "C51_failure_keeps_target_refuted",
    "C51_msvc_flag_inverted"
   ],
   "note": ""
  },
  {
   "property": "C52",
   "status": "proved",
   "theorems": [
    "C52_clamp_nearest",
    "C52_clamp_inside",
    "C52_clamp_monotone",
    "C52_clamp_idempotent",
    "C52_clamp_exchanged",
    "C52_clamp_any_order",
    "C52_clamp_ieee",
    "C52_clamp_ieee_nan_limit"
   ],
   "note": "Exact reals, any strict order, and IEEE floats of every format (NaN included)."
  },
  {
   "property": "C53",
   "status": "proved",
   "theorems": [
    "C53_soft_clamp_inside",
    "C53_soft_clamp_middle",
    "C53_soft_clamp_increasing",
    "C53_soft_clamp_symmetric",
    "C53_soft_clamp_zero",
    "C53_wide_boundary_refuted"
   ],
   "note": "Exact reals."
  },
  {
   "property": "C54",
   "status": "proved",
   "theorems": [
    "C54_fmod",
    "C54_wrap",
    "C54_wrap_inside",
    "C54_below_upper_refuted",
    "C54_idempotent_refuted",
    "C54_square_wave",
    "C54_square_wave_period_refuted"
   ],
   "note": "Exact reals."
  },
  {
   "property": "C55",
   "status": "proved",
   "theorems": [
    "C55_is_power_of_two",
    "C55_even_odd"
   ],
   "note": ""
  },
  {
   "property": "C56",
   "status": "proved",
   "theorems": [
    "C56_product",
    "C56_unit_group",
    "C56_rotation",
    "C56_sequence",
    "C56_normalized",
    "C56_any_length_refuted"
   ],
   "note": "Exact reals."
  },
  {
   "property": "C57",
   "status": "proved",
   "theorems": [
    "C57_composition",
    "C57_inverse",
    "C57_group"
   ],
   "note": "Exact reals."
  },
  {
   "property": "C58",
   "status": "proved",
   "theorems": [
    "C58_axis_angle",
    "C58_axis_angle_throws",
    "C58_euler",
    "C58_directions",
    "C58_directions_short_refuted",
    "C58_axes",
    "C58_axes_left_handed_refuted",
    "C58_axis_angle_round_trip"
   ],
   "note": "Exact reals; the rotation to a direction is exact except within the tolerance of equals (identity) and for opposite vectors."
  },
  {
   "property": "C59",
   "status": "proved",
   "theorems": [
    "C59_smallest",
    "C59_same_points_same_box",
    "C59_order",
    "C59_default",
    "C59_inside_out_refuted"
   ],
   "note": "Exact reals."
  },
  {
   "property": "C60",
   "status": "proved",
   "theorems": [
    "C60_bounds",
    "C60_negation"
   ],
   "note": "Exact reals; bounds::soft_clamp cannot be instantiated and is not modelled."
  },
  {
   "property": "C61",
   "status": "proved",
   "theorems": [
    "C61_polynomial",
    "C61_intersect_y",
    "C61_regression_defined",
    "C61_least_squares",
    "C61_exact_line",
    "C61_fixed_steps",
    "C61_fixed_steps_undefined"
   ],
   "note": "Exact reals; a division by zero (a result that is not finite) is UB in the model."
  },
  {
   "property": "C62",
   "status": "proved",
   "theorems": [
    "C62_construct",
    "C62_broken_line",
    "C62_total",
    "C62_nodes",
    "C62_affine",
    "C62_error",
    "C62_monotone"
   ],
   "note": "Exact reals."
  },
  {
   "property": "C63",
   "status": "proved",
   "theorems": [
    "C63_interpolated_value",
    "C63_defined",
    "C63_stored",
    "C63_bounded",
    "C63_plain_vector",
    "C63_huge_key_refuted",
    "C63_integer_keys",
    "C63_integer_keys_interpolate_refuted",
    "C63_unsorted_refuted"
   ],
   "note": "Exact reals."
  },
  {
   "property": "C64",
   "status": "proved",
   "theorems": [
    "C64_ends",
    "C64_velocity",
    "C64_smooth_joint",
    "C64_parabola",
    "C64_weights",
    "C64_reverse",
    "C64_alpha_zero",
    "C64_alpha_defined",
    "C64_alpha_ends",
    "C64_alpha_smooth_joint",
    "C64_length",
    "C64_length_straight",
    "C64_length_no_steps_refuted"
   ],
   "note": "Exact reals. The class catmull_rom does not compile and is not modelled."
  },
  {
   "property": "C65",
   "status": "proved",
   "theorems": [
    "C65_difference_equation",
    "C65_unique",
    "C65_queries",
    "C65_linear",
    "C65_time_invariant",
    "C65_causal",
    "C65_superposition",
    "C65_feedback",
    "C65_older_value_refuted",
    "C65_order_zero"
   ],
   "note": "Exact reals."
  },
  {
   "property": "C66",
   "status": "proved",
   "theorems": [
    "C66_defined",
    "C66_stable",
    "C66_settles",
    "C66_alternating",
    "C66_tone",
    "C66_cutoff",
    "C66_attenuation",
    "C66_any_ratio_refuted"
   ],
   "note": "Exact reals."
  },
  {
   "property": "C67",
   "status": "proved",
   "theorems": [
    "C67_delay",
    "C67_whole_windows",
    "C67_ramp",
    "C67_initial_value_refuted",
    "C67_clock",
    "C67_steady",
    "C67_range_refuted",
    "C67_smooth",
    "C67_smooth_bounded",
    "C67_smooth_constant",
    "C67_smooth_long_step_refuted"
   ],
   "note": "Exact reals."
  },
  {
   "property": "C68",
   "status": "proved",
   "theorems": [
    "C68_range",
    "C68_members",
    "C68_step",
    "C68_signed",
    "C68_unsigned",
    "C68_reversed_refuted",
    "C68_difference",
    "C68_difference_refuted",
    "C68_postfix"
   ],
   "note": "Integer types at least as wide as int. The postfix ++ of irange does not compile."
  },
  {
   "property": "C69",
   "status": "proved",
   "theorems": [
    "C69_average",
    "C69_samples_unique",
    "C69_bounded",
    "C69_order",
    "C69_scale",
    "C69_empty",
    "C69_weights_refuted",
    "C69_delta",
    "C69_telescope"
   ],
   "note": "Exact reals."
  },
  {
   "property": "C70",
   "status": "proved",
   "theorems": [
    "C70_general",
    "C70_integral",
    "C70_floating",
    "C70_holds_unique",
    "C70_sentinel_refuted",
    "C70_empty_star_refuted",
    "C70_equality_refuted",
    "C70_equality_general",
    "C70_moved_from_refuted",
    "C70_read_long",
    "C70_read_int",
    "C70_read_string",
    "C70_failed_stream"
   ],
   "note": ""
  },
  {
   "property": "C71",
   "status": "proved",
   "theorems": [
    "C71_sorted_copy",
    "C71_median",
    "C71_median_order",
    "C71_median_counts",
    "C71_median_closest",
    "C71_median_affine",
    "C71_median_int",
    "C71_median_int_refuted",
    "C71_average",
    "C71_average_int",
    "C71_average_nothing_refuted",
    "C71_top_average",
    "C71_top_average_least",
    "C71_top_average_refuted",
    "C71_sort_indices",
    "C71_sort_indices_stable_refuted",
    "C71_find_index",
    "C71_find_if",
    "C71_back_index",
    "C71_min_max",
    "C71_view",
    "C71_select",
    "C71_print"
   ],
   "note": "Exact reals; integer types at least as wide as int; the algorithms of the standard library by contract."
  },
  {
   "property": "C72",
   "status": "proved",
   "theorems": [
    "C72_vec4",
    "C72_scaling_refuted"
   ],
   "note": "Exact reals; binary minus does not compile and is not modelled."
  },
  {
   "property": "C73",
   "status": "proved",
   "theorems": [
    "C73_values",
    "C73_memory",
    "C73_independent",
    "C73_moved_from_refuted",
    "C73_self_assignment_refuted",
    "C73_uninitialized_refuted"
   ],
   "note": "Allocation never fails. The move assignment does not compile and is not modelled."
  },
  {
   "property": "C74",
   "status": "proved",
   "theorems": [
    "C74_round_trip",
    "C74_additive",
    "C74_comparison",
    "C74_half_turn_refuted"
   ],
   "note": "Exact reals with the constant pi of the code."
  },
  {
   "property": "C75",
   "status": "proved",
   "theorems": [
    "C75_equals_reflexive",
    "C75_equals_zero",
    "C75_equals_symmetric_refuted",
    "C75_equals_nearly_symmetric",
    "C75_signed_sqrt"
   ],
   "note": ""
  },
  {
   "property": "C76",
   "status": "proved",
   "theorems": [
    "C76_single_axis",
    "C76_round_trip_refuted"
   ],
   "note": "Exact reals."
  },
  {
   "property": "C77",
   "status": "proved",
   "theorems": [
    "C77_normalized",
    "C77_lengths",
    "C77_cross",
    "C77_polar"
   ],
   "note": "Exact reals."
  },
  {
   "property": "C78",
   "status": "proved",
   "theorems": [
    "C78_tidy",
    "C78_clean",
    "C78_decorations",
    "C78_save_restore",
    "C78_absent",
    "C78_separate_refuted",
    "C78_bare_refuted"
   ],
   "note": ""
  },
  {
   "property": "C79",
   "status": "proved",
   "theorems": [
    "C79_units",
    "C79_refine",
    "C79_since_reset",
    "C79_monotone",
    "C79_laps",
    "C79_lap_sum_refuted",
    "C79_windows",
    "C79_windows_total_refuted"
   ],
   "note": "The clock is an input; exact reals for seconds, minutes and hours."
  },
  {
   "property": "C80",
   "status": "proved",
   "theorems": [
    "C80_match",
    "C80_union",
    "C80_none",
    "C80_of_node",
    "C80_select",
    "C80_pattern_checked_refuted",
    "C80_null_refuted"
   ],
   "note": "The matching function of the system is a parameter; the code only compiles on Windows."
  },
  {
   "property": "C81",
   "status": "proved",
   "theorems": [
    "C81_load_string",
    "C81_load_string_plain",
    "C81_error_code",
    "C81_load_prop",
    "C81_error_code_catches_refuted",
    "C81_stale_error_refuted",
    "C81_folder_refuted",
    "C81_save_prop",
    "C81_persist",
    "C81_ini",
    "C81_ini_saved_refuted",
    "C81_load_file"
   ],
   "note": "XML files are in C86 to C88."
  },
  {
   "property": "C82",
   "status": "proved",
   "theorems": [
    "C82_clone",
    "C82_independent",
    "C82_null_refuted",
    "C82_copy_throws",
    "C82_derived_refuted"
   ],
   "note": "Freed addresses are not reused."
  },
  {
   "property": "C83",
   "status": "proved",
   "theorems": [
    "C83_text",
    "C83_text_unique",
    "C83_print_marks",
    "C83_save_marks",
    "C83_unread_refuted",
    "C83_ini_marks",
    "C83_text_distinct_refuted"
   ],
   "note": "Widths do not overflow int."
  },
  {
   "property": "C84",
   "status": "proved",
   "theorems": [
    "C84_samples",
    "C84_one_sample_refuted",
    "C84_one_sample_int_refuted",
    "C84_samples_int",
    "C84_int_overflow_refuted"
   ],
   "note": "Exact reals and int."
  },
  {
   "property": "C85",
   "status": "proved",
   "theorems": [
    "C85_short_name",
    "C85_idempotent",
    "C85_factory",
    "C85_template_refuted"
   ],
   "note": ""
  },
  {
   "property": "C86",
   "status": "proved",
   "theorems": [
    "C86_parse",
    "C86_unique",
    "C86_total",
    "C86_truncated",
    "C86_one_root_refuted",
    "C86_end_tag_refuted",
    "C86_text_refuted"
   ],
   "note": "Parse flags 0; the grammar has document type declarations with nested brackets but no CDATA. Unsigned long has 32 bits."
  },
  {
   "property": "C87",
   "status": "proved",
   "theorems": [
    "C87_save_load",
    "C87_loads",
    "C87_roundtrip",
    "C87_other_roots_refuted",
    "C87_inner_value_refuted",
    "C87_keys_refuted"
   ],
   "note": ""
  },
  {
   "property": "C88",
   "status": "proved",
   "theorems": [
    "C88_load_xml",
    "C88_missing",
    "C88_no_throw",
    "C88_stale_error_refuted",
    "C88_save_xml",
    "C88_persist",
    "C88_load_file"
   ],
   "note": "Failed writes to open files are not modelled."
  },
  {
   "property": "C89",
   "status": "proved",
   "theorems": [
    "C89_file",
    "C89_readable",
    "C89_append",
    "C89_frame",
    "C89_good",
    "C89_log",
    "C89_defined",
    "C89_line_end_refuted",
    "C89_earlier_runs_refuted",
    "C89_shared_refuted",
    "C89_no_place_refuted"
   ],
   "note": "Failed writes to open files and line end conversion are not modelled; the reference that file_sink takes to its stream before the stream is constructed is taken to work."
  },
  {
   "property": "C90",
   "status": "proved",
   "theorems": [
    "C90_text",
    "C90_text_unique",
    "C90_read",
    "C90_throws",
    "C90_is",
    "C90_stream",
    "C90_read_unique",
    "C90_roundtrip",
    "C90_exact",
    "C90_exact_cases",
    "C90_text_order",
    "C90_read_order",
    "C90_cast",
    "C90_file",
    "C90_bounds",
    "C90_vec3_text",
    "C90_small_refuted",
    "C90_trailing_refuted",
    "C90_underflow_refuted",
    "C90_overflow_refuted"
   ],
   "note": "The C library is modelled by its standard, with correct rounding; which results below the smallest normal number are range errors is a parameter. Signs and payloads of nan are left out."
  },
  {
   "property": "C91",
   "status": "proved",
   "theorems": [
    "C91_formats",
    "C91_clamp",
    "C91_clamp_mono",
    "C91_clamp_twice",
    "C91_clamp_nan_refuted",
    "C91_between",
    "C91_sign",
    "C91_extremes",
    "C91_extremes_nan_refuted",
    "C91_box",
    "C91_max",
    "C91_box_tight",
    "C91_box_infinite_refuted",
    "C91_box_nan_refuted"
   ],
   "note": "IEEE float and double, with signed zeros, infinities and nan."
  },
  {
   "property": "C92",
   "status": "proved",
   "theorems": [
    "C92_violation",
    "C92_violation_value",
    "C92_within_iff",
    "C92_clamped",
    "C92_nan_refuted",
    "C92_violation_mono",
    "C92_range",
    "C92_range_refuted",
    "C92_neg",
    "C92_add_back_refuted"
   ],
   "note": "IEEE float and double, every operation rounded to nearest even."
  },
  {
   "property": "C93",
   "status": "proved",
   "theorems": [
    "C93_complete",
    "C93_sound",
    "C93_reflexive",
    "C93_zero",
    "C93_infinite_refuted",
    "C93_neighbours",
    "C93_tiny_refuted",
    "C93_tolerance",
    "C93_signs",
    "C93_symmetric_refuted"
   ],
   "note": "IEEE float and double, every operation rounded to nearest even; tolerances are finite and not negative."
  },
  {
   "property": "C94",
   "status": "proved",
   "theorems": [
    "C94_fmod",
    "C94_range",
    "C94_value",
    "C94_fixed",
    "C94_inside_refuted",
    "C94_upper_refuted",
    "C94_nan_refuted",
    "C94_square_wave"
   ],
   "note": "IEEE float and double; fmod of two floats is the float overload."
  },
  {
   "property": "C95",
   "status": "proved",
   "theorems": [
    "C95_counter",
    "C95_sum_error",
    "C95_error",
    "C95_exact",
    "C95_weighted",
    "C95_mono",
    "C95_one",
    "C95_frozen_refuted",
    "C95_bounded_refuted",
    "C95_delta",
    "C95_delta_refuted"
   ],
   "note": "IEEE float and double; for weights other than 1 the sums are assumed to be exact, the average of others is covered by the real numbers of C69 only."
  },
  {
   "property": "C96",
   "status": "proved",
   "theorems": [
    "C96_sqrt",
    "C96_sqrt_mono",
    "C96_signed_sqrt",
    "C96_sqrt_square",
    "C96_sqrt_square_refuted",
    "C96_inv"
   ],
   "note": "IEEE float and double; sqrt is taken to be correctly rounded, as IEEE 754 demands, and modelled by the integer root of the significand."
  },
  {
   "property": "C97",
   "status": "proved",
   "theorems": [
    "C97_length",
    "C97_length_zero",
    "C97_length_dominates",
    "C97_length_axis",
    "C97_length_error",
    "C97_normalized",
    "C97_distance",
    "C97_dot",
    "C97_cross",
    "C97_cross_error",
    "C97_sums",
    "C97_equal",
    "C97_div",
    "C97_size_refuted",
    "C97_order_refuted",
    "C97_triangle_refuted",
    "C97_div_refuted",
    "C97_again_refuted"
   ],
   "note": "IEEE float and double, no fused multiply-add; that is_normalized accepts every normalized vector is neither proved nor refuted."
  },
  {
   "property": "C98",
   "status": "proved",
   "theorems": [
    "C98_outside",
    "C98_value",
    "C98_stored",
    "C98_sign",
    "C98_mono",
    "C98_index",
    "C98_index_refuted",
    "C98_constant_refuted",
    "C98_mono_refuted",
    "C98_gap_refuted"
   ],
   "note": "IEEE float and double, every operation rounded to nearest even; keys sorted in the order of the numbers, and the error of C98_value is stated for finite keys and values whose differences do not overflow. Monotonicity is proved from a value that is not positive to one that is not negative only; C98_mono_refuted shows that it fails in general."
  },
  {
   "property": "C99",
   "status": "proved",
   "theorems": [
    "C99_make",
    "C99_defined",
    "C99_inside",
    "C99_outside",
    "C99_node",
    "C99_abscissa",
    "C99_conv",
    "C99_function",
    "C99_empty_refuted",
    "C99_node_refuted"
   ],
   "note": "IEEE float and double, every operation rounded to nearest even; the tabulated function is taken to be a function, and new does not run out of memory. C99_conv states that the conversions between float and double round correctly, and are exact to double."
  },
  {
   "property": "C100",
   "status": "proved",
   "theorems": [
    "C100_error",
    "C100_nan",
    "C100_mirror",
    "C100_even",
    "C100_negative",
    "C100_odd",
    "C100_zero",
    "C100_mono",
    "C100_whole",
    "C100_intersect",
    "C100_zero_coefficient_refuted",
    "C100_intersect_refuted"
   ],
   "note": "IEEE float and double, every operation rounded to nearest even, no fused multiply-add. C100_error assumes that no term overflows."
  },
  {
   "property": "C101",
   "status": "proved",
   "theorems": [
    "C101_sortable",
    "C101_sorts",
    "C101_sorted_copy",
    "C101_median_defined",
    "C101_median",
    "C101_median_odd",
    "C101_median_order",
    "C101_average_empty",
    "C101_average",
    "C101_average_class",
    "C101_average_exact",
    "C101_average_mono",
    "C101_average_order_refuted",
    "C101_average_bounded_refuted",
    "C101_median_overflow_refuted",
    "C101_top_average",
    "C101_top_average_undefined",
    "C101_min_max",
    "C101_sort_indices",
    "C101_find_index",
    "C101_find_nan_refuted"
   ],
   "note": "IEEE float and double; std::sort is any function that meets its contract (C101_sorts shows that there are such), and is taken to be undefined where its precondition, a strict weak order of the elements, fails."
  },
  {
   "property": "C102",
   "status": "proved",
   "theorems": [
    "C102_text",
    "C102_text_unique",
    "C102_shape_unique",
    "C102_digits_unique",
    "C102_error",
    "C102_names",
    "C102_read",
    "C102_read_unique",
    "C102_exact",
    "C102_exact_digits",
    "C102_stable",
    "C102_stable_digits",
    "C102_finite",
    "C102_order",
    "C102_get",
    "C102_vec3",
    "C102_vec3_exact",
    "C102_quat",
    "C102_failed",
    "C102_end",
    "C102_char_stream",
    "C102_bounds",
    "C102_infinite_refuted",
    "C102_lossy_refuted",
    "C102_stable_refuted",
    "C102_overflow_refuted",
    "C102_underflow_refuted"
   ],
   "note": "The streams of the standard library are modelled by the C++ standard (default flags, classic locale, correct rounding); which results below the smallest normal number are range errors, and what is stored then, are parameters."
  },
  {
   "property": "C103",
   "status": "proved",
   "theorems": [
    "C103_storage",
    "C103_table",
    "C103_vector",
    "C103_unique",
    "C103_plain",
    "C103_distinct",
    "C103_determined",
    "C103_field",
    "C103_debug",
    "C103_samples",
    "C103_sample_error",
    "C103_sample_order",
    "C103_sample_first",
    "C103_one_sample_refuted",
    "C103_last_refuted",
    "C103_overflow_refuted",
    "C103_tab_refuted",
    "C103_empty_refuted"
   ],
   "note": "Streams as in C102; that the file can be opened is taken for granted. C103_sample_error, C103_sample_order and C103_sample_first assume that 8 n times the larger end does not overflow and that n - 1 is at most 2^p."
  },
  {
   "property": "C104",
   "status": "proved",
   "theorems": [
    "C104_product",
    "C104_product_finite",
    "C104_product_bad",
    "C104_product_whole",
    "C104_identity",
    "C104_conjugate",
    "C104_rotate",
    "C104_transform",
    "C104_rotate_length",
    "C104_chain",
    "C104_normalized",
    "C104_rotate_bad",
    "C104_rotate_identity",
    "C104_compose",
    "C104_round_trip",
    "C104_length",
    "C104_is_normalized",
    "C104_vec4",
    "C104_product_refuted",
    "C104_round_trip_refuted",
    "C104_size_refuted",
    "C104_vec4_refuted"
   ],
   "note": "IEEE float and double, every operation rounded to nearest even, no fused multiply-add. Rotations assume parts of the quaternion of at most 2, and finite results; C104_normalized assumes that the computed length is finite."
  },
  {
   "property": "C105",
   "status": "proved",
   "theorems": [
    "C105_equation",
    "C105_queries",
    "C105_error",
    "C105_poison",
    "C105_forever",
    "C105_contraction",
    "C105_whole",
    "C105_rest",
    "C105_order_zero",
    "C105_decay_refuted",
    "C105_delayer_window",
    "C105_delayer_clock",
    "C105_delay",
    "C105_delayer_exact",
    "C105_delayer_value",
    "C105_delay_infinite_refuted",
    "C105_delay_tiny_refuted"
   ],
   "note": "IEEE float and double, no fused multiply-add; the argument of a filter is not one of its registers. In delayers the values have the format of the times (float). make_lowpass_butterworth_2nd_order calls tan, whose rounding is not specified, and stays with C66; smooth_delayer stays with C67."
  },
  {
   "property": "C106",
   "status": "proved",
   "theorems": [
    "C106_report",
    "C106_distinct",
    "C106_reachable",
    "C106_percent",
    "C106_sum",
    "C106_open",
    "C106_lost_refuted",
    "C106_sum_refuted",
    "C106_open_refuted"
   ],
   "note": "Durations below 2^p nanoseconds (104 days for double). printf rounds correctly, half to even, as the C libraries do; the text of nan is a parameter of at most 25 characters. std::sort is any function that sorts; the texts of the names are a parameter. C106_example shows a run of three calls."
  },
  {
   "property": "C107",
   "status": "proved",
   "theorems": [
    "C107_report",
    "C107_error",
    "C107_total",
    "C107_exact",
    "C107_text",
    "C107_seconds",
    "C107_resolution",
    "C107_true",
    "C107_exact_refuted",
    "C107_shown_refuted",
    "C107_resolution_refuted"
   ],
   "note": "Readings that do not go back and at most 2^(p-1) calls, p the bits of the format. duration<double> is taken to divide the count by the number of nanoseconds in a unit. C107_example shows a stopwatch with two labels, and the three units."
  },
  {
   "property": "C108",
   "status": "proved",
   "theorems": [
    "C108_means",
    "C108_covariance",
    "C108_symmetric",
    "C108_variance",
    "C108_error",
    "C108_one",
    "C108_regression",
    "C108_degenerate",
    "C108_slope",
    "C108_exact",
    "C108_line",
    "C108_step",
    "C108_step_degenerate",
    "C108_constant_refuted",
    "C108_shift_refuted",
    "C108_slope_refuted"
   ],
   "note": "Values, means and results in one format. C108_error and C108_slope need n u <= 1/100 for n values and products that neither overflow nor are subnormal; C108_exact, C108_line and C108_step need whole numbers small enough for all sums to be exact. C108_example shows a storage of two channels and both kinds of regression."
  },
  {
   "property": "C109",
   "status": "proved",
   "theorems": [
    "C109_printed",
    "C109_decided",
    "C109_state",
    "C109_result",
    "C109_defined",
    "C109_failures",
    "C109_numbers",
    "C109_report",
    "C109_read",
    "C109_read_refuted",
    "C109_reset_refuted",
    "C109_unseen_refuted"
   ],
   "note": "Names are C strings that are not null; sinks take every line; the static log level is the default one. C109_example shows two sinks and three tests."
  },
  {
   "property": "C110",
   "status": "proved",
   "theorems": [
    "C110_error",
    "C110_start",
    "C110_end",
    "C110_exact",
    "C110_nan",
    "C110_negative",
    "C110_vector",
    "C110_end_refuted",
    "C110_constant_refuted",
    "C110_large_refuted"
   ],
   "note": "The parameter has the type of the components. M is at least the smallest normal number and 32 M does not overflow. The variant with alpha uses pow and is proved over exact reals only (C64). C110_example shows two values."
  },
  {
   "property": "C111",
   "status": "proved",
   "theorems": [
    "C111_widen",
    "C111_sides",
    "C111_outcome",
    "C111_error",
    "C111_zero",
    "C111_still",
    "C111_parameters",
    "C111_parameter",
    "C111_last_refuted",
    "C111_positive_refuted"
   ],
   "note": "For curves of vec3 of float. The curve is any function of the parameter, called once per step as in the code; the error of a single side is in C97. C111_example shows the sides of a line."
  }
 ]
}