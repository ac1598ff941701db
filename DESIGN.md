# Formal model of flut

Source: `/repo` (tgeijten/flut, pinned commit), read as text. The development
is in `rocq/theories`; `Model/` holds executable definitions transcribed
function by function from the C++ code (each with a file/line citation),
`Proofs/` holds specifications and lemmas, `Props/` holds the property
theorems only, each followed by `Print Assumptions`, and the example showing
that its hypotheses can be met.

## Conventions

- Platform read from the code: x64, MSVC-style (the Windows branches), `char`
  signed 8 bit, `size_t` 64 bit, `int` 32 bit. `FLUT_USE_ASSERT` and
  exceptions are on (the defaults in `flut/system/assert.hpp`), so
  `flut_assert`/`flut_error_if` throw.
- A C++ function that mutates `*this` returns the new state. Outcomes are
  `Ok v | Throw | UB | OutOfFuel`. `Throw` is any C++ exception, `UB` is
  undefined behaviour (out-of-range access, division by zero, reading an
  indeterminate value). Where the state after an exception matters it is
  returned beside the outcome.
- Loops are structural recursion, folds, or recursion on fuel with an explicit
  `OutOfFuel` outcome which theorems either exclude or prove unavoidable.
- `size_t` values are `nat` when no wrap-around can occur for containers that
  fit in memory, and `Z` reduced modulo 2^64 where the code relies on wrap
  (`npos + 1`, `size() - n`, ...).
- Floating point numbers are modelled as exact reals (or as an arbitrary total
  order / commutative ring where that is enough). Rounding, NaN and infinities
  are outside the model unless stated. From C90 on, float and double are IEEE
  binary32 and binary64: a finite number is an integer multiple of the smallest
  one, and every operation gives the exact result rounded once to nearest even.
  That excludes extended precision, contraction to fused operations, other
  rounding modes and `-ffast-math`.
- Template code that cannot be instantiated (it does not compile) is not
  modelled; it is listed at the end.

## Trusted base

- Coq 8.16.1's kernel (and `coqchk`).
- The reading of the C++ source that the model transcribes.
- The C++ standard library behaviours that are modelled (std::vector,
  std::string searches, std::upper_bound, strchr, printf's %d/%03o, istream
  extraction of ints), stated as definitions, never as axioms.
- Axioms: none of our own. Theorems over the reals depend on the standard
  library's `ClassicalDedekindReals.sig_forall_dec`,
  `ClassicalDedekindReals.sig_not_dec` and
  `FunctionalExtensionality.functional_extensionality_dep` (from
  `Coq.Reals`), some also on `Classical_Prop.classic`. All other theorems are
  closed under the global context.

## Plan per property

Status is in MANIFEST.json; `*_refuted` theorems give a witness for a natural statement that the code violates.

- **C01 circular_deque behaves like a double-ended queue.** Model the two indices and the vector; abstraction function reads size_ cells cyclically from front_; forward simulation over every operation. Theorems: `C01_deque_refines_queue`, `C01_deque_unbounded_queue_refuted`. The refuted theorem is the witness that push_back on a full, rotated deque is undefined.
- **C02 circular_deque never grows or fails while it stays within its capacity.** Invariant front_ < capacity, size_ <= capacity = c; corollary of the C01 simulation. Theorems: `C02_deque_within_capacity`, `C02_deque_grow_at_front`, `C02_deque_stack_use`, `C02_deque_clear`.
- **C03 circular_deque hazards: const back() and reserve().** Exact value of the const overload as a function of the abstract queue; reserve theorem plus refuting witnesses. Theorems: `C03_const_back_full`, `C03_const_back_stale`, `C03_const_back_refuted`, `C03_reserve_unwrapped`, `C03_reserve_wrapped_refuted`.
- **C04 flat_map is an insertion-ordered map with unique keys.** Association list model refined to (finite map, insertion order). Theorems: `C04_flat_map_refines`.
- **C05 factory: last registration wins, unknown names are reported.** Corollary of the flat_map refinement over registration histories. Theorems: `C05_factory_last_registration`.
- **C06 sorted_vector stays sorted and loses nothing.** std::upper_bound modelled as the halving loop; loop invariant gives partition point; stable insertion sort as the specification. Theorems: `C06_sorted_vector_insert_all`, `C06_sorted_vector_insert_position`, `C06_sorted_vector_erase`.
- **C07 data_header label/index consistency.** Two-component state (labels, index map); invariant for append-only histories, exact law for set, refuting witness. Theorems: `C07_header_refines`, `C07_set_law`, `C07_set_throws`, `C07_header_consistent_refuted`, `C07_labels_constructor_finds_nothing`.
- **C08 storage::resize preserves all existing cells.** Frame-major vector with the exact copy loops; invariant |data| = frames*channels; cellwise theorem. Theorems: `C08_resize`. Hypothesis |data| = frames*channels holds for every storage reachable through the API (conclusion of C09_storage_refines, C08, C10).
- **C09 storage behaves as a frames x channels matrix under any history.** Refinement to an abstract matrix of rows with a label list. Theorems: `C09_storage_refines`. Out of contract (no claim): unchecked operator() out of range, get_label out of range, set_label of a channel other than the unnamed last one (see C07_set_law).
- **C10 storage::add_channel is not exception safe.** State-after-throw is part of the model's outcome. Theorems: `C10_add_channel_duplicate`.
- **C11 storage interpolation between frames.** Exact real arithmetic over the storage model. Theorems: `C11_interpolated_value`, `C11_negative_position`, `C11_last_frame_refuted`. T is read as the real numbers.
- **C12 table column growth in place preserves every cell.** Imperative loops modelled as array updates; loop invariant on the yet-unmoved prefix. Theorems: `C12_table_resize_columns`, `C12_table_resize_outcomes`, `C12_add_column_default_refuted`.
- **C13 table label access.** Both orders modelled; confluence theorem; refinement to a two-key map with default T(). Theorems: `C13_table_refines`, `C12_table_resize_outcomes`. Evaluation order is chosen per call by the boolean attached to it.
- **C14 auto_storage_writer keeps each variable's history in order.** Built on the storage refinement; invariant per label. Theorems: `C14_writer_history`.
- **C15 circular_frame_buffer keeps the last N frames.** Ring model with explicit mod 2^64 subtraction; invariant over histories. Theorems: `C15_frame_buffer_refines`, `C15_at_accepts_present_frames_refuted`, `C15_add_channel_ring_refuted`.
- **C16 channel means and covariance.** Exact real arithmetic; sums over lists; PSD via sum of squares. Theorems: `C16_channel_means`, `C16_covariance_values`, `C16_covariance_laws`. T is read as the real numbers.
- **C17 trim_str / trim_right_str.** std::string searches with npos = 2^64-1 and wrapping arithmetic; uniqueness specification. Theorems: `C17_trim`, `C17_trim_total`, `C17_trim_unique`, `C17_trim_right`. Hypothesis fits: the string is shorter than 2^63 characters.
- **C18 split_str yields exactly the maximal separator-free runs.** Loop on positions with fuel; declarative decomposition spec with uniqueness. Theorems: `C18_split`, `C18_split_total`, `C18_split_unique`, `C18_split_join`.
- **C19 quoted / try_quoted round trip.** Byte-level model incl. %03o printing of a negative int; induction on s. Theorems: `C19_quoted_roundtrip`, `C19_try_quoted_roundtrip`, `C19_quoted_printable`, `C19_quoted_roundtrip_refuted`.
- **C20 try_unquoted and decode_char on arbitrary input.** UB is a distinct outcome; exact characterisation of the UB inputs. Theorems: `C20_unquoted_text`, `C20_quoted_text`, `C20_decode_escape`, `C20_decode_total`, `C20_decode_nothing`, `C20_try_unquoted_refuted`.
- **C21 str_begins_with / str_ends_with.** std::string::find as least position; exact iff plus refuting witness. Theorems: `C21_begins_with`, `C21_ends_with`, `C21_ends_with_refuted`.
- **C22 left_str / right_str / mid_str / left_of_str / right_of_str.** size_t arithmetic modulo 2^64. Theorems: `C22_left_str`, `C22_right_str`, `C22_right_str_min`, `C22_mid_str`, `C22_left_of_str`, `C22_right_of_str`. left_str with negative n converts the size to int; the model takes sizes below 2^31 there.
- **C23 make_key_value_str splits at the first separator.** On top of the C17 model. Theorems: `C23_key_value`, `C23_key_value_roundtrip`.
- **C24 filename helpers recompose.** Position arithmetic with npos. Theorems: `C24_extension`, `C24_folder`, `C24_folder_recompose`.
- **C25 path joining and splitting.** String model of every member; positive theorems and refuting witnesses. Theorems: `C25_parent_filename`, `C25_has_filename`, `C25_join_file`, `C25_recompose`, `C25_recompose_refuted`, `C25_bare_filename_refuted`, `C25_replace_filename`, `C25_extension`, `C25_replace_extension_refuted`, `C25_stem`, `C25_make_preferred`.
- **C26 integer text round trip.** Decimal printing and parsing defined separately; induction. Theorems: `C26_to_int`, `C26_from_int`, `C26_from_long`, `C26_from_unsigned`, `C26_roundtrip`, `C26_enum_roundtrip`, `C26_from_bool`, `C26_bool_word_refuted`, `C26_string_is`. Integers, bool, enum and string; float and double text conversion is not modelled. The prop_node part is C37.
- **C27 version text round trip.** Formatted printing and istream extraction modelled; uninitialised field is a distinct value. Theorems: `C27_roundtrip`, `C27_no_build_refuted`, `C27_postfix_refuted`, `C27_two_words_refuted`.
- **C28 compile-time and run-time hashes agree.** mod 2^64 arithmetic; bijectivity of the per-character step. Theorems: `C28_constexpr_agrees`, `C28_hash_string`, `C28_standard_fnv1a`, `C28_standard_fnv1a_refuted`, `C28_one_character`, `C28_common_ending`.
- **C29 scan_str / str_to_vec.** char_stream model specialised to words and integers. Theorems: `C29_str_to_vec`, `C29_elements_unique`, `C29_scan_str`, `C29_numbers`, `C29_scan_count_refuted`. Element types long, int and string; float elements are not modelled.
- **C30 dictionary lookup.** Association list model. Theorems: `C30_name`, `C30_element`, `C30_inverse`, `C30_lookup`.
- **C31 the token reader makes progress, and when it does not.** Fuelled loop; exact characterisation of inputs for which no fuel suffices. Theorems: `C31_eof_flag`, `C31_get_token`, `C31_token_unique`, `C31_terminates`, `C31_not_good`, `C31_always_returns_refuted`, `C31_prefix_lost_refuted`.
- **C32 every property text is parsed or rejected in finite time.** Fuel bound linear in the text length, proved sufficient. Theorems: `C32_terminates`, `C32_always_terminates_refuted`. Linear bound on the number of steps.
- **C33 save_prop / load_prop round trip.** Writer and parser modelled at byte level; induction on the tree with a continuation lemma for the parser. Theorems: `C33_roundtrip_trimmed`, `C33_roundtrip`, `C33_trimmed_unique`. Readable format. The file is taken to contain exactly the bytes written; on Windows the text-mode stream adds CR, which is also a delimiter.
- **C34 property texts that do not survive a round trip.** Refuting theorems on the C33 model. Theorems: `C34_value_and_children_refuted`, `C34_value_and_children_nested_refuted`, `C34_cut_value_refuted`, `C34_apostrophe_refuted`, `C34_white_space_refuted`, `C34_bad_label_refuted`, `C34_compact_refuted`. Families of inputs on which the natural round trip fails; each theorem gives the result for the whole family.
- **C35 comments in property files.** Token-level lemma on the parser model. Theorems: `C35_comment_skipped`, `C35_comment_first`, `C35_comment_between`, `C35_empty_comment_refuted`, `C35_quoted_percent_refuted`, `C35_trailing_comment_refuted`.
- **C36 ini save/load.** Line-based model; induction on groups. Theorems: `C36_load`, `C36_load_lines`, `C36_roundtrip`, `C36_value_after_group_refuted`, `C36_comment_refuted`. Trees are compared up to access marks. The file is taken to contain exactly the bytes written.
- **C37 prop_node set/get.** Tree model; lookup specification over the child list. Theorems: `C37_get`, `C37_get_any`, `C37_set_get`, `C37_set_place`, `C37_set_others`. Generic in the text conversion; for every policy of when the child vector reallocates. Subtrees are unchanged up to access marks.
- **C38 delimited keys.** Paths as split keys; induction on the component list. Theorems: `C38_get`, `C38_path`, `C38_set_get`, `C38_set_others`.
- **C39 prop_node equality is structural.** Decision procedure versus inductive equality. Theorems: `C39_structural`, `C39_marks_only`, `C39_copy`, `C39_equivalence`.
- **C40 access tracking.** Marked trees; exact set of marks after each operation. Theorems: `C40_count`, `C40_clear`, `C40_get_marks`, `C40_log`, `C40_marks_persist_refuted`.
- **C41 merge_prop_nodes.** Lookup specification. Theorems: `C41_keep`, `C41_overwrite`, `C41_keys`, `C41_overwrite_first_refuted`. The two nodes are different objects.
- **C42 include resolution terminates and is complete.** File system as a function from paths to trees; lexicographic measure. Theorems: `C42_terminates`, `C42_cycle`, `C42_no_include`, `C42_expand`, `C42_merge`, `C42_merge_true_refuted`, `C42_root_folder_refuted`, `C42_deep_refuted`. Loading ends for every file system and include graph and leaves no directive; include cycles throw; plain and merging includes are characterised. Refuted: 'merge_children = true' is not read as true, includes of a file in the root folder are looked up elsewhere, acyclic chains of 100 levels throw.
- **C43 structured values survive prop_node conversion.** Generic over an element codec with a proved round trip; bounds have no writing conversion, so only reading is characterised. Theorems: `C43_basic`, `C43_vector`, `C43_vec3_quat_transform`, `C43_set_get`, `C43_labels`, `C43_file`, `C43_carries`, `C43_vec3_text`, `C43_vec3_text_refuted`, `C43_bounds`, `C43_bounds_int`, `C43_bounds_printed_refuted`. Float text conversions enter as a codec with a round trip hypothesis. Refuted: bounds printed with operator<< lose their upper limit when read; a text value of a vec3 node overrides its parts.
- **C44 log messages reach exactly the interested sinks.** Invariant: cached level <= every registered sink's level; no duplicates. Theorems: `C44_delivery`, `C44_history_decides`, `C44_receivers`, `C44_defined`, `C44_deleted`, `C44_formatted_short`, `C44_formatted_refuted`, `C44_copy_refuted`, `C44_lowest_refuted`. Delivery over all call histories; the cached lowest level never hides a message. Formatted messages are cut at 1023 characters, copied sinks are not registered.
- **C45 profiler accounting.** State machine with a clock oracle; invariant over traces. Theorems: `C45_sections`, `C45_defined`, `C45_unmatched_end_refuted`, `C45_exclusive_sum`, `C45_exclusive_nonneg`, `C45_exclusive_open_refuted`, `C45_overhead`. All histories; non-negative exclusive time for closed sections and the root, refuted for open ones.
- **C46 stopwatch loses no time.** Telescoping invariant. Theorems: `C46_report`, `C46_total`, `C46_internal_refuted`. Times are exact numbers; intervals given up by start_first_measure are accounted for separately.
- **C47 memoize is transparent and calls once.** Stateful function oracle; invariant over histories. Theorems: `C47_transparent`, `C47_once`, `C47_pure`, `C47_weak_order_refuted`, `C47_recursive`, `C47_recursive_sound`. Stateful and throwing functions, and functions that recurse through their memoized version.
- **C48 test counters.** Counter state machine. Theorems: `C48_counts`, `C48_sum`, `C48_reset_refuted`, `C48_defined`. The reset bug is refuted with a witness.
- **C49 flag_set is a set of flags.** Bitwise integers refined to a boolean function. Theorems: `C49_flags`, `C49_undefined`, `C49_get_undefined`, `C49_narrow`, `C49_narrow_refuted`. All storage widths and histories.
- **C50 create_unique_folder.** File system as a map from absolute names to folders and files; system calls by their POSIX contract; induction over the path and the attempts. Theorems: `C50_create_unique_folder`, `C50_first_free_name`, `C50_blocked_throws`, `C50_create_directories`, `C50_trailing_separator_refuted`.
- **C51 copy_file.** File system map model of the stream implementation; CopyFile by its documented contract. Theorems: `C51_copy`, `C51_keeps_existing`, `C51_no_place`, `C51_missing_source`, `C51_onto_itself`, `C51_folder_source`, `C51_failure_keeps_target_refuted`, `C51_msvc_flag_inverted`.
- **C52 clamp.** Generic total order; nearest-point over the reals. Theorems: `C52_clamp_nearest`, `C52_clamp_inside`, `C52_clamp_monotone`, `C52_clamp_idempotent`, `C52_clamp_exchanged`, `C52_clamp_any_order`, `C52_clamp_ieee`, `C52_clamp_ieee_nan_limit`. Exact reals, any strict order, and IEEE floats of every format (NaN included).
- **C53 soft clamp.** Real arithmetic. Theorems: `C53_soft_clamp_inside`, `C53_soft_clamp_middle`, `C53_soft_clamp_increasing`, `C53_soft_clamp_symmetric`, `C53_soft_clamp_zero`, `C53_wide_boundary_refuted`. Exact reals.
- **C54 wrap.** fmod modelled as truncated remainder over the reals. Theorems: `C54_fmod`, `C54_wrap`, `C54_wrap_inside`, `C54_below_upper_refuted`, `C54_idempotent_refuted`, `C54_square_wave`, `C54_square_wave_period_refuted`. Exact reals.
- **C55 integer predicates.** Bitwise integers. Theorems: `C55_is_power_of_two`, `C55_even_odd`.
- **C56 quaternion algebra.** Polynomial identities over a commutative ring. Theorems: `C56_product`, `C56_unit_group`, `C56_rotation`, `C56_sequence`, `C56_normalized`, `C56_any_length_refuted`. Exact reals.
- **C57 transform algebra.** From C56. Theorems: `C57_composition`, `C57_inverse`, `C57_group`. Exact reals.
- **C58 quaternion constructors.** Real analysis (sqrt, sin, cos). Theorems: `C58_axis_angle`, `C58_axis_angle_throws`, `C58_euler`, `C58_directions`, `C58_directions_short_refuted`, `C58_axes`, `C58_axes_left_handed_refuted`, `C58_axis_angle_round_trip`. Exact reals; the rotation to a direction is exact except within the tolerance of equals (identity) and for opposite vectors.
- **C59 bounding_box is the tightest box.** Min/max folds over a total order. Theorems: `C59_smallest`, `C59_same_points_same_box`, `C59_order`, `C59_default`, `C59_inside_out_refuted`. Exact reals.
- **C60 bounds.** Real arithmetic. Theorems: `C60_bounds`, `C60_negation`. Exact reals; bounds::soft_clamp cannot be instantiated and is not modelled.
- **C61 polynomials and linear regression.** Sums over lists in the reals. Theorems: `C61_polynomial`, `C61_intersect_y`, `C61_regression_defined`, `C61_least_squares`, `C61_exact_line`, `C61_fixed_steps`, `C61_fixed_steps_undefined`. Exact reals; a division by zero (a result that is not finite) is UB in the model.
- **C62 piecewise linear function.** Real arithmetic with floor. Theorems: `C62_construct`, `C62_broken_line`, `C62_total`, `C62_nodes`, `C62_affine`, `C62_error`, `C62_monotone`. Exact reals.
- **C63 interpolated_value on sorted buffers.** upper_bound of C06. Theorems: `C63_interpolated_value`, `C63_defined`, `C63_stored`, `C63_bounded`, `C63_plain_vector`, `C63_huge_key_refuted`, `C63_integer_keys`, `C63_integer_keys_interpolate_refuted`, `C63_unsorted_refuted`. Exact reals.
- **C64 Catmull-Rom segment.** Ring identities. Theorems: `C64_ends`, `C64_velocity`, `C64_smooth_joint`, `C64_parabola`, `C64_weights`, `C64_reverse`, `C64_alpha_zero`, `C64_alpha_defined`, `C64_alpha_ends`, `C64_alpha_smooth_joint`, `C64_length`, `C64_length_straight`, `C64_length_no_steps_refuted`. Exact reals. The class catmull_rom does not compile and is not modelled.
- **C65 iir_filter implements its difference equation.** Shift register refinement. Theorems: `C65_difference_equation`, `C65_unique`, `C65_queries`, `C65_linear`, `C65_time_invariant`, `C65_causal`, `C65_superposition`, `C65_feedback`, `C65_older_value_refuted`, `C65_order_zero`. Exact reals.
- **C66 Butterworth low-pass design.** Real analysis. Theorems: `C66_defined`, `C66_stable`, `C66_settles`, `C66_alternating`, `C66_tone`, `C66_cutoff`, `C66_attenuation`, `C66_any_ratio_refuted`. Exact reals.
- **C67 delayer.** Ring buffer invariant. Theorems: `C67_delay`, `C67_whole_windows`, `C67_ramp`, `C67_initial_value_refuted`, `C67_clock`, `C67_steady`, `C67_range_refuted`, `C67_smooth`, `C67_smooth_bounded`, `C67_smooth_constant`, `C67_smooth_long_step_refuted`. Exact reals.
- **C68 integer ranges.** Fuelled iteration. Theorems: `C68_range`, `C68_members`, `C68_step`, `C68_signed`, `C68_unsigned`, `C68_reversed_refuted`, `C68_difference`, `C68_difference_refuted`, `C68_postfix`. Integer types at least as wide as int. The postfix ++ of irange does not compile.
- **C69 running average and delta.** Induction over histories. Theorems: `C69_average`, `C69_samples_unique`, `C69_bounded`, `C69_order`, `C69_scale`, `C69_empty`, `C69_weights_refuted`, `C69_delta`, `C69_telescope`. Exact reals.
- **C70 optional with sentinel.** Case analysis over the modelled type. Theorems: `C70_general`, `C70_integral`, `C70_floating`, `C70_holds_unique`, `C70_sentinel_refuted`, `C70_empty_star_refuted`, `C70_equality_refuted`, `C70_equality_general`, `C70_moved_from_refuted`, `C70_read_long`, `C70_read_int`, `C70_read_string`, `C70_failed_stream`.
- **C71 container tools.** Permutation reasoning. Theorems: `C71_sorted_copy`, `C71_median`, `C71_median_order`, `C71_median_counts`, `C71_median_closest`, `C71_median_affine`, `C71_median_int`, `C71_median_int_refuted`, `C71_average`, `C71_average_int`, `C71_average_nothing_refuted`, `C71_top_average`, `C71_top_average_least`, `C71_top_average_refuted`, `C71_sort_indices`, `C71_sort_indices_stable_refuted`, `C71_find_index`, `C71_find_if`, `C71_back_index`, `C71_min_max`, `C71_view`, `C71_select`, `C71_print`. Exact reals; integer types at least as wide as int; the algorithms of the standard library by contract.
- **C72 vec4 arithmetic.** Ring identities. Theorems: `C72_vec4`, `C72_scaling_refuted`. Exact reals; binary minus does not compile and is not modelled.
- **C73 dynarray ownership.** Explicit heap model. Theorems: `C73_values`, `C73_memory`, `C73_independent`, `C73_moved_from_refuted`, `C73_self_assignment_refuted`, `C73_uninitialized_refuted`. Allocation never fails. The move assignment does not compile and is not modelled.
- **C74 angle conversions.** Field identities. Theorems: `C74_round_trip`, `C74_additive`, `C74_comparison`, `C74_half_turn_refuted`. Exact reals with the constant pi of the code.
- **C75 approximate equality and signed roots.** Real arithmetic. Theorems: `C75_equals_reflexive`, `C75_equals_zero`, `C75_equals_symmetric_refuted`, `C75_equals_nearly_symmetric`, `C75_signed_sqrt`.
- **C76 Euler angles from a quaternion.** atan2 over the reals. Theorems: `C76_single_axis`, `C76_round_trip_refuted`. Exact reals.
- **C77 vector lengths and products.** Real arithmetic. Theorems: `C77_normalized`, `C77_lengths`, `C77_cross`, `C77_polar`. Exact reals.
- **C78 property names of members.** Relational specification of the name; composition with C37. Theorems: `C78_tidy`, `C78_clean`, `C78_decorations`, `C78_save_restore`, `C78_absent`, `C78_separate_refuted`, `C78_bare_refuted`.
- **C79 timers.** Induction on histories; the clock is an input. Theorems: `C79_units`, `C79_refine`, `C79_since_reset`, `C79_monotone`, `C79_laps`, `C79_lap_sum_refuted`, `C79_windows`, `C79_windows_total_refuted`. The clock is an input; exact reals for seconds, minutes and hours.
- **C80 pattern matcher.** The matching function of the operating system is a parameter. Theorems: `C80_match`, `C80_union`, `C80_none`, `C80_of_node`, `C80_select`, `C80_pattern_checked_refuted`, `C80_null_refuted`. The matching function of the system is a parameter; the code only compiles on Windows.
- **C81 property files on disk and error codes.** Composition of the file system model with C31-C41. Theorems: `C81_load_string`, `C81_load_string_plain`, `C81_error_code`, `C81_load_prop`, `C81_error_code_catches_refuted`, `C81_stale_error_refuted`, `C81_folder_refuted`, `C81_save_prop`, `C81_persist`, `C81_ini`, `C81_ini_saved_refuted`, `C81_load_file`. XML files are in C86 to C88.
- **C82 cloning pointers.** Explicit heap. Theorems: `C82_clone`, `C82_independent`, `C82_null_refuted`, `C82_copy_throws`, `C82_derived_refuted`. Freed addresses are not reused.
- **C83 printing a node and the access marks.** Relational specification of the text. Theorems: `C83_text`, `C83_text_unique`, `C83_print_marks`, `C83_save_marks`, `C83_unread_refuted`, `C83_ini_marks`, `C83_text_distinct_refuted`. Widths do not overflow int.
- **C84 function sampling.** Real and integer arithmetic. Theorems: `C84_samples`, `C84_one_sample_refuted`, `C84_one_sample_int_refuted`, `C84_samples_int`, `C84_int_overflow_refuted`. Exact reals and int.
- **C85 short names of types.** String editing; composition with C05. Theorems: `C85_short_name`, `C85_idempotent`, `C85_factory`, `C85_template_refuted`.
- **C86 reading XML.** Grammar as inductive relations; mutual induction over the recursive descent parser; extension lemma for prefixes. Theorems: `C86_parse`, `C86_unique`, `C86_total`, `C86_truncated`, `C86_one_root_refuted`, `C86_end_tag_refuted`, `C86_text_refuted`. Parse flags 0; the grammar has document type declarations with nested brackets but no CDATA. Unsigned long has 32 bits.
- **C87 saving XML.** The printed text is shown to be in the grammar of C86. Theorems: `C87_save_load`, `C87_loads`, `C87_roundtrip`, `C87_other_roots_refuted`, `C87_inner_value_refuted`, `C87_keys_refuted`.
- **C88 XML files and error codes.** Composition of C86, C87 with the file system of C50. Theorems: `C88_load_xml`, `C88_missing`, `C88_no_throw`, `C88_stale_error_refuted`, `C88_save_xml`, `C88_persist`, `C88_load_file`. Failed writes to open files are not modelled.
- **C89 log files.** Refinement by an invariant over histories; composition of C44 with the file system of C50. Theorems: `C89_file`, `C89_readable`, `C89_append`, `C89_frame`, `C89_good`, `C89_log`, `C89_defined`, `C89_line_end_refuted`, `C89_earlier_runs_refuted`, `C89_shared_refuted`, `C89_no_place_refuted`. Failed writes to open files and line end conversion are not modelled; the reference that file_sink takes to its stream before the stream is constructed is taken to work.
- **C90 text of floating point numbers.** Integer arithmetic on multiples of the smallest number; longest match of a grammar; uniqueness of rounding. Theorems: `C90_text`, `C90_text_unique`, `C90_read`, `C90_throws`, `C90_is`, `C90_stream`, `C90_read_unique`, `C90_roundtrip`, `C90_exact`, `C90_exact_cases`, `C90_text_order`, `C90_read_order`, `C90_cast`, `C90_file`, `C90_bounds`, `C90_vec3_text`, `C90_small_refuted`, `C90_trailing_refuted`, `C90_underflow_refuted`, `C90_overflow_refuted`. The C library is modelled by its standard, with correct rounding; which results below the smallest normal number are range errors is a parameter. Signs and payloads of nan are left out.
- **C91 comparing functions on float and double.** IEEE order placed on the extended reals; induction over the sequence. Theorems: `C91_formats`, `C91_clamp`, `C91_clamp_mono`, `C91_clamp_twice`, `C91_clamp_nan_refuted`, `C91_between`, `C91_sign`, `C91_extremes`, `C91_extremes_nan_refuted`, `C91_box`, `C91_max`, `C91_box_tight`, `C91_box_infinite_refuted`, `C91_box_nan_refuted`. IEEE float and double, with signed zeros, infinities and nan.
- **C92 bounds of float and double.** Correct rounding characterised by nearest grid points; a difference of numbers of the format is at least one unit. Theorems: `C92_violation`, `C92_violation_value`, `C92_within_iff`, `C92_clamped`, `C92_nan_refuted`, `C92_violation_mono`, `C92_range`, `C92_range_refuted`, `C92_neg`, `C92_add_back_refuted`. IEEE float and double, every operation rounded to nearest even.
- **C93 equals on float and double.** Monotonicity of rounding and a bound of its relative error. Theorems: `C93_complete`, `C93_sound`, `C93_reflexive`, `C93_zero`, `C93_infinite_refuted`, `C93_neighbours`, `C93_tiny_refuted`, `C93_tolerance`, `C93_signs`, `C93_symmetric_refuted`. IEEE float and double, every operation rounded to nearest even; tolerances are finite and not negative.
- **C94 wrap and square_wave on float and double.** A grid point below the rounded length is not above the length; remainders are representable. Theorems: `C94_fmod`, `C94_range`, `C94_value`, `C94_fixed`, `C94_inside_refuted`, `C94_upper_refuted`, `C94_nan_refuted`, `C94_square_wave`. IEEE float and double; fmod of two floats is the float overload.
- **C95 average and delta of float and double.** Induction over the sequence with the relative error of rounding. Theorems: `C95_counter`, `C95_sum_error`, `C95_error`, `C95_exact`, `C95_weighted`, `C95_mono`, `C95_one`, `C95_frozen_refuted`, `C95_bounded_refuted`, `C95_delta`, `C95_delta_refuted`. IEEE float and double; for weights other than 1 the sums are assumed to be exact, the average of others is covered by the real numbers of C69 only.
- **C96 square roots on float and double.** The integer root with a sticky half rounds like the root, as no tie can lie between; the gap of the numbers around x bounds the root of the rounded square. Theorems: `C96_sqrt`, `C96_sqrt_mono`, `C96_signed_sqrt`, `C96_sqrt_square`, `C96_sqrt_square_refuted`, `C96_inv`. IEEE float and double; sqrt is taken to be correctly rounded, as IEEE 754 demands, and modelled by the integer root of the significand.
- **C97 vec3 on float and double.** The relative errors of the roundings multiplied, with the loss below the normal numbers bounded by units. Theorems: `C97_length`, `C97_length_zero`, `C97_length_dominates`, `C97_length_axis`, `C97_length_error`, `C97_normalized`, `C97_distance`, `C97_dot`, `C97_cross`, `C97_cross_error`, `C97_sums`, `C97_equal`, `C97_div`, `C97_size_refuted`, `C97_order_refuted`, `C97_triangle_refuted`, `C97_div_refuted`, `C97_again_refuted`. IEEE float and double, no fused multiply-add; that is_normalized accepts every normalized vector is neither proved nor refuted.
- **C98 interpolation on float and double.** The weight is in [0, 1] as division by a larger number is; its complement has the error of one rounding; both products and the sum add their relative errors. Theorems: `C98_outside`, `C98_value`, `C98_stored`, `C98_sign`, `C98_mono`, `C98_index`, `C98_index_refuted`, `C98_constant_refuted`, `C98_mono_refuted`, `C98_gap_refuted`. IEEE float and double, every operation rounded to nearest even; keys sorted in the order of the numbers, and the error of C98_value is stated for finite keys and values whose differences do not overflow. Monotonicity is proved from a value that is not positive to one that is not negative only; C98_mono_refuted shows that it fails in general.
- **C99 tables of functions on float and double.** Errors of position, weight and mixing added; the broken line is continuous, so a neighbouring interval does no harm. Theorems: `C99_make`, `C99_defined`, `C99_inside`, `C99_outside`, `C99_node`, `C99_abscissa`, `C99_conv`, `C99_function`, `C99_empty_refuted`, `C99_node_refuted`. IEEE float and double, every operation rounded to nearest even; the tabulated function is taken to be a function, and new does not run out of memory. C99_conv states that the conversions between float and double round correctly, and are exact to double.
- **C100 polynomials and lines on float and double.** Induction over the coefficients, with relative and absolute errors kept apart. Theorems: `C100_error`, `C100_nan`, `C100_mirror`, `C100_even`, `C100_negative`, `C100_odd`, `C100_zero`, `C100_mono`, `C100_whole`, `C100_intersect`, `C100_zero_coefficient_refuted`, `C100_intersect_refuted`. IEEE float and double, every operation rounded to nearest even, no fused multiply-add. C100_error assumes that no term overflows.
- **C101 sorting, medians, averages and extremes of vectors of float and double.** Sorting is a parameter with the contract of the standard; a sum of 2^p units or more is twice a number of the format, so that halving is exact. Theorems: `C101_sortable`, `C101_sorts`, `C101_sorted_copy`, `C101_median_defined`, `C101_median`, `C101_median_odd`, `C101_median_order`, `C101_average_empty`, `C101_average`, `C101_average_class`, `C101_average_exact`, `C101_average_mono`, `C101_average_order_refuted`, `C101_average_bounded_refuted`, `C101_median_overflow_refuted`, `C101_top_average`, `C101_top_average_undefined`, `C101_min_max`, `C101_sort_indices`, `C101_find_index`, `C101_find_nan_refuted`. IEEE float and double; std::sort is any function that meets its contract (C101_sorts shows that there are such), and is taken to be undefined where its precondition, a strict weak order of the elements, fails.
- **C102 floating point numbers in streams.** Rounding to P digits keeps the order and its gaps; two grid points differ by at least 2^-p of their size, two decimals by at least 10^-P, so the coarser grid is recovered through the finer one. Theorems: `C102_text`, `C102_text_unique`, `C102_shape_unique`, `C102_digits_unique`, `C102_error`, `C102_names`, `C102_read`, `C102_read_unique`, `C102_exact`, `C102_exact_digits`, `C102_stable`, `C102_stable_digits`, `C102_finite`, `C102_order`, `C102_get`, `C102_vec3`, `C102_vec3_exact`, `C102_quat`, `C102_failed`, `C102_end`, `C102_char_stream`, `C102_bounds`, `C102_infinite_refuted`, `C102_lossy_refuted`, `C102_stable_refuted`, `C102_overflow_refuted`, `C102_underflow_refuted`. The streams of the standard library are modelled by the C++ standard (default flags, classic locale, correct rounding); which results below the smallest normal number are range errors, and what is stored then, are parameters.
- **C103 storages, tables, vectors, debug files and samples as text.** The histories of C08, C12 and C14 followed to the text; fields and lines are cut at the first separator; the errors of four roundings added. Theorems: `C103_storage`, `C103_table`, `C103_vector`, `C103_unique`, `C103_plain`, `C103_distinct`, `C103_determined`, `C103_field`, `C103_debug`, `C103_samples`, `C103_sample_error`, `C103_sample_order`, `C103_sample_first`, `C103_one_sample_refuted`, `C103_last_refuted`, `C103_overflow_refuted`, `C103_tab_refuted`, `C103_empty_refuted`. Streams as in C102; that the file can be opened is taken for granted. C103_sample_error, C103_sample_order and C103_sample_first assume that 8 n times the larger end does not overflow and that n - 1 is at most 2^p.
- **C104 quaternions, transforms and vec4 on float and double.** A theory of rounded sums and products: the error is bounded by the number of roundings and the sum of the sizes of the terms, with the loss below the normal numbers kept apart. Theorems: `C104_product`, `C104_product_finite`, `C104_product_bad`, `C104_product_whole`, `C104_identity`, `C104_conjugate`, `C104_rotate`, `C104_transform`, `C104_rotate_length`, `C104_chain`, `C104_normalized`, `C104_rotate_bad`, `C104_rotate_identity`, `C104_compose`, `C104_round_trip`, `C104_length`, `C104_is_normalized`, `C104_vec4`, `C104_product_refuted`, `C104_round_trip_refuted`, `C104_size_refuted`, `C104_vec4_refuted`. IEEE float and double, every operation rounded to nearest even, no fused multiply-add. Rotations assume parts of the quaternion of at most 2, and finite results; C104_normalized assumes that the computed length is finite.
- **C105 filters and delayers on float and double.** The error of each step is an input of the exact feedback; superposition of impulse responses bounds its effect, by strong induction over time. Theorems: `C105_equation`, `C105_queries`, `C105_error`, `C105_poison`, `C105_forever`, `C105_contraction`, `C105_whole`, `C105_rest`, `C105_order_zero`, `C105_decay_refuted`, `C105_delayer_window`, `C105_delayer_clock`, `C105_delay`, `C105_delayer_exact`, `C105_delayer_value`, `C105_delay_infinite_refuted`, `C105_delay_tiny_refuted`. IEEE float and double, no fused multiply-add; the argument of a filter is not one of its registers. In delayers the values have the format of the times (float). make_lowpass_butterworth_2nd_order calls tan, whose rounding is not specified, and stays with C66; smooth_delayer stays with C67.
- **C106 the report of a profiler.** The tree is built by induction over the depth of sections, each node by the sequence of writes under its key; the text by the error of four roundings and of printing. Theorems: `C106_report`, `C106_distinct`, `C106_reachable`, `C106_percent`, `C106_sum`, `C106_open`, `C106_lost_refuted`, `C106_sum_refuted`, `C106_open_refuted`. Durations below 2^p nanoseconds (104 days for double). printf rounds correctly, half to even, as the C libraries do; the text of nan is a parameter of at most 25 characters. std::sort is any function that sorts; the texts of the names are a parameter. C106_example shows a run of three calls.
- **C107 timers and stopwatches on double.** By induction over the history; a sum of k intervals of a common sign has relative error at most (1+u)^k - 1; the counts are carried to readings by the error of the division. Theorems: `C107_report`, `C107_error`, `C107_total`, `C107_exact`, `C107_text`, `C107_seconds`, `C107_resolution`, `C107_true`, `C107_exact_refuted`, `C107_shown_refuted`, `C107_resolution_refuted`. Readings that do not go back and at most 2^(p-1) calls, p the bits of the format. duration<double> is taken to divide the count by the number of nanoseconds in a unit. C107_example shows a stopwatch with two labels, and the three units.
- **C108 means, covariances and regression on float and double.** Errors of mean, deviation, product and sum bounded one after another; whole numbers by induction, since all partial sums are on the grid. Theorems: `C108_means`, `C108_covariance`, `C108_symmetric`, `C108_variance`, `C108_error`, `C108_one`, `C108_regression`, `C108_degenerate`, `C108_slope`, `C108_exact`, `C108_line`, `C108_step`, `C108_step_degenerate`, `C108_constant_refuted`, `C108_shift_refuted`, `C108_slope_refuted`. Values, means and results in one format. C108_error and C108_slope need n u <= 1/100 for n values and products that neither overflow nor are subnormal; C108_exact, C108_line and C108_step need whole numbers small enough for all sums to be exact. C108_example shows a storage of two channels and both kinds of regression.
- **C109 lines of the test framework in the log.** Simulation of the counters of C48 and the sinks of C44; uniqueness of decimal numerals for reading lines back. Theorems: `C109_printed`, `C109_decided`, `C109_state`, `C109_result`, `C109_defined`, `C109_failures`, `C109_numbers`, `C109_report`, `C109_read`, `C109_read_refuted`, `C109_reset_refuted`, `C109_unseen_refuted`. Names are C strings that are not null; sinks take every line; the static log level is the default one. C109_example shows two sinks and three tests.
- **C110 Catmull-Rom segments of float and double.** Errors of coefficients, products and sums bounded one after another in multiples of u M; exactness since all intermediate results are on the grid. Theorems: `C110_error`, `C110_start`, `C110_end`, `C110_exact`, `C110_nan`, `C110_negative`, `C110_vector`, `C110_end_refuted`, `C110_constant_refuted`, `C110_large_refuted`. The parameter has the type of the components. M is at least the smallest normal number and 32 M does not overflow. The variant with alpha uses pow and is proved over exact reals only (C64). C110_example shows two values.
- **C111 the length of a curve of floats.** Induction over the sides: relative error of sums of numbers of one sign; rounding is monotone and exact on whole numbers. Theorems: `C111_widen`, `C111_sides`, `C111_outcome`, `C111_error`, `C111_zero`, `C111_still`, `C111_parameters`, `C111_parameter`, `C111_last_refuted`, `C111_positive_refuted`. For curves of vec3 of float. The curve is any function of the parameter, called once per step as in the code; the error of a single side is in C97. C111_example shows the sides of a line.

## What is modelled, file by file

Each definition in `Model/` cites the lines it transcribes; the table says
which claims cover a file.

| Source | Claims | Left out or simplified |
|---|---|---|
| `circular_deque.hpp` | C01–C03 | |
| `flat_map.hpp`, `sorted_vector.hpp`, `factory.hpp` | C04–C06, C85 | `sorted_vector::find` does not compile |
| `buffer/data_header.hpp`, `storage.hpp`, `table.hpp`, `buffer/data_algorithms.hpp` | C07–C13, C16, C103, C108 | const label access and const `operator[]` do not compile |
| `system/debug_storage.*`, `buffer/circular_frame_buffer.hpp` | C14, C15, C103 | `get_interpolated_value` of the frame buffer does not compile |
| `string_tools.*`, `system/string_cast.hpp`, `hash.hpp`, `char_stream.*` | C17–C24, C26, C28, C29, C31, C80, C90, C102 | floating point text by the C and C++ standards with correct rounding, which results are underflow is a parameter; locales and stream flags other than the precision; `pattern_match` calls a parameter |
| `system/path.*`, `system/version.hpp` | C25, C27 | |
| `dictionary.hpp`, `memoize.hpp`, `flag_set.hpp`, `dynarray.hpp`, `memory_tools.hpp`, `container_tools.hpp` | C30, C47, C49, C71, C73, C82, C101, C103 | `flag_set::clear( initializer_list )`, move assignment of `dynarray` do not compile; allocation never fails; freed addresses are not reused in C82 |
| `prop_node.*`, `prop_node_tools.*` | C32–C43, C78, C81, C83, C86–C88 | access marks are not carried along in C42, C43 and C87 |
| `contrib/rapidxml-1.13` | C86–C88 | parse flags 0; printing of elements without attributes; memory pool and stack exhaustion |
| `system/log*`, `system/profiler.*`, `system/test_framework.*`, `stopwatch.*`, `timer.*` | C44–C46, C48, C79, C89, C106, C107, C109 | `file_sink` hands out its stream before it is constructed (taken to work); sinks do not log while they handle a message; static initialisation order; `decimals` of the stopwatch has no effect |
| `filesystem.*`, `system/error_code.hpp` | C50, C51, C81, C88 | no links, permissions or limits; a failed write to an open file; `CopyFile` by contract; `exists` outside Windows does not compile |
| `math/math.hpp`, `math/angle.hpp`, `math/vec3*`, `math/vec4*`, `math/quat*`, `math/mat33*`, `math/transform.hpp` | C52–C58, C72, C74–C77, C91, C93, C94, C96, C97, C102, C104 | rounding, except in C91, C93, C94, C96, C97 and C104; narrowing through `vec3f` in `axis_angle_from_quat`; binary minus of `vec4` does not compile; the member `normalized` of the zero vector is UB in the model of real numbers and nan in that of C97 |
| `math/bounding_box.hpp`, `math/bounds.hpp`, `math/polynomial.hpp`, `math/linear_regression.hpp`, `math/regular_piecewise_linear_function.hpp`, `buffer/interpolation.hpp`, `buffer/buffer_access.hpp`, `math/catmull_rom.hpp` | C59–C64, C91, C92, C98–C100, C102, C108, C110, C111 | rounding, except in C91, C92, C98–C100, C108, C110 and C111; rounding of knots; the class `catmull_rom` and `bounds::soft_clamp` do not compile |
| `filter.hpp`, `math/delayer.hpp`, `math/irange.hpp`, `math/average.hpp`, `math/delta.hpp`, `math/optional.hpp`, `debug_tools.hpp` | C65–C70, C84, C95, C103, C105 | rounding, except in C95, C103 and C105; postfix increment of `irange` does not compile; failed files in C84 and C103 |
| `system_tools.*` | C78, C85 | `remove`, `get_date_time_str`, `crash`, `sleep`, `set_thread_priority`, `wait_for_key`; the demangler is a parameter |

Not modelled at all: `interruptible.*` (one flag), `math/random.*` (a wrapper
of the distributions of the standard library), `math/unit_value.hpp` (a struct
with a constructor), `math/experimental/*`, `local_vector.hpp` and
`buffer/key_frame_buffer.hpp` (they do not compile), `buffer/buffer_io.hpp`
(empty), build and platform headers, `test/`.

## Reading notes

- Some code compiles with MSVC only: `parse_prop` takes a non-const reference
  to a temporary, `container_tools.hpp` writes `typename const It::value_type`,
  `linear_regression.hpp` and `irange.hpp` include internal headers. The model
  takes MSVC's reading.
- `isalpha` of a negative `char` is taken to be false. `unsigned long` has 32
  bits. Text mode files are read and written byte by byte: the conversion of
  line ends on Windows is left out.
- The algorithms of the standard library (`sort`, `nth_element`, `lower_bound`,
  `find_if`, ...) are modelled by their contracts: any result the standard
  allows, where it allows more than one.
- Clocks are inputs. Durations are 64-bit nanosecond counts.
- `printf` widths and counts do not overflow `int`.

## Assumptions of each theorem

This is the output of `Print Assumptions` for every theorem in MANIFEST.json.

**Closed under the global context** (441 theorems): every theorem in MANIFEST.json that is not listed below.

**`ClassicalDedekindReals.sig_forall_dec`** (3 theorems):
C65_older_value_refuted, C69_samples_unique, C69_delta

**`ClassicalDedekindReals.sig_forall_dec`, `FunctionalExtensionality.functional_extensionality_dep`** (307 theorems):
C11_interpolated_value, C11_negative_position, C11_last_frame_refuted, C16_channel_means,
C16_covariance_values, C16_covariance_laws, C52_clamp_nearest, C52_clamp_inside, C52_clamp_monotone,
C52_clamp_idempotent, C52_clamp_exchanged, C53_soft_clamp_inside, C53_soft_clamp_middle,
C53_soft_clamp_increasing, C53_soft_clamp_symmetric, C53_soft_clamp_zero, C53_wide_boundary_refuted,
C54_fmod, C54_wrap, C54_wrap_inside, C54_below_upper_refuted, C54_idempotent_refuted,
C54_square_wave, C54_square_wave_period_refuted, C56_unit_group, C56_sequence, C57_composition,
C57_inverse, C57_group, C59_smallest, C59_same_points_same_box, C59_order, C59_default,
C59_inside_out_refuted, C60_bounds, C60_negation, C61_polynomial, C61_intersect_y,
C61_regression_defined, C61_least_squares, C61_exact_line, C61_fixed_steps,
C61_fixed_steps_undefined, C62_construct, C62_broken_line, C62_total, C62_nodes, C62_affine,
C62_error, C62_monotone, C63_interpolated_value, C63_defined, C63_stored, C63_bounded,
C63_plain_vector, C63_huge_key_refuted, C63_integer_keys, C63_integer_keys_interpolate_refuted,
C63_unsorted_refuted, C64_ends, C64_velocity, C64_smooth_joint, C64_parabola, C64_weights,
C64_reverse, C65_difference_equation, C65_unique, C65_queries, C65_linear, C65_time_invariant,
C65_causal, C65_superposition, C65_feedback, C67_delay, C67_whole_windows, C67_ramp,
C67_initial_value_refuted, C67_clock, C67_steady, C67_range_refuted, C67_smooth, C67_smooth_bounded,
C67_smooth_constant, C67_smooth_long_step_refuted, C69_average, C69_bounded, C69_order, C69_scale,
C69_empty, C69_weights_refuted, C69_telescope, C70_floating, C70_empty_star_refuted,
C71_sorted_copy, C71_median, C71_median_order, C71_median_counts, C71_median_closest,
C71_median_affine, C71_average, C71_top_average, C71_top_average_least, C71_top_average_refuted,
C71_sort_indices, C71_min_max, C72_vec4, C72_scaling_refuted, C74_round_trip, C74_additive,
C74_comparison, C75_equals_reflexive, C75_equals_zero, C75_equals_symmetric_refuted,
C75_equals_nearly_symmetric, C79_units, C79_monotone, C84_samples, C84_one_sample_refuted,
C91_formats, C91_clamp, C91_clamp_mono, C91_clamp_twice, C91_clamp_nan_refuted, C91_between,
C91_sign, C91_extremes, C91_box, C91_max, C91_box_tight, C91_box_infinite_refuted, C92_violation,
C92_violation_value, C92_within_iff, C92_clamped, C92_violation_mono, C92_range, C92_neg,
C92_add_back_refuted, C93_complete, C93_sound, C93_reflexive, C93_zero, C93_infinite_refuted,
C93_neighbours, C93_tiny_refuted, C93_tolerance, C94_fmod, C94_range, C94_value, C94_fixed,
C94_inside_refuted, C94_square_wave, C95_counter, C95_sum_error, C95_error, C95_exact, C95_weighted,
C95_mono, C95_one, C95_frozen_refuted, C95_bounded_refuted, C95_delta, C95_delta_refuted,
C96_sqrt_square_refuted, C97_distance, C97_dot, C97_cross, C97_cross_error, C97_sums, C97_equal,
C97_div, C97_triangle_refuted, C98_outside, C98_value, C98_stored, C98_sign, C98_mono, C98_index,
C98_index_refuted, C98_constant_refuted, C98_mono_refuted, C98_gap_refuted, C99_defined, C99_inside,
C99_outside, C99_node, C99_abscissa, C99_conv, C99_function, C99_empty_refuted, C99_node_refuted,
C100_error, C100_even, C100_negative, C100_odd, C100_zero, C100_mono, C100_whole, C100_intersect,
C100_intersect_refuted, C101_sortable, C101_sorts, C101_sorted_copy, C101_median_defined,
C101_median, C101_median_odd, C101_median_order, C101_average, C101_average_class,
C101_average_exact, C101_average_mono, C101_average_order_refuted, C101_average_bounded_refuted,
C101_median_overflow_refuted, C101_top_average, C101_top_average_undefined, C101_min_max,
C101_sort_indices, C101_find_index, C102_text, C102_text_unique, C102_digits_unique, C102_error,
C102_read, C102_read_unique, C102_exact, C102_stable, C102_finite, C102_order, C102_get, C102_vec3,
C102_vec3_exact, C102_quat, C102_char_stream, C102_bounds, C102_stable_refuted, C103_plain,
C103_distinct, C103_determined, C103_field, C103_sample_error, C103_sample_order, C103_sample_first,
C104_product_finite, C104_product_bad, C104_product_whole, C104_identity, C104_conjugate,
C104_rotate, C104_transform, C104_rotate_bad, C104_rotate_identity, C104_round_trip,
C104_is_normalized, C104_vec4, C105_error, C105_poison, C105_forever, C105_contraction, C105_whole,
C105_rest, C105_decay_refuted, C105_delayer_window, C105_delayer_clock, C105_delay,
C105_delayer_exact, C105_delayer_value, C106_report, C106_distinct, C106_reachable, C106_percent,
C106_sum, C106_open, C107_report, C107_error, C107_total, C107_exact, C107_text, C107_seconds,
C107_resolution, C107_true, C107_exact_refuted, C107_shown_refuted, C107_resolution_refuted,
C108_variance, C108_error, C108_one, C108_degenerate, C108_slope, C108_exact, C108_line, C108_step,
C108_step_degenerate, C108_constant_refuted, C108_shift_refuted, C108_slope_refuted, C110_error,
C110_start, C110_end, C110_exact, C110_negative, C110_large_refuted, C111_widen, C111_still,
C111_parameters, C111_parameter, C111_last_refuted

**`ClassicalDedekindReals.sig_forall_dec`, `ClassicalDedekindReals.sig_not_dec`, `FunctionalExtensionality.functional_extensionality_dep`** (37 theorems):
C56_product, C56_rotation, C56_normalized, C56_any_length_refuted, C58_axis_angle,
C58_axis_angle_throws, C58_euler, C58_axes, C58_axes_left_handed_refuted, C64_length,
C64_length_straight, C64_length_no_steps_refuted, C66_any_ratio_refuted, C75_signed_sqrt,
C77_normalized, C77_lengths, C77_cross, C77_polar, C96_sqrt, C96_sqrt_mono, C96_signed_sqrt,
C96_sqrt_square, C96_inv, C97_length, C97_length_zero, C97_length_dominates, C97_length_axis,
C97_length_error, C97_normalized, C104_product, C104_rotate_length, C104_chain, C104_normalized,
C104_length, C111_outcome, C111_error, C111_zero

**`ClassicalDedekindReals.sig_forall_dec`, `ClassicalDedekindReals.sig_not_dec`, `FunctionalExtensionality.functional_extensionality_dep`, `Classical_Prop.classic`** (17 theorems):
C58_directions, C58_directions_short_refuted, C58_axis_angle_round_trip, C64_alpha_zero,
C64_alpha_defined, C64_alpha_ends, C64_alpha_smooth_joint, C66_defined, C66_stable, C66_settles,
C66_alternating, C66_tone, C66_cutoff, C66_attenuation, C74_half_turn_refuted, C76_single_axis,
C76_round_trip_refuted

