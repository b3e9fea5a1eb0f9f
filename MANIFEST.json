{
 "claims": [
  {
   "property": "C01",
   "status": "partial",
   "theorems": [
    "rotate_preserves_partial",
    "rotate_signed_refuted",
    "rotate_xor_refuted",
    "rotate_sum_wrapping_refuted",
    "rotate_amount_type_refuted"
   ],
   "note": "Proved for unsigned operands with amounts `a`/`bits - a` or constants summing to the width, in both overflow modes for `|` and with checks on for `+`. The remaining cases of the statement are false; each exclusion has a refuted theorem with a witness."
  },
  {
   "property": "C02",
   "status": "partial",
   "theorems": [
    "div_ceil_preserves_partial",
    "div_ceil_wrapping_refuted",
    "div_ceil_signed_refuted",
    "div_ceil_negative_divisor_refuted"
   ],
   "note": "Proved for every shape on unsigned operands with overflow checks on; refuted with checks off and for signed operands."
  },
  {
   "property": "C03",
   "status": "partial",
   "theorems": [
    "is_power_of_two_preserves_partial",
    "is_power_of_two_count_ones",
    "is_power_of_two_wrapping_refuted"
   ],
   "note": "All shapes with overflow checks on, the count_ones shape also with checks off; refuted for `x & (x-1) == 0` at 0 with checks off."
  },
  {
   "property": "C04",
   "status": "proved",
   "theorems": [
    "abs_diff_preserves"
   ],
   "note": "Every integer type, both modes; `Duration` and reference operands are not modelled."
  },
  {
   "property": "C05",
   "status": "partial",
   "theorems": [
    "rem_euclid_preserves_partial",
    "rem_euclid_wrapping_refuted"
   ],
   "note": "With overflow checks on; refuted with checks off."
  },
  {
   "property": "C06",
   "status": "proved",
   "theorems": [
    "is_multiple_of_preserves"
   ],
   "note": "Both modes, all shapes."
  },
  {
   "property": "C07",
   "status": "partial",
   "theorems": [
    "isolate_lowest_one_preserves",
    "midpoint_preserves_partial",
    "midpoint_wrapping_refuted"
   ],
   "note": "isolate_lowest_one in both modes (NonZero receivers not modelled); midpoint of integers with overflow checks on; refuted with checks off. Float midpoints not modelled."
  },
  {
   "property": "C08",
   "status": "partial",
   "theorems": [
    "bad_bit_mask_constant",
    "bad_bit_mask_value_partial",
    "bad_bit_mask_exceeds_refuted",
    "bad_bit_mask_exceeds_wrong",
    "bad_bit_mask_signed_refuted",
    "ineffective_bit_mask_preserves"
   ],
   "note": "That a reported comparison is constant, and that an ineffective mask may be dropped, hold in full. The reported truth value is right for ==, != and the not-exceeding rows on non-negative operands; it is wrong on the rows asking whether the masked side exceeds the constant, and can be wrong for signed operands (refuted with witnesses)."
  },
  {
   "property": "C09",
   "status": "proved",
   "theorems": [
    "verbose_bit_mask_preserves"
   ],
   "note": "All types, modes and thresholds."
  },
  {
   "property": "C10",
   "status": "proved",
   "theorems": [
    "absurd_comparison_correct"
   ],
   "note": "Integers, bool; float and char extremes are not produced by the lint."
  },
  {
   "property": "C11",
   "status": "partial",
   "theorems": [
    "invalid_upcast_correct_partial",
    "invalid_upcast_complete",
    "invalid_upcast_sign_refuted",
    "invalid_upcast_narrow_refuted",
    "invalid_upcast_host_refuted"
   ],
   "note": "Proved when the casts only widen, and conversely every comparison with one result for all values before the cast is reported; refuted for sign-changing and narrowing casts, and the verdict depends on the host pointer width."
  },
  {
   "property": "C12",
   "status": "partial",
   "theorems": [
    "identity_op_preserves_partial",
    "identity_op_rem_refuted",
    "erasing_op_zero"
   ],
   "note": "Everything except `i128::MIN % k`, for which the claim is false (witness)."
  },
  {
   "property": "C13",
   "status": "proved",
   "theorems": [
    "const_comparisons_correct"
   ],
   "note": "All three verdicts, integer, boolean and f64 constants (NaN included)."
  },
  {
   "property": "C14",
   "status": "partial",
   "theorems": [
    "double_comparison_preserves_partial",
    "double_comparison_nan_refuted"
   ],
   "note": "All rewrites, except that `x < y || x > y` to `x != y` is false on NaN (witness)."
  },
  {
   "property": "C15",
   "status": "partial",
   "theorems": [
    "int_plus_one_preserves_partial",
    "int_plus_one_wrapping_refuted"
   ],
   "note": "With overflow checks on; refuted with checks off."
  },
  {
   "property": "C16",
   "status": "partial",
   "theorems": [
    "clamp_expr_preserves",
    "clamp_expr_float_partial",
    "clamp_float_nan_refuted",
    "clamp_float_zero_refuted",
    "clamp_wide_shift_refuted",
    "clamp_match_preserves",
    "clamp_match_float",
    "clamp_two_if_partial",
    "clamp_two_if_refuted",
    "clamp_else_if_partial",
    "clamp_else_if_refuted",
    "clamp_stmt_float_partial"
   ],
   "note": "All six shapes. Integers: the expression and match forms hold for every input; the statement forms need that the tested variable is the assigned one, which the code does not check (refuted otherwise). Floats: equal up to the sign of zero, except min/max chains on NaN (refuted)."
  },
  {
   "property": "C17",
   "status": "partial",
   "theorems": [
    "implicit_saturating_sub_preserves",
    "manual_saturating_sub_preserves",
    "inverted_saturating_sub_corrects",
    "inverted_saturating_sub_wrapping_refuted",
    "implicit_saturating_add_partial",
    "implicit_saturating_add_host_refuted",
    "manual_saturating_arithmetic_partial",
    "manual_saturating_arithmetic_refuted",
    "saturating_sub_default_preserves"
   ],
   "note": "All four lints, every integer type, both overflow modes. False of the code: a default written -MAX, and usize::MAX taken from the host."
  },
  {
   "property": "C18",
   "status": "partial",
   "theorems": [
    "range_contains_preserves",
    "range_contains_float_or_guard",
    "range_contains_wide_shift_refuted"
   ],
   "note": "Proved for every operand type, operator, order and nesting, in wrapping builds and in checked builds whose bounds contain no signed shift by a wider amount; the shift case is refuted with a witness (a bound that panics is skipped by && but evaluated by the range). Char operands and the text of the replaced span are not modelled."
  },
  {
   "property": "C19",
   "status": "proved",
   "theorems": [
    "min_max_constant",
    "unnecessary_min_or_max_preserves"
   ],
   "note": "Constant result up to the sign of a float zero; unnecessary_min_or_max only concerns Ord types, modelled for integers."
  },
  {
   "property": "C20",
   "status": "partial",
   "theorems": [
    "silent_cast_exact",
    "silent_cast_keeps_partial",
    "silent_cast_refuted",
    "reported_cast_can_lose"
   ],
   "note": "Silence of the three integer cast lints on an opaque operand is characterised exactly: the value is kept unless a fixed-size type is cast to a narrower usize/isize, where the claim is refuted. Every report has a witness on some pointer width."
  },
  {
   "property": "C21",
   "status": "partial",
   "theorems": [
    "reductions_bound_partial",
    "reductions_bound_signed_partial",
    "silent_truncation_keeps_partial",
    "reductions_bound_refuted"
   ],
   "note": "Bound proved by induction for unsigned operands whose parts are not wider than the whole, and for signed shifts; eight kinds of counterexample for the rest (inner casts, methods, signed operations, pointer width, wrapping over-shift)."
  },
  {
   "property": "C22",
   "status": "partial",
   "theorems": [
    "silent_sign_nonneg_partial",
    "silent_sign_keeps_partial",
    "silent_sign_nonneg_refuted"
   ],
   "note": "Sign analysis sound with overflow checks on; refuted with overflow checks off (pow, *, +)."
  },
  {
   "property": "C23",
   "status": "partial",
   "theorems": [
    "manual_ilog2_preserves_partial",
    "manual_ilog2_preserves_nonzero",
    "manual_ilog2_preserves_refuted",
    "manual_ilog2_complete",
    "manual_bit_width_preserves",
    "mismatched_bit_width_exact"
   ],
   "note": "bit_width holds for every build and value; ilog2 with overflow checks on or for a value other than zero, refuted otherwise."
  },
  {
   "property": "C24",
   "status": "proved",
   "theorems": [
    "manual_range_same_values",
    "manual_range_offered_iff"
   ],
   "note": ""
  },
  {
   "property": "C25",
   "status": "proved",
   "theorems": [
    "overlapping_arms_sound",
    "overlapping_arms_complete",
    "overlapping_arms_order_refuted"
   ],
   "note": "Nested ranges may or may not be reported; an order dependence among them is recorded as a refutation, it is not part of the claim."
  },
  {
   "property": "C26",
   "status": "partial",
   "theorems": [
    "never_loop_sound_partial",
    "never_loop_once_partial",
    "never_loop_and_refuted",
    "never_loop_guard_refuted",
    "never_loop_assign_refuted",
    "never_loop_label_refuted"
   ],
   "note": "Sound for every body whose jumps are in positions the analysis visits; refuted for jumps in the right operand of && and ||, match guards and assigned values. Type soundness of `!` is built into the executions."
  },
  {
   "property": "C27",
   "status": "partial",
   "theorems": [
    "const_eval_value",
    "const_eval_total_wrapping",
    "const_eval_total_checked_partial",
    "const_eval_wide_shift_refuted",
    "const_eval_cross_target_refuted",
    "eval_int_value"
   ],
   "note": "Value agreement holds whenever host and target pointer widths agree; absence of panics is proved with overflow checks off, and with them on only when no signed value is shifted by an amount of a wider type. Both exclusions are necessary: the refuted theorems give witnesses."
  },
  {
   "property": "C28",
   "status": "proved",
   "theorems": [
    "constant_cmp_int",
    "constant_cmp_bool",
    "constant_cmp_agrees",
    "fullint_order"
   ],
   "note": "Integer, boolean and f64 constants; f16/f32/f128 are not modelled, string and compound constants are C57."
  },
  {
   "property": "C29",
   "status": "proved",
   "theorems": [
    "sext_is_twos_complement",
    "unsext_of_sext",
    "sext_of_unsext",
    "clip_is_mod"
   ],
   "note": "All twelve integer types, all pointer widths."
  },
  {
   "property": "C30",
   "status": "partial",
   "theorems": [
    "nonminimal_bool_sound_partial",
    "simplify_not_any_context",
    "overly_complex_sound",
    "nonminimal_bool_no_more",
    "inverted_bool_sound",
    "nonminimal_bool_types_refuted",
    "nonminimal_bool_cast_refuted",
    "nonminimal_bool_context_refuted"
   ],
   "note": "Every suggestion for a whole expression is read back as an equivalent one, for any behaviour of the external simplifier within its contract; refuted for comparisons between two types, for a left operand ending in a cast, and for a suggestion used inside a larger expression."
  },
  {
   "property": "C31",
   "status": "proved",
   "theorems": [
    "normalize_comparison_equivalent"
   ],
   "note": "Both directions, all types."
  },
  {
   "property": "C32",
   "status": "proved",
   "theorems": [
    "literal_format_preserves",
    "literal_format_reads_same",
    "literal_format_digits",
    "literal_text_unambiguous"
   ],
   "note": "Every well-formed literal of the language; literals with a leading minus sign (only passed in by one caller) are not covered."
  },
  {
   "property": "C33",
   "status": "partial",
   "theorems": [
    "grouping_right_shape",
    "grouping_left_shape",
    "grouping_padded_shape",
    "literal_format_shape_partial",
    "literal_format_shape_refuted",
    "literal_format_stable_partial",
    "literal_format_stable_refuted",
    "literal_lint_accepts_suggestion"
   ],
   "note": "The shape fails for exponents with a plus sign, stability for an exponent zero written with an underscore; the lints accept their own suggestion in every case."
  },
  {
   "property": "C34",
   "status": "proved",
   "theorems": [
    "camel_indices_exact",
    "camel_start_leftmost",
    "camel_split_partition",
    "camel_until_longest",
    "count_match_start_longest",
    "count_match_end_longest",
    "snake_case_stable",
    "camel_snake_round_trip",
    "camel_snake_round_trip_refuted"
   ],
   "note": "For any type of characters with a length of at least one byte and disjoint cases (facts of Unicode, shown to hold for ISO 8859-1). The round trip through snake case needs a name without underscores; its refutation with one is included."
  },
  {
   "property": "C35",
   "status": "partial",
   "theorems": [
    "sugg_reparse_partial",
    "sugg_reparse_value",
    "sugg_parse_unique",
    "sugg_from_source",
    "sugg_receiver",
    "sugg_enclosing",
    "sugg_neg_value",
    "sugg_not_value",
    "sugg_precedence_reference",
    "sugg_comparison_chain_refuted",
    "sugg_cast_less_refuted",
    "sugg_int_plus_one_refuted",
    "sugg_assign_range_refuted",
    "sugg_add_right_refuted",
    "sugg_mul_right_refuted",
    "sugg_return_refuted",
    "sugg_not_unordered_refuted"
   ],
   "note": "Every term of the builder outside five named combinations parses as the tree meant; with right-nested &&, ||, &, |, ^ it has the same value under any reading in which they are associative; suggestions made from source expressions stand for them. The statement is false in general: each excluded combination is refuted with a source-level witness. Texts are token lists."
  },
  {
   "property": "C36",
   "status": "proved",
   "theorems": [
    "duration_promotion_preserves",
    "duration_promotion_coarsest",
    "duration_promotion_complete"
   ],
   "note": "Coarsest and complete relative to the minimum supported version: the code does not skip over an unavailable unit."
  },
  {
   "property": "C37",
   "status": "partial",
   "theorems": [
    "lint_args_reach_compiler_partial",
    "lint_args_empty_refuted",
    "lint_args_separator_refuted"
   ],
   "note": "End to end through both programs: the arguments after `--` arrive in order, minus `--no-deps`, followed by exactly `--cfg clippy`. Excluded, and false (witnesses): empty arguments, and arguments containing the transport separator or ending so that they merge with it."
  },
  {
   "property": "C38",
   "status": "proved",
   "theorems": [
    "cargo_clippy_help",
    "cargo_clippy_version",
    "cargo_clippy_explain",
    "lint_named_unique",
    "cargo_clippy_dispatch",
    "cargo_clippy_exit"
   ],
   "note": "All argument vectors. Spawning the process itself is not modelled, its program, arguments and environment are."
  },
  {
   "property": "C39",
   "status": "partial",
   "theorems": [
    "arg_value_finds",
    "arg_value_dashes_refuted",
    "is_arg_flag",
    "driver_wrapper_name",
    "driver_lints_iff",
    "driver_rustc"
   ],
   "note": "Everything but the clause `before any --`: the search does not stop at `--` (witness). Paths are split as on Unix."
  },
  {
   "property": "C40",
   "status": "proved",
   "theorems": [
    "msrv_early_innermost",
    "msrv_stack_restored",
    "msrv_late_innermost",
    "msrv_in_force_unique",
    "msrv_meets_iff",
    "msrv_meets_monotone",
    "msrv_attrs_diagnosed",
    "msrv_attrs_no_false_alarm",
    "msrv_merge"
   ],
   "note": "Early passes, late passes with the SEEN_MSRV_ATTR shortcut, and the merge with Cargo.toml. The syntax tree is the same for early and late passes in the model."
  },
  {
   "property": "C41",
   "status": "proved",
   "theorems": [
    "config_list_extends",
    "config_list_not_a_list",
    "config_list_diagnostics",
    "config_list_unique"
   ],
   "note": "Any element type and element reader."
  },
  {
   "property": "C42",
   "status": "partial",
   "theorems": [
    "conf_keys_handled_partial",
    "conf_keys_no_false_alarm",
    "conf_table_meets_requirements",
    "conf_suggested_names",
    "conf_keys_refuted"
   ],
   "note": "Proved for every table in which fields without a type are renamed to distinct fields with one, which includes the real table of 100 keys. The full statement is false of the real table: the old key lint-inconsistent-struct-field-initializers has a type as well as a new name and silently sets a dead field."
  },
  {
   "property": "C43",
   "status": "proved",
   "theorems": [
    "value_list_complete",
    "value_list_plain"
   ],
   "note": "ASCII values."
  },
  {
   "property": "C44",
   "status": "partial",
   "theorems": [
    "lint_renames_never_chain",
    "rename_redirects",
    "rename_reaches_current_partial",
    "rename_reaches_current_refuted",
    "rename_reported_recorded_refuted"
   ],
   "note": "No chaining is proved for every history. Reaching a current name needs that no rename target is deprecated (refuted otherwise: rename a b, deprecate b)."
  },
  {
   "property": "C45",
   "status": "partial",
   "theorems": [
    "version_bump_exact_partial",
    "version_bump_no_version",
    "version_bump_read_back_partial",
    "version_display_parses",
    "version_bump_crlf_refuted",
    "version_bump_comment_refuted",
    "version_bump_skipped_refuted"
   ],
   "note": "Exact when nothing follows the closing quote of the version line; false of the code with a carriage return, trailing blanks or a comment."
  },
  {
   "property": "C46",
   "status": "partial",
   "theorems": [
    "region_update_exact",
    "region_update_panics_iff",
    "region_update_idempotent_partial",
    "region_update_idempotent_refuted",
    "check_mode_agrees"
   ],
   "note": "Idempotence needs that the inserted text does not contain an end marker."
  },
  {
   "property": "C47",
   "status": "proved",
   "theorems": [
    "split_args_lossless",
    "split_args_sizes",
    "split_args_size_meaning"
   ],
   "note": "The length limit applies to a batch without its last argument, as in the code."
  },
  {
   "property": "C48",
   "status": "proved",
   "theorems": [
    "reachable_is_closure",
    "reachable_add"
   ],
   "note": ""
  },
  {
   "property": "C49",
   "status": "partial",
   "theorems": [
    "reindent_keeps_partial",
    "reindent_indentation",
    "reindent_trailing_refuted",
    "reindent_blank_lines_refuted"
   ],
   "note": "Proved for every text without a carriage return inside a line: only the common indentation changes and slices never panic. False as stated: up to two blank lines at the end are lost, and lines of blanks only keep the text indented (both refuted with witnesses)."
  },
  {
   "property": "C50",
   "status": "proved",
   "theorems": [
    "config_file_nearest",
    "config_start_dir"
   ],
   "note": "Canonicalisation of the start path is not modelled; directories are given as the list from the start to the root."
  },
  {
   "property": "C51",
   "status": "proved",
   "theorems": [
    "closest_match_minimal",
    "closest_match_complete"
   ],
   "note": "Relative to rustc's edit distance."
  },
  {
   "property": "C52",
   "status": "proved",
   "theorems": [
    "ordering_groups_checked",
    "ordering_groups_default"
   ],
   "note": "Reading the TOML arrays into groups is not modelled."
  },
  {
   "property": "C53",
   "status": "partial",
   "theorems": [
    "test_files_exact",
    "ui_test_paths_exact",
    "ui_toml_test_paths_partial",
    "ui_toml_test_paths_refuted",
    "remove_declaration_keeps"
   ],
   "note": "The second and later tests/ui-toml directories get a wrong path."
  },
  {
   "property": "C54",
   "status": "partial",
   "theorems": [
    "slice_groups_partition",
    "gen_mods_once_partial",
    "gen_mods_once_refuted"
   ],
   "note": "Holds for the separator /, false for the backslash."
  },
  {
   "property": "C55",
   "status": "proved",
   "theorems": [
    "fmt_syms_idempotent",
    "fmt_syms_lossless"
   ],
   "note": "The error for a missing list is None in the model."
  },
  {
   "property": "C56",
   "status": "proved",
   "theorems": [
    "offset_to_line_exact"
   ],
   "note": ""
  },
  {
   "property": "C58",
   "status": "partial",
   "theorems": [
    "cast_lossless_int",
    "cast_lossless_bool",
    "cast_lossless_float_partial",
    "cast_lossless_float_refuted",
    "cast_lossless_widening",
    "precision_silent_exact",
    "precision_reported_inexact",
    "precision_silent_refuted"
   ],
   "note": "Holds for all types except f16: the code takes f16 to be 64 bits wide in cast_lossless and cast_precision_loss ignores f16/f128."
  },
  {
   "property": "C59",
   "status": "partial",
   "theorems": [
    "enum_bits_exact",
    "enum_discriminant_correct",
    "enum_value_bits_exact",
    "enum_cast_reported_exact",
    "enum_cast_pointer_refuted",
    "enum_cast_sign_refuted"
   ],
   "note": "The bit counts and discriminants are exact for all enums whose given discriminants can be read; the report is exact for fixed-size targets; pointer-sized targets and signedness refuted."
  },
  {
   "property": "C60",
   "status": "partial",
   "theorems": [
    "cast_abs_preserves_partial",
    "cast_abs_preserves_refuted"
   ],
   "note": "Preserved with overflow checks on; refuted with overflow checks off for a widening cast of the minimum."
  },
  {
   "property": "C61",
   "status": "partial",
   "theorems": [
    "checked_conversions_partial",
    "checked_conversions_refuted"
   ],
   "note": "Proved when the casts of the bounds keep their values; refuted when they do not (the lint does not compare the widths)."
  },
  {
   "property": "C62",
   "status": "partial",
   "theorems": [
    "mistyped_suffix_int",
    "mistyped_suffix_float_partial",
    "mistyped_suffix_float_refuted"
   ],
   "note": "Integers: every literal. Floats: when a digit precedes the group; otherwise the code panics or suggests an invalid literal."
  },
  {
   "property": "C63",
   "status": "proved",
   "theorems": [
    "hex_suggestion_same_number",
    "hex_powers_reported"
   ],
   "note": ""
  },
  {
   "property": "C57",
   "status": "partial",
   "theorems": [
    "struct_cmp_agrees_partial",
    "struct_cmp_empty_refuted",
    "struct_eq_exact",
    "struct_eq_value",
    "struct_eq_hash",
    "struct_eq_per",
    "numeric_extremes",
    "is_numeric_max_exact",
    "is_numeric_min_partial",
    "is_numeric_min_refuted",
    "is_numeric_min_never",
    "numeric_min_eq_refuted"
   ],
   "note": "Proved for all nested constants without an empty repetition. False for `[x; 0]` and for is_numeric_min on signed types below 128 bits (both refuted). f64 stands for the float widths; Adt/RawPtr/Err constants are opaque."
  },
  {
   "property": "C65",
   "status": "partial",
   "theorems": [
    "raw_hashes_removed_partial",
    "raw_hashes_all_found",
    "raw_hashes_removed_refuted",
    "raw_string_to_plain"
   ],
   "note": "The number of hashes is minimal and the literal denotes the same string, unless a run of several quotes stands before hashes (refuted). Removal of the `r` is proved for contents without a carriage return."
  },
  {
   "property": "C66",
   "status": "partial",
   "theorems": [
    "octal_reports_exact",
    "octal_hex_suggestion",
    "octal_null_suggestion_partial",
    "octal_null_suggestion_refuted"
   ],
   "note": "Reports and the first suggestion are as claimed; the second is false when a single digit follows (refuted)."
  },
  {
   "property": "C69",
   "status": "partial",
   "theorems": [
    "str_to_char_partial",
    "str_to_char_found",
    "str_to_char_refuted"
   ],
   "note": "Proved for literals without a newline, tab or carriage return in their text; false with one (refuted)."
  },
  {
   "property": "C64",
   "status": "partial",
   "theorems": [
    "or_pattern_never_wider",
    "or_pattern_same_partial",
    "or_pattern_bindings_partial",
    "or_pattern_terminates",
    "or_pattern_reported",
    "or_pattern_parens_partial",
    "or_pattern_top_level",
    "or_pattern_bindings_refuted",
    "or_pattern_same_refuted",
    "or_pattern_parens_refuted"
   ],
   "note": "Never wider, for all patterns; the same set of ways to match for patterns without or-patterns inside alternatives; the same bindings where the source binds in one way. The full statement is false: reordering alternatives changes bindings, `unordered_over` ignores multiplicity, and some suggestions lack parentheses (all refuted with witnesses). `x @ ..` and guard patterns are not modelled."
  },
  {
   "property": "C67",
   "status": "partial",
   "theorems": [
    "bool_comparison_value_partial",
    "bool_comparison_alone",
    "bool_comparison_reported",
    "bool_comparison_value_refuted",
    "bool_comparison_not_refuted",
    "bool_comparison_float_refuted",
    "bool_comparison_type_refuted"
   ],
   "note": "Standing alone the suggestion always has the value of the comparison; within other operators when no operand binds looser than they do. The rest is false and refuted: parentheses of an operand are dropped, comparisons of floats are negated by the opposite comparison, and `a as T >= b` by text that does not parse."
  },
  {
   "property": "C68",
   "status": "partial",
   "theorems": [
    "needless_bool_value_partial",
    "needless_bool_return",
    "needless_bool_assign_value",
    "needless_bool_guard_value",
    "needless_bool_statement_partial",
    "needless_bool_addr_refuted",
    "needless_bool_return_refuted",
    "needless_bool_statement_refuted",
    "needless_bool_statement_not_refuted",
    "needless_bool_statement_call_refuted"
   ],
   "note": "In every context but directly behind `&` (refuted) the value is kept; as a statement the text is not cut short, except in three refuted situations. Braces after `else` and comments are not modelled."
  },
  {
   "property": "C70",
   "status": "partial",
   "theorems": [
    "arithmetic_side_effects_silent_partial",
    "arithmetic_side_effects_reported_partial",
    "arithmetic_side_effects_shift_refuted",
    "arithmetic_side_effects_from_zero_refuted",
    "arithmetic_side_effects_division_refuted",
    "arithmetic_side_effects_factor_refuted",
    "arithmetic_side_effects_complement_refuted",
    "arithmetic_side_effects_source_refuted",
    "arithmetic_side_effects_method_refuted",
    "arithmetic_side_effects_reported_refuted"
   ],
   "note": "Proved outside the listed blind spots, each of which has a witness; the converse is proved for variables and literals."
  },
  {
   "property": "C71",
   "status": "proved",
   "theorems": [
    "eager_evaluation_has_value",
    "unnecessary_lazy_unwrap_or",
    "unnecessary_lazy_then",
    "eager_evaluation_unchecked_refuted"
   ],
   "note": "Given that the compiler does not already reject an operation on constants; without that the statement is false (refuted). References, calls, indexing and blocks are outside the expression language."
  },
  {
   "property": "C72",
   "status": "partial",
   "theorems": [
    "spanless_eq_behaviour_partial",
    "spanless_eq_same_behaviour_partial",
    "spanless_eq_reflexive_partial",
    "spanless_eq_order_refuted",
    "spanless_eq_panic_refuted",
    "spanless_eq_block_label_refuted",
    "spanless_eq_operator_refuted"
   ],
   "note": "Up to the order of operands, and as it stands when operands of operators only compute; without that the claim is false (refuted: order of calls, panics behind `&&`). Labelled blocks are excluded (refuted). Macros, closures, items, generic arguments, inline assembly and some rarer expressions are not modelled."
  },
  {
   "property": "C73",
   "status": "partial",
   "theorems": [
    "eq_expr_value_harmless_partial",
    "eq_expr_value_harmless_right_partial",
    "eq_expr_value_operator_refuted"
   ],
   "note": "For expressions whose operators are primitive; overloaded operators may do anything (refuted). Rarer expressions are not modelled."
  },
  {
   "property": "C74",
   "status": "partial",
   "theorems": [
    "spanless_hash_partial",
    "spanless_hash_refuted",
    "search_same_sound",
    "search_same_disjoint",
    "search_same_complete",
    "search_same_sorted_partial",
    "search_same_order_refuted",
    "search_same_pair_refuted"
   ],
   "note": "The search is proved for every hash and equality. Equal expressions hash alike outside six kinds of exceptions, each with a witness; the documented order of groups is false when hashes collide (refuted)."
  },
  {
   "property": "C75",
   "status": "partial",
   "theorems": [
    "ifs_same_cond_unreachable_partial",
    "ifs_same_cond_assignment_refuted",
    "ifs_same_cond_method_refuted"
   ],
   "note": "For conditions that are not method calls, whose operators have operands that only compute, when the conditions in between have no effects; false without (refuted)."
  },
  {
   "property": "C76",
   "status": "partial",
   "theorems": [
    "has_overlapping_values_partial",
    "struct_patterns_overlap_exact",
    "has_overlapping_values_signed_refuted",
    "has_overlapping_values_const_refuted",
    "has_overlapping_values_self_refuted",
    "has_overlapping_values_braces_refuted"
   ],
   "note": "For patterns without constants, `Self`, aliases, braces on tuple and unit structs, and signed ranges without a start; each of these is false with a witness. Guards inside patterns and references to statics are not modelled."
  },
  {
   "property": "C77",
   "status": "partial",
   "theorems": [
    "match_same_arms_mergeable_partial",
    "match_same_arms_suggestion_partial",
    "match_same_arms_wildcard_partial",
    "match_same_arms_group_partial",
    "match_same_arms_pair_refuted",
    "match_same_arms_three_refuted",
    "match_same_arms_wildcard_refuted",
    "match_same_arms_wildcard_guard_refuted",
    "match_same_arms_signed_refuted"
   ],
   "note": "Two arms can always be merged one way or the other; the way suggested is right if they do not overlap or the first is the first of all. Groups of any size are right if no other arm overlaps them. Otherwise false, with witnesses. That arms found equal agree is a hypothesis here; for expressions it is C72."
  },
  {
   "property": "C78",
   "status": "proved",
   "theorems": [
    "tabs_replaced",
    "tabs_runs"
   ],
   "note": "Offsets are unbounded in the model; the code panics above 2^32."
  },
  {
   "property": "C79",
   "status": "partial",
   "theorems": [
    "too_many_lines_count_partial",
    "too_many_lines_nested_refuted",
    "too_many_lines_string_refuted"
   ],
   "note": "For bodies without strings and without comments in comments, false otherwise (witnesses). Non-ASCII white space is not modelled."
  },
  {
   "property": "C80",
   "status": "partial",
   "theorems": [
    "lintcheck_output",
    "lintcheck_diff_places",
    "lintcheck_diff_rows",
    "lintcheck_diff_none",
    "lintcheck_truncate",
    "lintcheck_summary",
    "lintcheck_order_refuted"
   ],
   "note": "All of the statement; what is false is that the order of several warnings at one place does not matter (witness). Reading and writing of JSON and the printing are not modelled."
  },
  {
   "property": "C81",
   "status": "partial",
   "theorems": [
    "lint_groups_unambiguous_partial",
    "lint_groups_suggestion_partial",
    "lint_groups_least_refuted",
    "lint_groups_order_lost_refuted"
   ],
   "note": "Two groups of one priority are excluded. False for the least priority, and when the suggestions for two groups are applied together (witnesses). Parsing of the table is not modelled."
  },
  {
   "property": "C82",
   "status": "partial",
   "theorems": [
    "is_normal_dep_correct",
    "multiple_crate_versions_partial",
    "is_normal_dep_cycle_refuted",
    "multiple_crate_versions_third_refuted",
    "multiple_crate_versions_local_refuted"
   ],
   "note": "For acyclic graphs and one package of the local name; false otherwise (witnesses), also when a third version is no normal dependency."
  },
  {
   "property": "C83",
   "status": "partial",
   "theorems": [
    "non_minimal_cfg_preserves",
    "non_minimal_cfg_complete_partial",
    "non_minimal_cfg_not_refuted"
   ],
   "note": "The suggestions are right in full; completeness outside of `not` only (witness)."
  },
  {
   "property": "C84",
   "status": "partial",
   "theorems": [
    "identity_function_partial",
    "map_identity_partial",
    "map_or_identity_partial",
    "map_or_else_identity_partial",
    "identity_let_else_refuted"
   ],
   "note": "Every closure without `let \u2026 else`; with one the statement is false (witness). Programs that get stuck (ill-typed ones) are excluded. Type adjustments are not modelled inside identity functions."
  },
  {
   "property": "C85",
   "status": "partial",
   "theorems": [
    "bind_instead_of_map_partial",
    "bind_return_in_guard_refuted",
    "bind_labelled_block_refuted"
   ],
   "note": "For bodies without labelled blocks and returns in guards; false with them (witnesses)."
  },
  {
   "property": "C86",
   "status": "partial",
   "theorems": [
    "unnecessary_filter_map_partial",
    "filter_map_labelled_refuted",
    "filter_map_nested_return_refuted",
    "filter_map_unnecessary_refuted"
   ],
   "note": "Without labelled blocks and returns inside operands of returns, and for a parameter that is not bound again; false otherwise (witnesses)."
  },
  {
   "property": "C87",
   "status": "partial",
   "theorems": [
    "map_unwrap_or_partial",
    "map_unwrap_or_order_refuted",
    "map_unwrap_or_else_exact",
    "option_map_or_none_partial",
    "option_map_or_none_return_refuted",
    "result_map_or_else_none_exact",
    "unnecessary_map_or_partial",
    "unnecessary_map_or_swapped_refuted",
    "manual_is_variant_and_partial",
    "manual_is_variant_and_err_refuted",
    "manual_is_variant_and_return_refuted",
    "manual_is_variant_and_twice_refuted",
    "manual_ok_or_partial",
    "manual_option_zip_partial",
    "manual_option_zip_order_refuted",
    "or_then_unwrap_exact"
   ],
   "note": "Three suggestions in full; the others under conditions whose omission is refuted with witnesses (order of effects, asymmetric comparisons, moved returns, `Err` compared)."
  },
  {
   "property": "C88",
   "status": "partial",
   "theorems": [
    "eager_eval_pure",
    "eager_eval_unused",
    "unnecessary_lazy_eval_exact",
    "return_and_then_partial",
    "unnecessary_literal_unwrap_partial",
    "literal_unwrap_err_refuted",
    "literal_unwrap_dropped_refuted",
    "literal_unwrap_return_refuted",
    "obfuscated_if_else_partial",
    "obfuscated_if_else_return_refuted"
   ],
   "note": "unnecessary_lazy_evaluations in full; the others for code without moved returns and dropped effects (witnesses)."
  },
  {
   "property": "C89",
   "status": "partial",
   "theorems": [
    "manual_map_partial",
    "movable_stays",
    "manual_map_wild_first_refuted"
   ],
   "note": "Whenever the first arm is not `_`; with `_` first the statement is false (witness). Scrutinees that are references are not modelled."
  },
  {
   "property": "C90",
   "status": "partial",
   "theorems": [
    "manual_filter_partial",
    "manual_filter_and_then_partial",
    "manual_filter_path_refuted",
    "manual_filter_negated_path_refuted"
   ],
   "note": "For Copy types and closures as predicates. A predicate that is a named function gives a text that is no expression (Copy) or loses its negation (not Copy): witnesses. `mut` bindings and non-Copy closures are not covered."
  },
  {
   "property": "C91",
   "status": "partial",
   "theorems": [
    "manual_unwrap_or_partial",
    "manual_ok_err_keeps",
    "manual_unwrap_or_at_refuted"
   ],
   "note": "manual_ok_err in full; manual_unwrap_or without `x @ p` patterns (false with them, witness), and where the default value of the type is the one recognised."
  },
  {
   "property": "C92",
   "status": "partial",
   "theorems": [
    "option_if_let_else_partial",
    "option_if_let_else_wild_first_refuted",
    "option_if_let_else_ctor_refuted",
    "if_then_some_else_none_partial",
    "if_then_some_break_refuted"
   ],
   "note": "Without `_` as first arm, a constructor call `C()` as the other value, and `break` in the block; false with them (witnesses)."
  },
  {
   "property": "C93",
   "status": "partial",
   "theorems": [
    "needless_return_fn_partial",
    "needless_return_closure_partial",
    "needless_return_type_refuted",
    "let_and_return_partial",
    "let_and_return_ref_refuted"
   ],
   "note": "A suggestion may turn a unit statement into a value of another type, and a `ref` binding into a value; both false with witnesses, the rest is proved. Temporaries and drop order are not modelled."
  },
  {
   "property": "C94",
   "status": "proved",
   "theorems": [
    "question_let_else_keeps",
    "return_question_keeps"
   ],
   "note": "Given that the initializer is an Option and the compiler is right that the inner pattern is irrefutable. Temporaries and scrutinees that are references are not modelled."
  },
  {
   "property": "C95",
   "status": "partial",
   "theorems": [
    "question_if_is_partial",
    "question_if_let_partial",
    "question_match_partial",
    "question_if_is_stays_refuted",
    "question_if_is_nothing_refuted",
    "question_if_is_some_refuted",
    "question_if_is_as_ref_refuted",
    "question_if_let_body_refuted",
    "question_if_let_name_refuted",
    "question_if_let_nothing_refuted",
    "question_match_ref_refuted"
   ],
   "note": "Where the branch really leaves with the error, nothing of the other branch is dropped and dropped bindings are by value; each of these is not checked by the lint and false without it (witnesses)."
  },
  {
   "property": "C96",
   "status": "proved",
   "theorems": [
    "match_bool_keeps",
    "matches_macro_keeps"
   ],
   "note": "Given what the compiler checks: the scrutinee is a bool, guards aside the arms are exhaustive."
  },
  {
   "property": "C97",
   "status": "partial",
   "theorems": [
    "if_let_variant_keeps",
    "matches_true_keeps",
    "match_variant_partial",
    "match_variant_guard_refuted"
   ],
   "note": "if-let and `matches!(e, true)` in full; the match form without a guard on an arm with `false` (false with one, witness). Poll and IpAddr are not modelled."
  },
  {
   "property": "C98",
   "status": "partial",
   "theorems": [
    "needless_match_partial",
    "needless_if_let_partial",
    "needless_if_let_literal_refuted",
    "needless_if_let_effect_refuted",
    "needless_match_statement_refuted"
   ],
   "note": "Where only None reaches an `else` with None, the scrutinee of a longer chain has no effects and statements are not taken for values; the lint checks none of these and each is false without it (witnesses)."
  },
  {
   "property": "C99",
   "status": "proved",
   "theorems": [
    "single_match_keeps"
   ],
   "note": "Given that PartialEq is derived where `==` is suggested, which the lint checks, and that the arms are exhaustive."
  },
  {
   "property": "C100",
   "status": "partial",
   "theorems": [
    "collapsible_guard_partial",
    "collapsible_if_let_partial",
    "collapsible_match_partial",
    "collapsible_guard_exhaustive_refuted",
    "collapsible_guard_statement_refuted",
    "collapsible_match_between_refuted",
    "collapsible_match_guard_refuted"
   ],
   "note": "Where values that fail the new guard or pattern get to the arm of the `else`, names are distinct and the arm that looks further has no guard; the lint checks none of these and each is false without it (witnesses)."
  },
  {
   "property": "C101",
   "status": "partial",
   "theorems": [
    "redundant_guards_partial",
    "redundant_guards_subpattern_refuted",
    "redundant_guards_user_eq_refuted",
    "redundant_guards_inner_guard_refuted",
    "redundant_guards_capture_refuted"
   ],
   "note": "For bindings without subpattern, distinct names and structural equality; false otherwise (witnesses). Guards that are method calls are not modelled."
  },
  {
   "property": "C102",
   "status": "partial",
   "theorems": [
    "iter_adaptors_partial"
   ],
   "note": "For functions that return an Option where the types say so, identity closures without `let \u2026 else`, and programs that do not get stuck. `skip`, `take` and `enumerate` are not asked from the back. Cloning has no effects in the model; `inspect` and lints on other adaptors are not modelled."
  },
  {
   "property": "C103",
   "status": "partial",
   "theorems": [
    "iter_consumers_exact",
    "iter_cloned_end_partial",
    "map_all_any_identity_partial",
    "double_ended_last_partial",
    "double_ended_last_effects_refuted"
   ],
   "note": "Six lints in full; `cloned()` and the identity for programs that do not get stuck; `last()` on iterators without effects (false with them, witness)."
  },
  {
   "property": "C104",
   "status": "partial",
   "theorems": [
    "search_is_some_partial"
   ],
   "note": "For `position` in full; for `find` with a closure whose parameter is `&p` or `_`. The rewriting of other closures is not modelled; a path given to `find` is kept and does not compile with `any`."
  },
  {
   "property": "C105",
   "status": "partial",
   "theorems": [
    "fold_bool_partial",
    "fold_number_partial",
    "fold_any_effects_refuted",
    "fold_any_swapped_refuted",
    "fold_any_accumulator_refuted"
   ],
   "note": "any/all on iterators without effects where the accumulator stands on the left and is used once; each is needed (witnesses). sum/product given commutative + and *; overflow is not modelled."
  },
  {
   "property": "C106",
   "status": "partial",
   "theorems": [
    "manual_filter_map_method_partial",
    "manual_find_map_method_partial",
    "manual_filter_map_pattern_partial",
    "manual_find_map_pattern_partial",
    "option_filter_map_partial",
    "filter_map_bool_then_partial",
    "manual_filter_map_subpattern_refuted",
    "manual_filter_map_guard_refuted",
    "manual_filter_map_argument_refuted",
    "option_filter_map_name_refuted",
    "filter_map_bool_then_assigns_refuted"
   ],
   "note": "Where the dropped arguments have no effects, the pattern of `matches!` has only `_` inside and no guard, the functions are the library's, and the condition assigns no variable of the item; the lints check none of these and each is false without it (witnesses). Receivers other than the parameter are not modelled."
  },
  {
   "property": "C107",
   "status": "partial",
   "theorems": [
    "unused_enumerate_for_exact",
    "manual_flatten_partial",
    "manual_find_partial",
    "manual_find_assigns_refuted"
   ],
   "note": "unused_enumerate_index in full. manual_flatten for loops that end, given that the compiler is right about the pattern. manual_find where the condition does not assign the item (false otherwise, witness) and without subpatterns."
  },
  {
   "property": "C108",
   "status": "partial",
   "theorems": [
    "needless_collect_len_exact",
    "needless_collect_partial",
    "needless_collect_capture_refuted",
    "needless_collect_effects_refuted",
    "needless_collect_argument_refuted"
   ],
   "note": "len in full; the others on iterators without effects and for arguments that only have a value and do not use the name `x` (each false without, witnesses). Vectors bound to a variable first are not modelled."
  },
  {
   "property": "C109",
   "status": "proved",
   "theorems": [
    "str_splitn_exact",
    "split_once_indirect_exact"
   ],
   "note": "In full for the forms modelled; iterators kept in variables only for the two `let`s the lint itself looks for."
  },
  {
   "property": "C110",
   "status": "partial",
   "theorems": [
    "manual_strip_partial",
    "manual_strip_inclusive_refuted",
    "manual_strip_pattern_assigned_refuted",
    "manual_strip_shadow_refuted"
   ],
   "note": "For blocks of any form where the new name does not clash, the pattern is not assigned and no slice is inclusive; the lint checks none of these and each is needed (witnesses). The slices inside closures are not visited."
  },
  {
   "property": "C111",
   "status": "partial",
   "theorems": [
    "trim_split_whitespace_exact",
    "str_split_partial",
    "str_split_empty_refuted",
    "str_split_crlf_refuted"
   ],
   "note": "trim_split_whitespace in full. str_split for strings that are not empty, are trimmed, and have one kind of line end (false otherwise, witnesses)."
  },
  {
   "property": "C112",
   "status": "partial",
   "theorems": [
    "collapsible_str_replace_partial",
    "collapsible_str_replace_again_refuted",
    "collapsible_str_replace_between_refuted"
   ],
   "note": "For direct chains of any length where the replacement has none of the characters replaced later (false otherwise, witnesses)."
  },
  {
   "property": "C113",
   "status": "partial",
   "theorems": [
    "single_char_pattern_exact",
    "search_is_some_str_exact",
    "manual_pattern_char_comparison_partial",
    "manual_pattern_char_both_sides_refuted"
   ],
   "note": "single_char_pattern and search_is_some in full. Closures where the parameter stands on one side of each comparison (false otherwise, witness) and its other variables are not assigned by later arguments (the borrow checker's rule)."
  },
  {
   "property": "C114",
   "status": "partial",
   "theorems": [
    "chars_next_last_cmp_partial",
    "chars_cmp_unwrap_refuted",
    "chars_cmp_order_refuted"
   ],
   "note": "Where the other side is a character, is a literal if it stands first, and the unwrapped side does not panic; the last two are needed (witnesses)."
  },
  {
   "property": "C115",
   "status": "partial",
   "theorems": [
    "manual_is_ascii_check_exact",
    "manual_ignore_case_cmp_partial",
    "manual_ignore_case_cmp_literal_refuted"
   ],
   "note": "manual_is_ascii_check in full. manual_ignore_case_cmp where a literal is in the case compared (false otherwise, witness)."
  },
  {
   "property": "C116",
   "status": "partial",
   "theorems": [
    "bytes_nth_exact",
    "bytes_count_to_len_exact",
    "needless_as_bytes_exact",
    "get_first_exact",
    "sliced_string_as_bytes_partial",
    "get_last_with_len_partial",
    "sliced_string_as_bytes_boundary_refuted",
    "get_last_with_len_empty_refuted"
   ],
   "note": "In full but for two lints whose suggestions do not panic where the original does (witnesses)."
  },
  {
   "property": "C117",
   "status": "proved",
   "theorems": [
    "repeat_once_exact",
    "manual_str_repeat_exact",
    "str_lints_anywhere"
   ],
   "note": "In full; suggestions inside the closures of patterns are left out of the last."
  },
  {
   "property": "C118",
   "status": "partial",
   "theorems": [
    "collapsible_if_keeps",
    "collapsible_else_if_partial",
    "collapsible_else_if_refuted",
    "needless_else_keeps",
    "needless_ifs_keeps",
    "if_not_else_keeps",
    "blocks_in_conditions_braces_keeps",
    "blocks_in_conditions_let_partial",
    "blocks_in_conditions_let_refuted"
   ],
   "note": "In full but for collapsible_else_if where the inner `if` has a `;` and a value other than `()`, and blocks_in_conditions where the name `res` is used (both false, witnesses). needless_if is relative to what can_have_side_effects says."
  },
  {
   "property": "C119",
   "status": "partial",
   "theorems": [
    "redundant_else_tail_keeps",
    "redundant_else_stmt_keeps",
    "redundant_else_stmt_refuted"
   ],
   "note": "Where the suggestion is marked machine-applicable, or names declared in the block are not used after it (false otherwise, witness). Relative to the types: what has type `!` yields no value."
  },
  {
   "property": "C120",
   "status": "partial",
   "theorems": [
    "needless_late_init_partial",
    "needless_late_init_refuted",
    "useless_let_if_seq_partial",
    "useless_let_if_seq_refuted",
    "manual_let_else_partial",
    "manual_let_else_refuted",
    "redundant_locals_keeps"
   ],
   "note": "redundant_locals in full. The others where the suggestion does not capture names; let_if_seq where the first value is a literal; each restriction has a witness. Groups of several late-initialised variables are not modelled."
  },
  {
   "property": "C121",
   "status": "partial",
   "theorems": [
    "assign_op_pattern_keeps",
    "misrefactored_assign_op_partial",
    "misrefactored_assign_op_first_refuted",
    "manual_swap_partial",
    "manual_swap_refuted",
    "manual_swap_index_refuted",
    "xor_swap_partial",
    "xor_swap_refuted",
    "almost_swapped_warns"
   ],
   "note": "assign_op_pattern and almost_swapped in full; swaps where the temporary is not used later, indices do not read the vector, and (xor) differ: false otherwise (witnesses). Integers do not overflow here; places are variables and vector elements."
  },
  {
   "property": "C122",
   "status": "partial",
   "theorems": [
    "single_element_loop_keeps",
    "manual_while_let_some_partial",
    "manual_while_let_some_refuted",
    "manual_while_let_some_name_refuted",
    "while_let_loop_partial",
    "while_let_loop_refuted",
    "while_let_loop_label_refuted"
   ],
   "note": "single_element_loop in full (for arrays). The others where the suggestion captures no names, the loop has no label, and nothing is evaluated in another order; witnesses for each."
  },
  {
   "property": "C123",
   "status": "partial",
   "theorems": [
    "needless_continue_last_keeps",
    "needless_continue_merge_partial",
    "needless_continue_merge_refuted"
   ],
   "note": "Dropping the last continue in full; merging where names declared in the branch are not used after it (false otherwise, witness)."
  },
  {
   "property": "C124",
   "status": "proved",
   "theorems": [
    "replaced_anywhere",
    "replaced_anywhere_ok",
    "exact_fixes_keep"
   ],
   "note": "In full, for any relation that keeps meaning."
  },
  {
   "property": "C125",
   "status": "partial",
   "theorems": [
    "explicit_counter_loop_partial",
    "explicit_counter_loop_label_refuted",
    "explicit_counter_loop_and_refuted",
    "explicit_counter_loop_alone_refuted",
    "explicit_counter_loop_start_refuted"
   ],
   "note": "For counters started with a literal, not standing on their own after the increment, and not changed in labelled blocks or on the right of && and ||: false otherwise (a witness for each). Integers do not overflow here."
  },
  {
   "property": "C126",
   "status": "partial",
   "theorems": [
    "unwrap_verdicts_partial",
    "unwrap_reported_partial",
    "unwrap_as_mut_refuted",
    "unwrap_condition_refuted"
   ],
   "note": "Where methods named as_mut are those of Option and Result: the lint exempts any method of that name, and is wrong for one that resets the field (witness). Reports are complete but for calls that are themselves a condition (witness). Closures, overloaded dereferencing and unions are not modelled."
  },
  {
   "property": "C127",
   "status": "partial",
   "theorems": [
    "manual_memcpy_partial",
    "manual_memcpy_empty_refuted",
    "manual_memcpy_let_refuted",
    "manual_memcpy_compound_refuted",
    "manual_memcpy_order_refuted",
    "manual_memcpy_inclusive_refuted",
    "manual_memcpy_field_refuted",
    "manual_memcpy_counter_refuted"
   ],
   "note": "For loops that go round, whose body only assigns elements of different arrays and increments counters, and whose sums do not overflow. Each condition is needed, with a witness: empty ranges panic in the suggestion, declarations and compound assignments to elements are dropped, copies that depend on each other are reordered, an inclusive range up to a length loses its last element, lengths of fields are confused, and limits with counters can overflow. Types of elements and how suggestions are printed are not modelled."
  },
  {
   "property": "C128",
   "status": "partial",
   "theorems": [
    "no_effect_partial",
    "no_effect_underscore_binding_partial",
    "no_effect_nested_refuted",
    "no_effect_index_refuted",
    "no_effect_underscore_binding_refuted",
    "no_effect_closure_refuted",
    "no_effect_panic_refuted"
   ],
   "note": "Without overloaded operators, and if closures capture nothing with a destructor: nothing is called or dropped, and nothing panics unless it indexes or computes. Each condition is needed, with a witness: nested overloaded operators, overloaded indexing, any overloaded operator for bindings, closures that capture values, and indices and divisions that panic. Fields are only copied, not moved, in the model."
  },
  {
   "property": "C129",
   "status": "partial",
   "theorems": [
    "unnecessary_operation_partial",
    "unnecessary_index_partial",
    "unnecessary_panic_refuted",
    "unnecessary_overloaded_refuted",
    "unnecessary_order_refuted",
    "unnecessary_moved_refuted"
   ],
   "note": "Without overloaded operators and destructors: the same calls in the same order, and the same panics unless the operators removed panic. Each condition is needed, with a witness: panics of the operators removed, bounds checks behind a reference, nested overloaded operators and overloaded indexing, results dropped earlier, and x.0 becoming x, which drops x."
  },
  {
   "property": "C130",
   "status": "partial",
   "theorems": [
    "branches_sharing_code_partial",
    "branches_sharing_end_partial",
    "branches_sharing_condition_refuted",
    "branches_sharing_name_refuted",
    "branches_sharing_overlap_refuted"
   ],
   "note": "Moving code to the end in full if nothing is moved to the start. Code at the start where the conditions only compute, mention no name that is moved, and no statement of a branch is counted twice; each is needed (witnesses: a condition that calls a function, a moved declaration that captures a name of the condition, and a short branch whose one statement counts as its start and as its end). Macros and destructors are not modelled; whether a use modifies a variable is taken from the statement."
  },
  {
   "property": "C131",
   "status": "proved",
   "theorems": [
    "match_sharing_code"
   ],
   "note": "In full for the language modelled; patterns are numbers, the last binds a name. Destructors, because of which the lint does not mark the suggestion as machine-applicable, are not modelled."
  },
  {
   "property": "C132",
   "status": "partial",
   "theorems": [
    "only_used_in_recursion_partial",
    "only_used_in_recursion_lazy_refuted",
    "only_used_in_recursion_panic_refuted"
   ],
   "note": "Where built-in operators do not panic, and no reported parameter stands left of && or ||, whose right side may call functions; false otherwise (witnesses). One function without nested ones; all values are of primitive type, so that there are no destructors and no overloaded operators."
  },
  {
   "property": "C133",
   "status": "partial",
   "theorems": [
    "needless_range_loop_partial",
    "needless_range_loop_short_refuted",
    "needless_range_loop_inclusive_refuted",
    "needless_range_loop_rows_refuted",
    "needless_range_loop_assigned_refuted",
    "needless_range_loop_selected_refuted",
    "needless_range_loop_order_refuted"
   ],
   "note": "Where the range ends within the sequence, its bounds have no effect, the variable of the loop and the variable that selects a row are not assigned, and a length that is compared is that of the sequence itself. Each is needed, with a witness. v[i][k], ranges without end, and borrows are not modelled."
  },
  {
   "property": "C134",
   "status": "partial",
   "theorems": [
    "missing_asserts_silent_partial",
    "missing_asserts_reported_partial",
    "missing_asserts_add_partial",
    "missing_asserts_through_zero_refuted",
    "missing_asserts_branch_refuted",
    "missing_asserts_assigned_refuted",
    "missing_asserts_add_branch_refuted"
   ],
   "note": "For texts without branches in which no slice is assigned, and, for silence, without v[..=0]; false otherwise (witnesses). Effects before a panic are not modelled."
  },
  {
   "property": "C135",
   "status": "partial",
   "theorems": [
    "missing_asserts_replace_partial",
    "missing_asserts_equal_partial",
    "missing_asserts_less_refuted",
    "missing_asserts_equal_refuted"
   ],
   "note": "For > and >= in texts without branches; code whose == is replaced always panics. False for ==, < and <= (witnesses)."
  },
  {
   "property": "C136",
   "status": "partial",
   "theorems": [
    "while_immutable_rewrite_partial",
    "while_immutable_endless_partial",
    "while_immutable_overloaded_refuted",
    "while_immutable_continue_refuted"
   ],
   "note": "Where the condition has no overloaded operator, and, for loops that never end, no outer loop is continued from within; false otherwise (witnesses). Panics and processes that exit are not modelled."
  },
  {
   "property": "C137",
   "status": "partial",
   "theorems": [
    "infinite_loop_partial",
    "infinite_loop_outer_refuted",
    "infinite_loop_value_refuted"
   ],
   "note": "Where breaks have no labels from outside the loop and their values do not jump; false otherwise (witnesses). Panics and processes that exit are not modelled."
  },
  {
   "property": "C138",
   "status": "partial",
   "theorems": [
    "same_item_partial",
    "same_item_resize_partial",
    "same_item_let_refuted",
    "same_item_tail_refuted",
    "same_item_lazy_refuted"
   ],
   "note": "Where the vector is not used in let statements or at the end of blocks, and, for the number of copies, the body has neither && nor break; false otherwise (witnesses)."
  },
  {
   "property": "C139",
   "status": "partial",
   "theorems": [
    "while_let_by_ref_partial",
    "while_let_by_move_partial",
    "while_let_index_refuted",
    "while_let_deref_refuted",
    "while_let_closure_refuted"
   ],
   "note": "Where the loop leaves alone the indices that select the iterator, the iterator is not written as a dereference, and, if it is moved, the loop is in no closure; false otherwise (witnesses). When the iterator is dropped, and items that are no local variables, are not modelled."
  },
  {
   "property": "C140",
   "status": "partial",
   "theorems": [
    "infinite_iter_partial",
    "infinite_iter_cycle_refuted",
    "infinite_iter_sum_refuted",
    "infinite_iter_flat_map_refuted"
   ],
   "note": "Where cycle() is called on iterators that have an item and sum() does not make an Option or a Result; false otherwise (witnesses). Numbers do not overflow in the model; rev and closures with state are not modelled."
  },
  {
   "property": "C141",
   "status": "partial",
   "theorems": [
    "map_entry_partial",
    "map_entry_assigned_refuted",
    "map_entry_call_refuted",
    "map_entry_closure_refuted",
    "map_entry_moved_refuted"
   ],
   "note": "Proved where the key is a variable that is not assigned, no closure inserts, and a key that is not Copy is not used otherwise unless there is an else. Refuted without each of these, with witnesses."
  },
  {
   "property": "C142",
   "status": "partial",
   "theorems": [
    "never_read_partial",
    "never_read_panic_refuted",
    "never_read_argument_refuted",
    "never_read_closure_refuted"
   ],
   "note": "Proved where the methods called on the collection tell nothing of what it holds but by what they return: they panic, write to their arguments and call closures alike. Refuted without each of these, with witnesses."
  },
  {
   "property": "C143",
   "status": "partial",
   "theorems": [
    "mixed_read_write_partial",
    "mixed_read_write_apart_partial",
    "mixed_write_write_refuted",
    "mixed_read_ref_refuted"
   ],
   "note": "Proved where no two operands of an expression both write to a variable, and no variable that is written is read behind &; refuted otherwise, with witnesses. Closures and calls with effects are not modelled."
  },
  {
   "property": "C144",
   "status": "partial",
   "theorems": [
    "sort_by_partial",
    "sort_by_cast_refuted",
    "sort_by_path_refuted",
    "sort_by_at_refuted"
   ],
   "note": "Proved where patterns have no @, and the two expressions have as many elements, arguments and segments and cast to the same types; refuted for casts to different types, paths of different lengths and patterns with @, with witnesses. Patterns of structs and slices are not modelled."
  },
  {
   "property": "C145",
   "status": "partial",
   "theorems": [
    "set_insert_partial",
    "set_insert_loop_refuted",
    "set_insert_assigned_refuted",
    "set_insert_owner_refuted"
   ],
   "note": "Proved where the insert is not in a loop or closure, the key is not assigned and no struct that holds the set is borrowed; refuted without each of these, with witnesses."
  },
  {
   "property": "C146",
   "status": "partial",
   "theorems": [
    "manual_checked_partial",
    "manual_checked_first_partial",
    "manual_checked_second_refuted",
    "manual_checked_assigned_refuted",
    "manual_checked_dividend_refuted"
   ],
   "note": "Proved for every division where the variables of the divisor are not assigned, and for the first division by a variable outside of loops whose dividend does not assign it; refuted for later divisions, divisors whose parts are assigned and dividends that assign, with witnesses. Closures are not modelled."
  },
  {
   "property": "C147",
   "status": "partial",
   "theorems": [
    "slow_init_partial",
    "slow_init_other_capacity_refuted",
    "slow_init_capacity_refuted",
    "slow_init_self_refuted",
    "slow_init_call_refuted",
    "slow_init_match_refuted"
   ],
   "note": "Proved where the allocation is what the first statement is, and the size has no calls and asks neither the vector itself nor a capacity; refuted without each of these, with witnesses. Blocks within the first statement are not modelled."
  },
  {
   "property": "C148",
   "status": "partial",
   "theorems": [
    "slice_fill_partial",
    "slice_fill_index_refuted",
    "slice_fill_value_refuted"
   ],
   "note": "Proved for loops over elements, and for loops over indices whose variable is the index; refuted where the index is another variable, which is not checked, with witnesses."
  },
  {
   "property": "C149",
   "status": "partial",
   "theorems": [
    "init_then_push_reports",
    "init_then_push_partial",
    "init_then_push_self_refuted",
    "init_then_push_match_refuted"
   ],
   "note": "What is reported is proved in full. That vec![..] is the same is proved where the vector is made by the statement itself and no item asks it; refuted without each of these, with witnesses. Blocks within statements are not modelled."
  },
  {
   "property": "C150",
   "status": "partial",
   "theorems": [
    "if_let_mutex_reports",
    "if_let_mutex_found_partial",
    "if_let_mutex_deadlocks_partial",
    "if_let_mutex_statement_refuted",
    "if_let_mutex_branch_refuted",
    "if_let_mutex_drop_refuted",
    "if_let_mutex_missed_refuted"
   ],
   "note": "What is reported is proved in full. That the second lock is never passed is proved where the first is always reached and kept; that all are found, where what is matched locks one mutex only; refuted without each of these, with witnesses. Closures are not modelled."
  },
  {
   "property": "C151",
   "status": "partial",
   "theorems": [
    "overflow_check_reports",
    "overflow_check_never_true",
    "overflow_check_wrapping",
    "overflow_check_found_partial",
    "overflow_check_missed_refuted"
   ],
   "note": "What is reported, that it is never true with overflow checks, and what it is without, are proved in full. That every such condition is reported is proved but where a sum is asked whether something can be taken from it; refuted there, with a witness. Macros are not modelled."
  }
 ]
}