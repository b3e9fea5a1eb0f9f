{"id": "C01", "title": "Rotate suggestion preserves the value", "statement": "Whenever `manual_rotate` fires on `(x << a) | (x >> b)` (or `+`, or the operands swapped) and offers `x.rotate_left(n)` / `rotate_right(n)`, the offered call evaluates to the same value as the written expression whenever that expression does not panic, and the call itself does not panic.", "quantifier": "every unsigned and signed integer width, every value of x, every constant or variable shift amount, both overflow-check modes", "why_tests_cant": "the value space is 2^128 per type and the rewrite has several syntactic shapes; UI tests only look at the printed suggestion, never at its value", "anchors": ["clippy_lints/src/manual_rotate.rs: check_expr, parse_shift"]}
{"id": "C02", "title": "Ceiling-division suggestion preserves the value", "statement": "Whenever `manual_div_ceil` fires, the offered `x.div_ceil(y)` (or `next_multiple_of`) has the value of the original expression whenever the original does not panic.", "quantifier": "every integer type, every pair of operands, every accepted syntactic shape", "why_tests_cant": "needs all pairs of 128-bit operands; negative dividends and overflow are the dangerous cases and are sampled at best", "anchors": ["clippy_lints/src/operators/manual_div_ceil.rs: check, check_int_ty_and_feature, differ_by_one, check_literal"]}
{"id": "C03", "title": "Power-of-two suggestion preserves the truth value", "statement": "Whenever `manual_is_power_of_two` fires, `x.is_power_of_two()` has the truth value of the written test whenever the written test does not panic.", "quantifier": "every unsigned width, every x, both overflow-check modes", "why_tests_cant": "the interesting inputs (0, wraparound) depend on build flags that UI tests never vary", "anchors": ["clippy_lints/src/manual_is_power_of_two.rs: check_expr, count_ones_receiver, is_one_less"]}
{"id": "C04", "title": "abs_diff suggestion preserves the value", "statement": "Whenever `manual_abs_diff` fires on `if a > b { a - b } else { b - a }` (any of the accepted comparison directions, including with a trailing cast for signed types), the offered `a.abs_diff(b)` has the value of the original whenever the original does not panic.", "quantifier": "every integer type, every pair of operands, every comparison operator, both overflow modes", "why_tests_cant": "pairs of 128-bit values; equality of the two branches is only visible on ties and at the extremes", "anchors": ["clippy_lints/src/manual_abs_diff.rs: check_expr, is_sub_expr"]}
{"id": "C05", "title": "rem_euclid suggestion preserves the value", "statement": "Whenever `manual_rem_euclid` fires on `((x % c) + c) % c`, the offered `x.rem_euclid(c)` has the value of the written expression whenever that does not panic.", "quantifier": "every signed/unsigned width, every x, every positive constant c", "why_tests_cant": "depends on truncating vs flooring remainder for all signs and magnitudes", "anchors": ["clippy_lints/src/manual_rem_euclid.rs: check_expr, check_for_either_unsigned_int_constant"]}
{"id": "C06", "title": "is_multiple_of suggestion preserves the truth value", "statement": "Whenever `manual_is_multiple_of` fires on a comparison of `x % y` with 0, the offered (possibly negated) `x.is_multiple_of(y)` has the truth value of the written comparison whenever that does not panic.", "quantifier": "every unsigned width, every x and y, each accepted comparison", "why_tests_cant": "needs all pairs of operands", "anchors": ["clippy_lints/src/operators/manual_is_multiple_of.rs: check"]}
{"id": "C07", "title": "Lowest-bit and midpoint suggestions preserve the value", "statement": "`x & x.wrapping_neg()` (and `x & -x`) equals the offered `isolate_lowest_one`; `(a + b) / 2` and `(a + b) >> 1` equal the offered `midpoint(a, b)`, whenever the original does not panic.", "quantifier": "every integer width, every operand value, both overflow modes", "why_tests_cant": "values up to 2^128; rounding direction of midpoint only shows for negative odd sums", "anchors": ["clippy_lints/src/operators/manual_isolate_lowest_one.rs: check", "clippy_lints/src/operators/manual_midpoint.rs: check"]}
{"id": "C08", "title": "bad_bit_mask / ineffective_bit_mask verdicts are true", "statement": "If `bad_bit_mask` says a masked comparison is always true (false), it evaluates to true (false) for every value of the masked variable; if `ineffective_bit_mask` says the mask has no effect, removing the mask never changes the comparison.", "quantifier": "every integer type, every mask and comparison constant, every value of the variable", "why_tests_cant": "the claim is universally quantified over the variable; tests contain a handful of masks", "anchors": ["clippy_lints/src/operators/bit_mask.rs: check, check_compare, check_bit_mask, check_ineffective_lt, check_ineffective_gt"]}
{"id": "C09", "title": "verbose_bit_mask suggestion preserves the truth value", "statement": "Whenever `verbose_bit_mask` fires on `x & m == 0`, the offered `x.trailing_zeros() >= k` has the same truth value.", "quantifier": "every integer width and every x and every accepted mask m", "why_tests_cant": "universally quantified over x and m", "anchors": ["clippy_lints/src/operators/verbose_bit_mask.rs: check"]}
{"id": "C10", "title": "absurd_extreme_comparisons verdicts are true", "statement": "If the lint says a comparison against a type's extreme value is always true, always false, or only reachable at equality, that holds for every value of the other operand.", "quantifier": "every bool/integer type and pointer width, every comparison operator, every operand value", "why_tests_cant": "universally quantified over the operand; includes normalisation of the comparison direction", "anchors": ["clippy_lints/src/operators/absurd_extreme_comparisons.rs: check, detect_absurd_comparison, detect_extreme_expr", "clippy_utils/src/comparisons.rs: normalize_comparison"]}
{"id": "C11", "title": "invalid_upcast_comparisons verdicts are true", "statement": "If the lint says a comparison involving an upcast is always true or always false, it is so for every value of the variable before the cast.", "quantifier": "every pair of integer types, every compared constant, every value of the variable", "why_tests_cant": "the range reasoning has to hold for all 2^128 values and all type pairs", "anchors": ["clippy_lints/src/operators/invalid_upcast_comparisons.rs: check, numeric_cast_precast_bounds, upcast_comparison_bounds_err"]}
{"id": "C12", "title": "identity_op / erasing_op replacements preserve the value", "statement": "If `identity_op` says an operation has no effect, replacing it by the named operand never changes the value; if `erasing_op` says it always yields zero, it does whenever it does not panic.", "quantifier": "every integer type, every operand value, every operator", "why_tests_cant": "universally quantified over the non-constant operand", "anchors": ["clippy_lints/src/operators/identity_op.rs: check, is_redundant_op, check_remainder, integer_const", "clippy_lints/src/operators/erasing_op.rs: check, check_op"]}
{"id": "C13", "title": "Comparison-pair verdicts are true", "statement": "If `redundant_comparisons` says one side of `x < a && x < b` can be dropped, dropping it never changes the result; if `impossible_comparisons` says the conjunction is impossible, it is false for every x.", "quantifier": "every totally ordered type, every pair of constants, every pair of comparison operators, every x", "why_tests_cant": "universally quantified over x and over the constants", "anchors": ["clippy_lints/src/operators/const_comparisons.rs: check, left_side_is_useless, comparison_is_possible"]}
{"id": "C14", "title": "double_comparisons rewrite preserves the truth value", "statement": "Whenever `double_comparisons` offers to merge `x op1 y && / || x op2 y` into one comparison, the merged comparison has the same truth value.", "quantifier": "every row of the rewrite table, every operand pair, including floating-point operands", "why_tests_cant": "the lint does not look at operand types, so the claim also ranges over NaN", "anchors": ["clippy_lints/src/operators/double_comparison.rs: check"]}
{"id": "C15", "title": "int_plus_one rewrite preserves the truth value", "statement": "Whenever `int_plus_one` offers to replace `x >= y + 1` (and its seven siblings) by a strict comparison, the strict comparison has the same truth value whenever the original does not panic.", "quantifier": "every integer type, every operand pair, every accepted shape", "why_tests_cant": "universally quantified over operands; the boundary is the overflow case", "anchors": ["clippy_lints/src/int_plus_one.rs: check_binop, check_expr"]}
{"id": "C16", "title": "clamp suggestion preserves the value", "statement": "Whenever `manual_clamp` offers `input.clamp(min, max)`, and min <= max, the call has the value of the original code.", "quantifier": "every accepted code shape (if-else chains, max/min method and function calls, match, two ifs), every input, min, max of a totally ordered type", "why_tests_cant": "universally quantified over triples of values and over six code shapes", "anchors": ["clippy_lints/src/manual_clamp.rs: is_if_elseif_else_pattern, is_max_min_pattern, is_match_pattern, is_two_if_pattern, Suggestion"]}
{"id": "C17", "title": "Saturating-arithmetic suggestions preserve the value", "statement": "Whenever `implicit_saturating_sub`, `implicit_saturating_add`, `inverted_saturating_sub` or `manual_saturating_arithmetic` offers a `saturating_*` call, it has the value (or leaves the variable in the state) the original would have produced whenever the original does not panic.", "quantifier": "every integer type, every operand pair, every accepted shape", "why_tests_cant": "the extreme values decide, for every width and sign", "anchors": ["clippy_lints/src/implicit_saturating_sub.rs", "clippy_lints/src/implicit_saturating_add.rs", "clippy_lints/src/methods/manual_saturating_arithmetic.rs: check, is_min_or_max, lit_sign"]}
{"id": "C18", "title": "Range-contains suggestion preserves the truth value", "statement": "Whenever `manual_range_contains` offers `(a..b).contains(&x)` or its negation, it has the truth value of the written pair of comparisons.", "quantifier": "every operand triple of an ordered type, every accepted operator pair and order, && and ||", "why_tests_cant": "universally quantified over x and the bounds; floats with NaN differ on ||", "anchors": ["clippy_lints/src/ranges.rs: check_possible_range_contains, check_range_bounds"]}
{"id": "C19", "title": "min/max verdicts are true", "statement": "If `min_max` says a nested min/max always yields a constant it does; if `unnecessary_min_or_max` offers one operand, the call always returns that operand.", "quantifier": "every value of the variable operand, every pair of constants of an ordered type", "why_tests_cant": "universally quantified over the variable and the constants", "anchors": ["clippy_lints/src/minmax.rs: check_expr, min_max", "clippy_lints/src/methods/unnecessary_min_or_max.rs: check, detect_extrema"]}
{"id": "C20", "title": "A silent integer cast preserves the value", "statement": "If none of the integer cast lints (`cast_possible_truncation`, `cast_possible_wrap`, `cast_sign_loss`) fires on an integer-to-integer `as` cast of an arbitrary expression, the cast yields the mathematical value of its operand on every supported pointer width.", "quantifier": "every ordered pair of integer types, every pointer width 16/32/64, every operand value", "why_tests_cant": "the interaction of three independently written lints over all type pairs and pointer widths", "anchors": ["clippy_lints/src/casts/cast_possible_truncation.rs: check", "clippy_lints/src/casts/cast_possible_wrap.rs: check", "clippy_lints/src/casts/cast_sign_loss.rs: check", "clippy_lints/src/casts/utils.rs"]}
{"id": "C21", "title": "Bit-width reductions used to silence truncation warnings are sound", "statement": "If `cast_possible_truncation` stays silent because the operand provably needs few bits, the operand really fits in the target type.", "quantifier": "every expression built from literals, variables, arithmetic and bit operations, casts and method calls, every environment", "why_tests_cant": "recursive analysis over unbounded expressions; an unsound case silently hides a lossy cast", "anchors": ["clippy_lints/src/casts/cast_possible_truncation.rs: apply_reductions, constant_int, get_constant_bits"]}
{"id": "C22", "title": "Sign analysis used to silence sign-loss warnings is sound", "statement": "If `cast_sign_loss` stays silent because the operand is judged never negative, no evaluation of the operand yields a negative value.", "quantifier": "every expression built from constants, variables, products, quotients, remainders, sums and the recognised methods; every environment", "why_tests_cant": "recursive analysis over unbounded expressions", "anchors": ["clippy_lints/src/casts/cast_sign_loss.rs: should_lint, expr_sign, pow_call_result_sign, expr_muldiv_sign, expr_add_sign"]}
{"id": "C23", "title": "ilog2 / bit-width suggestions preserve the value", "statement": "Whenever `manual_ilog2` or `manual_bit_width` (BITS minus leading zeros) fires, the offered call has the value of the original whenever the original does not panic.", "quantifier": "every width and every non-zero (resp. any) value", "why_tests_cant": "universally quantified over values", "anchors": ["clippy_lints/src/manual_ilog2.rs: check_expr", "clippy_lints/src/bit_width.rs: check_expr"]}
{"id": "C24", "title": "Merged range pattern matches the same values", "statement": "Whenever `manual_range_patterns` offers a single range for an or-pattern of literals and ranges, a value matches the offered range exactly when it matches the or-pattern.", "quantifier": "every or-pattern of any length of integer/char/byte literals and ranges, every scrutinee", "why_tests_cant": "lists of unbounded length and an interval-merging loop", "anchors": ["clippy_lints/src/manual_range_patterns.rs: check_pat, Num, RangeBounds handling"]}
{"id": "C25", "title": "Overlapping-arm reports are real and complete up to nesting", "statement": "If `match_overlapping_arm` reports two ranges, some value lies in both; if it reports nothing, any two of the ranges are disjoint or one contains the other.", "quantifier": "every finite list of non-empty ranges with inclusive/exclusive ends", "why_tests_cant": "a sweep with a stack over lists of any length", "anchors": ["clippy_lints/src/matches/overlapping_arms.rs: overlapping"]}
{"id": "C26", "title": "never_loop reports only loops that never loop", "statement": "If `never_loop` says a loop never actually loops, then no execution of the loop body reaches the end of the body or a `continue` of that loop.", "quantifier": "every loop body built from the expression forms of the language, nested loops, labelled blocks, branches, every execution of it", "why_tests_cant": "unbounded programs and executions; a false report tells the user to delete a loop that loops", "anchors": ["clippy_lints/src/loops/never_loop.rs: check, never_loop_expr, never_loop_block, combine_seq, combine_branches, absorb_break"]}
{"id": "C27", "title": "Constant evaluation agrees with run-time evaluation", "statement": "If the shared constant evaluator assigns a constant to an expression, the expression evaluates to exactly that value at run time (in particular it does not panic).", "quantifier": "every expression of the modelled language, every width, every environment", "why_tests_cant": "recursive evaluator over unbounded expressions with sign-extension tricks on 128-bit containers", "anchors": ["clippy_utils/src/consts.rs: ConstEvalCtxt::eval, expr, binop, unop, constant_not, constant_negate, ifthenelse, block, index", "clippy_utils/src/lib.rs: sext, unsext, clip"]}
{"id": "C28", "title": "Constant ordering agrees with value ordering", "statement": "Comparing two constants of the same type through the shared comparison gives the order of the values they denote; the mixed signed/unsigned integer order is a total order agreeing with the mathematical integers.", "quantifier": "every pair (triple) of constants", "why_tests_cant": "total-order laws over 128-bit payloads", "anchors": ["clippy_utils/src/consts.rs: Constant::partial_cmp, FullInt::{cmp_s_u, Ord, PartialEq}"]}
{"id": "C29", "title": "Sign extension helpers are inverse conversions", "statement": "Sign-extending a bit pattern and truncating it back is the identity on in-range patterns, sign extension yields the two's-complement value, and clipping is reduction modulo 2^width.", "quantifier": "every width 8..128 (and pointer width), every 128-bit pattern", "why_tests_cant": "2^128 patterns per width", "anchors": ["clippy_utils/src/lib.rs: int_bits, sext, unsext, clip"]}
{"id": "C30", "title": "Boolean simplification negates soundly", "statement": "Extracting a boolean expression into terminals, negating comparisons on the way, and printing the simplified form never changes the truth value; a comparison is replaced by its complement only when the operand order is total.", "quantifier": "every boolean expression of any size, every assignment to its terminals", "why_tests_cant": "unbounded expressions; correctness is about all assignments", "anchors": ["clippy_lints/src/booleans.rs: Hir2Qmm::run, extract, simplify_not, simple_negate, SuggestContext::recurse, terminal_stats"]}
{"id": "C31", "title": "Comparison normalisation preserves meaning", "statement": "Normalising a comparison to `<` / `<=` / `==` / `!=` form yields a comparison with the same truth value, for every non-comparison operator it reports nothing.", "quantifier": "every operator and operand pair", "why_tests_cant": "shared by many lints", "anchors": ["clippy_utils/src/comparisons.rs: normalize_comparison"]}
{"id": "C32", "title": "Reformatting a numeric literal preserves the literal", "statement": "Regrouping the digits of a numeric literal changes nothing but underscores (and documented zero padding / float completion): radix, digits in order, fraction, exponent and suffix denote the same number of the same type.", "quantifier": "every well-formed integer and float literal text of any length, every radix, any placement of underscores, with or without suffix", "why_tests_cant": "strings of unbounded length", "anchors": ["clippy_utils/src/numeric_literal.rs: NumericLiteral::{new, format, group_digits, split_digit_parts}, split_suffix, Radix::suggest_grouping"]}
{"id": "C33", "title": "Digit grouping has the advertised shape and is stable", "statement": "After regrouping, every group but the partial end one has exactly the radix's group size, no leading/trailing/double underscore appears, and regrouping the result again changes nothing; the literal lints accept their own suggestion.", "quantifier": "every digit string of any length, every group size > 0, both partial-group orientations", "why_tests_cant": "strings of unbounded length, composition of two passes", "anchors": ["clippy_utils/src/numeric_literal.rs: group_digits", "clippy_lints/src/literal_representation.rs: LiteralDigitGrouping::{do_lint, get_group_size, parts_consistent}"]}
{"id": "C34", "title": "Camel-case splitting loses nothing", "statement": "Splitting an identifier into camel-case components and concatenating them returns the identifier; each reported start index is a real boundary; common-prefix/suffix match counts are true counts.", "quantifier": "every identifier string of any length over any characters", "why_tests_cant": "strings of unbounded length", "anchors": ["clippy_utils/src/str_utils.rs: camel_case_split, camel_case_indices, camel_case_start_from_idx, camel_case_until, count_match_start, count_match_end, to_snake_case, to_camel_case"]}
{"id": "C35", "title": "Built suggestions re-parse to the intended tree", "statement": "An expression assembled with the suggestion builder, when printed and parsed with Rust's operator precedence, is the tree that was assembled.", "quantifier": "every finite tree of binary, unary, cast, range and comparison operators", "why_tests_cant": "trees of unbounded size; precedence errors silently change program meaning", "anchors": ["clippy_utils/src/sugg.rs: Sugg::{maybe_paren, as_ty, Not, Neg, BinOp}, make_binop, make_unop, make_assoc, associativity, has_enclosing_paren"]}
{"id": "C36", "title": "Duration unit promotion preserves the duration", "statement": "Whenever `duration_suboptimal_units` offers a coarser constructor, the offered duration equals the written one, the value is non-zero and no coarser listed unit divides it.", "quantifier": "every constructor, every constant argument, every list of available units", "why_tests_cant": "universally quantified over the argument", "anchors": ["clippy_lints/src/duration_suboptimal_units.rs: check_expr, promote"]}
{"id": "C37", "title": "Lint arguments reach the driver unchanged", "statement": "The arguments a user writes after `--` reach the driver's compiler invocation in the same order, unchanged, nothing added; and exactly those.", "quantifier": "every list of argument strings", "why_tests_cant": "lists and strings of unbounded size; separator collisions and empty arguments are the rare inputs", "anchors": ["src/main.rs: ClippyCmd::into_std_cmd, process", "src/driver.rs: main (CLIPPY_ARGS handling)"]}
{"id": "C38", "title": "cargo-clippy command dispatch and flag handling", "statement": "Help, version and explain take precedence in that order wherever the flag occurs; otherwise the cargo sub-command is `fix` iff `--fix` precedes `--`, `--no-deps` and other driver flags are forwarded only as driver arguments, all other flags reach cargo in order, and the process exit status is cargo's.", "quantifier": "every argument vector", "why_tests_cant": "argument vectors of unbounded length in any order", "anchors": ["src/main.rs: main, ClippyCmd::new, path, into_std_cmd, process"]}
{"id": "C39", "title": "Driver decides whether to lint from its arguments only as documented", "statement": "Value lookup in the argument vector finds the first matching flag in both `--flag value` and `--flag=value` form before any `--` and nothing else; wrapper mode strips exactly the wrapped compiler path; lints run iff lints are not capped to allow, the crate is primary or no-deps is off, and no info query is made.", "quantifier": "every argument vector and every predicate", "why_tests_cant": "argument vectors of unbounded length", "anchors": ["src/driver.rs: arg_value, has_arg, main"]}
{"id": "C40", "title": "MSRV in force is the innermost attribute's", "statement": "While linting any node, the minimum supported Rust version used is the one given by the innermost enclosing `clippy::msrv` attribute, else the configured one; entering and leaving a subtree restores it.", "quantifier": "every tree of attributed nodes and every traversal point", "why_tests_cant": "trees of unbounded depth; depends on push/pop balance over whole traversals", "anchors": ["clippy_utils/src/msrvs.rs: MsrvStack::{new, current, meets, check_attributes, check_attributes_post}, parse_attrs"]}
{"id": "C41", "title": "`..` in a configuration list extends, otherwise replaces", "statement": "A configured list yields exactly the successfully read entries in order, followed by the defaults iff `..` occurs anywhere in it; a non-list yields exactly the defaults; a warning is given for each repeated `..`.", "quantifier": "every configured list and default list", "why_tests_cant": "lists of unbounded length", "anchors": ["clippy_config/src/de.rs: deserialize_array"]}
{"id": "C42", "title": "Configuration keys are honoured, diagnosed, never silently lost", "statement": "Every key of the configuration file either sets its (possibly renamed) field, is the reserved third-party key, or produces a diagnostic; a field whose key is absent holds its default; a deprecated key never overrides its new name.", "quantifier": "every table of keys, every assignment of renames", "why_tests_cant": "tables of unbounded size", "anchors": ["clippy_config/src/conf.rs: define_Conf! (ConfField, Conf::deserialize)"]}
{"id": "C43", "title": "Listing of possible values is complete and fits the terminal", "statement": "The multi-column listing shown for an unknown configuration value contains every possible value exactly once, and when several columns are used no line is wider than the terminal; the layout search always terminates.", "quantifier": "every list of values and every terminal width", "why_tests_cant": "an iterative search over layouts with mutable widths; lists of unbounded size", "anchors": ["clippy_config/src/de.rs: create_value_list_msg"]}
{"id": "C44", "title": "Lint renames never chain", "statement": "After any sequence of rename, deprecate and uplift operations, no recorded rename points at a name that has itself been renamed, and following one rename from any historic name reaches a current name.", "quantifier": "every history of tool invocations", "why_tests_cant": "histories of unbounded length", "anchors": ["clippy_dev/src/edit_lints.rs: rename, deprecate, uplift", "clippy_dev/src/deprecate_lint.rs"]}
{"id": "C45", "title": "Version bump edits only the version", "statement": "Bumping the crate version through the release tool replaces exactly the version string of each manifest and changes nothing else.", "quantifier": "every manifest text", "why_tests_cant": "strings of unbounded length; whitespace and line-ending variations", "anchors": ["clippy_dev/src/release.rs: bump_version", "clippy_dev/src/utils.rs: parse_cargo_package, Version::bump"]}
{"id": "C46", "title": "Region updates touch only the region", "statement": "Updating a delimited text region leaves everything before the start marker and after the end marker byte-identical, replaces exactly the text between, and reports `unchanged` iff the result equals the input; a second run with the same text is a no-op.", "quantifier": "every file text, markers and replacement", "why_tests_cant": "strings of unbounded length", "anchors": ["clippy_dev/src/utils.rs: update_text_region, update_text_region_fn, FileUpdater"]}
{"id": "C47", "title": "Work splitting loses no argument", "statement": "Splitting the formatter's file list into batches keeps every file exactly once and in order, and no batch is empty or exceeds the computed size.", "quantifier": "every file list, thread count and length limit", "why_tests_cant": "lists of unbounded length; length accounting", "anchors": ["clippy_dev/src/utils.rs: split_args_for_threads"]}
{"id": "C48", "title": "Borrow-origin relation is the transitive closure", "statement": "The set reported reachable from a local contains exactly the locals connected to it by a non-empty chain of recorded edges.", "quantifier": "every sequence of recorded edges, every local", "why_tests_cant": "graphs of unbounded size including cycles", "anchors": ["clippy_utils/src/mir/transitive_relation.rs: TransitiveRelation::{add, reachable_from}"]}
{"id": "C49", "title": "Reindenting a block changes only indentation", "statement": "Reindenting a multi-line snippet keeps the sequence of lines and each line's text after its leading blanks; relative indentation between lines is preserved; blank lines stay blank.", "quantifier": "every text, target indentation and first-line mode", "why_tests_cant": "strings of unbounded length", "anchors": ["clippy_utils/src/source.rs: reindent_multiline, reindent_multiline_inner"]}
{"id": "C50", "title": "The configuration file used is the nearest one", "statement": "The configuration comes from the first directory, going up from CLIPPY_CONF_DIR (else CARGO_MANIFEST_DIR, else the current directory), that holds `.clippy.toml` or `clippy.toml`, the former winning with a warning about the latter; a file that exists but cannot be read is an error, never skipped in favour of one further up.", "quantifier": "every chain of directories and every state of the two files in each", "why_tests_cant": "directory chains of unbounded depth", "anchors": ["clippy_config/src/conf.rs: load_conf_file"]}
{"id": "C51", "title": "The suggested configuration name is a closest one", "statement": "The name suggested for an unknown key is one of the options, and no option is closer in edit distance after ignoring case and `_`/`-`; nothing is suggested only if no option is within distance 4.", "quantifier": "every key, every list of options", "why_tests_cant": "option lists of unbounded length", "anchors": ["clippy_config/src/de.rs: find_closest_match"]}
{"id": "C52", "title": "Accepted item orderings are complete and unambiguous", "statement": "A configured grouping of module items is accepted exactly if every kind of item is in exactly one group and `use` is alone in its group; the position of an item is then that of its group; the built-in default is such a grouping and its hand-written tables agree with it.", "quantifier": "every list of named groups", "why_tests_cant": "groupings of unbounded size; the check is by counting", "anchors": ["clippy_config/src/types.rs: SourceItemOrderingModuleItemGroupings::{build_lut, build_back_lut, deserialize, from_default}"]}
{"id": "C53", "title": "Removing or renaming a lint touches exactly its own test files", "statement": "Among the test files, exactly those whose longest lint-name prefix is the removed or renamed lint are deleted or moved, each under its real path; removing the declaration keeps all text around it.", "quantifier": "every list of lint names and directory contents", "why_tests_cant": "lint names are prefixes of each other in unboundedly many ways", "anchors": ["clippy_dev/src/edit_lints.rs: delete_test_files, collect_ui_test_names, delete_lint"]}
{"id": "C54", "title": "Generated module list declares every module once", "statement": "The generated `mod` lines of a crate name exactly the top-level modules of the lint files, each once, whatever the path separator; grouping of a sorted slice loses nothing and splits it at the key changes only.", "quantifier": "every list of module paths", "why_tests_cant": "depends on how the separator sorts relative to the characters of every possible name", "anchors": ["clippy_dev/src/update_lints.rs / generate.rs: mod list generation", "clippy_dev/src/utils.rs: slice_groups"]}
{"id": "C55", "title": "Symbol list formatting is stable and loses nothing", "statement": "Formatting the symbol list keeps the rest of the file and every entry, sorts the entries and is idempotent.", "quantifier": "every file text", "why_tests_cant": "texts of unbounded length", "anchors": ["clippy_dev/src/fmt.rs: fmt_syms"]}
{"id": "C56", "title": "Reported line of an offset", "statement": "The line number reported with a formatting error is one more than the number of newlines before the offset.", "quantifier": "every text and offset in it", "why_tests_cant": "texts of unbounded length", "anchors": ["clippy_dev/src/fmt.rs: offset_to_line"]}
{"id": "C58", "title": "Lossless and precision-losing numeric casts are told apart by the values of the types", "statement": "`cast_lossless` between integer types fires exactly when both types are fixed-size, different, and the target type contains every value of the source type; when it fires on a cast to a floating-point type every value is represented exactly; when it fires between floating-point types every finite value is kept. `cast_precision_loss` is silent about a cast to f32 or f64 only if every value of the source type on every pointer width is exact, and when it fires some value is rounded.", "quantifier": "all pairs of primitive numeric types, all their values, all pointer widths", "why_tests_cant": "The claim quantifies over all values of types with up to 2^128 values and over three pointer widths; the UI tests are compiled for one target and only look at which expressions are reported.", "anchors": ["clippy_lints/src/casts/cast_lossless.rs", "clippy_lints/src/casts/cast_precision_loss.rs", "clippy_lints/src/casts/utils.rs"]}
{"id": "C59", "title": "The size computed for an enum is the least that holds its discriminants", "statement": "For every list of variants, with or without given discriminants, the number of bits computed for the enum (and for a single variant) is the least number of bits that holds all its discriminants as the language defines them, signed or unsigned; the discriminant found for a variant is the right one; a cast of the enum to a fixed-size integer type is reported exactly when neither integer type of that size holds all discriminants.", "quantifier": "all lists of variants, all discriminants in the range of i128 or u128, all target types", "why_tests_cant": "Enums have arbitrarily many variants in arbitrary patterns of given and implicit discriminants up to 2^128; the tests contain a dozen enums.", "anchors": ["clippy_lints/src/casts/utils.rs", "clippy_lints/src/casts/cast_possible_truncation.rs", "clippy_utils/src/ty/mod.rs"]}
{"id": "C60", "title": "cast_abs_to_unsigned keeps the value", "statement": "Whenever `x.abs() as T` is replaced by `x.unsigned_abs()` (with a cast to T unless T is the unsigned type of the same size) the expression has the same value.", "quantifier": "all operand expressions, all signed and unsigned integer types, all values, all pointer widths", "why_tests_cant": "The only difference can be at the minimum value and depends on overflow checks and on the widths; tests do not run the suggested code.", "anchors": ["clippy_lints/src/casts/cast_abs_to_unsigned.rs"]}
{"id": "C61", "title": "checked_conversions offers try_from only for the same condition", "statement": "Whenever `T::try_from(x).is_ok()` is offered for a comparison of x with bounds of T, the comparison is true exactly if the value of x is a value of T.", "quantifier": "all expressions, all pairs of integer types, all values, all pointer widths", "why_tests_cant": "The bounds are cast to the type of x, which may change them depending on both types and on the pointer width; tests cover a few pairs on one target and never evaluate the conditions.", "anchors": ["clippy_lints/src/checked_conversions.rs"]}
{"id": "C62", "title": "A mistyped-suffix suggestion is a literal of the intended value", "statement": "When the last digit group of a literal is taken for a mistyped suffix, the suggestion is a literal whose value is that of the digits before the group and whose type, an integer type able to hold it or the float type named by the group, is the one spelled by the suggested suffix.", "quantifier": "every integer and float literal text of any length and radix", "why_tests_cant": "strings of unbounded length, all radices and all values around the range limits", "anchors": ["clippy_lints/src/literal_representation.rs: LiteralDigitGrouping::check_for_mistyped_suffix"]}
{"id": "C63", "title": "A hexadecimal suggestion denotes the same number", "statement": "decimal_literal_representation only fires on decimal integer literals at or above the threshold, its suggestion is a hexadecimal literal of the same number and suffix, and every power of two and its predecessor at or above the threshold is reported.", "quantifier": "every decimal integer literal, every threshold", "why_tests_cant": "unbounded values", "anchors": ["clippy_lints/src/literal_representation.rs: DecimalLiteralRepresentation::{check_lit, do_lint}"]}
{"id": "C57", "title": "Compound constants compare, hash and equal like the values they stand for", "statement": "Comparing two constants (strings, chars, numbers, nested tuples, arrays, repetitions, references) gives the order Rust gives their values, equal constants stand for the same value and hash alike, and the smallest/largest constants of a type bound and are recognised among all its constants.", "quantifier": "all constants of any nesting depth, all types, all target pointer widths", "why_tests_cant": "constants nest without bound, and the extremes have to be related to every constant of every type", "anchors": ["clippy_utils/src/consts.rs: PartialEq/Hash for Constant, Constant::{partial_cmp, new_numeric_min, new_numeric_max, is_numeric_min, is_numeric_max}"]}
{"id": "C65", "title": "Raw string literals lose only what they do not need", "statement": "Replacing the hashes of a raw string literal by the suggested number leaves a literal that still denotes the same string, with as few hashes as the configuration allows, and every literal that could do with fewer is reported; dropping the `r` where the lint offers it leaves a plain literal denoting the same string.", "quantifier": "all raw string literals (str, byte and C strings), all numbers of hashes, all contents, both settings of allow-one-hash", "why_tests_cant": "contents and numbers of hashes are unbounded, and the minimum has to be compared with every smaller number", "anchors": ["clippy_lints/src/raw_strings.rs: check_raw_string, hash_spans"]}
{"id": "C66", "title": "Octal-looking escapes are found exactly and the replacements mean what they say", "statement": "Reports are at exactly the `\\0` escapes followed by an octal digit; the hexadecimal suggestion denotes the code of the octal number in the place of the zero and the digits, and the other suggestion denotes the same string as before, with everything else unchanged.", "quantifier": "all string and byte string literals that are accepted by the compiler", "why_tests_cant": "escapes combine without bound: `\\\\0`, `\\x00`, `\\u{..}`, line continuations", "anchors": ["clippy_lints/src/octal_escapes.rs: check_expr"]}
{"id": "C69", "title": "A string of one character becomes the same character", "statement": "The character literal offered for a string literal of one character is a valid literal of that very character.", "quantifier": "all plain and raw string literals, with and without the ASCII restriction", "why_tests_cant": "every way to write a character (itself, escapes, raw) has to survive the change of quotes", "anchors": ["clippy_utils/src/source.rs: str_literal_to_char_literal"]}
{"id": "C64", "title": "Nesting or-patterns changes nothing about what is matched", "statement": "The pattern suggested for one with unnested alternatives matches the same values with the same bindings, can be written down as printed, is found whenever two alternatives differ in one place only, and the rewriting always ends.", "quantifier": "all patterns of any nesting (tuples, slices, structs, references, bindings, `..`), all interpretations of constants and constructors, all values", "why_tests_cant": "patterns nest without bound, the rewriting is iterated to a fixed point, and the claim is about every value", "anchors": ["clippy_lints/src/unnested_or_patterns.rs: lint_unnested_or_patterns, unnest_or_patterns, transform_with_focus_on_idx, extend_with_struct_pat, extend_with_matching_product, drain_matching, eq_pre_post, insert_necessary_parens, remove_all_parens", "clippy_utils/src/ast_utils/mod.rs: eq_pat, unordered_over"]}
{"id": "C67", "title": "Comparisons with booleans are replaced by equivalent expressions", "statement": "Whatever is suggested for a comparison of booleans (with `true`, `false` or each other), put in the place of the comparison in the source, parses there and has the value of the comparison; every `==`/`!=` with one literal and every `<`/`>` that is not always false is reported.", "quantifier": "all operands of any nesting of operators, casts and parentheses, all surrounding operators, all values", "why_tests_cant": "operands and contexts nest without bound, and precedence, parentheses and negation interact", "anchors": ["clippy_lints/src/bool_comparison.rs: check_expr, check_comparison, suggest_bool_comparison, fetch_bool_expr", "clippy_utils/src/sugg.rs: hir_with_context, Not, make_binop"]}
{"id": "C68", "title": "An `if` with boolean literals as results reduces to its condition", "statement": "The condition suggested for `if c {true} else {false}`, for the reverse, for `return`s, for assignments and for an early return, put in the place of the `if`, parses there as one expression or statement and means the same.", "quantifier": "all conditions of any nesting, all surrounding operators and places, all values", "why_tests_cant": "parentheses are added by a case analysis on the surroundings, which nest without bound", "anchors": ["clippy_lints/src/needless_bool.rs: check_expr, check_block, condition_needs_parentheses, is_as_argument, is_operand_of_binary_or_unary", "clippy_utils/src/lib.rs: is_parent_stmt, is_block_like, is_receiver_of_method_call"]}
{"id": "C70", "title": "Arithmetic that is not reported as having side effects does not panic", "statement": "If `arithmetic_side_effects` does not report an integer or float operator, a negation or a call of `wrapping_rem_euclid`, then the operation does not panic, with overflow checks on, for any values of its operands; and what it reports about variables and literals does panic for some values.", "quantifier": "all well-typed operations over all integer types, target pointer widths and operand values", "why_tests_cant": "The tests list operations that are or are not reported; the promise is about every value the operands of a silent operation can take.", "anchors": ["clippy_lints/src/operators/arithmetic_side_effects.rs:127-273", "clippy_lints/src/operators/arithmetic_side_effects.rs:329-445"]}
{"id": "C71", "title": "Evaluating eagerly what was lazy never introduces a panic", "statement": "If the eagerness analysis says an expression may be evaluated eagerly, then evaluating it cannot panic in any environment, so `unwrap_or_else(|| e)` and `unwrap_or(e)`, and `then(|| e)` and `then_some(e)`, behave the same; the only exceptions are operations on constants that the compiler rejects anyway.", "quantifier": "all well-typed expressions of the language and all environments", "why_tests_cant": "The suggested code panics only for particular run-time values that a UI test never executes.", "anchors": ["clippy_utils/src/eager_or_lazy.rs:26-48", "clippy_utils/src/eager_or_lazy.rs:115-323", "clippy_utils/src/visitors.rs:327-414", "clippy_lints/src/methods/unnecessary_lazy_eval.rs:16-60"]}
{"id": "C72", "title": "Expressions found equal by SpanlessEq behave alike", "statement": "If `SpanlessEq` says two expressions are equal, then after exchanging the operands of some commutative or comparison operators one does exactly what the other does: the same outcome (value, break, return, panic), the same calls in the same order, the same values of all outer locals. If those operands only compute, no exchange is needed. Every expression without closures, items, or-patterns and `!` is equal to itself.", "quantifier": "all pairs of expressions (bindings renamed, blocks, matches, loops, calls, operators), all stores, traces and meanings of the called functions and operators", "why_tests_cant": "Equality is a relation on all pairs of syntax trees with a growing renaming of locals; tests compare a few blocks that were written to be duplicates.", "anchors": ["clippy_utils/src/hir_utils.rs:120-166", "clippy_utils/src/hir_utils.rs:386-812", "clippy_utils/src/hir_utils.rs:995-1090"]}
{"id": "C73", "title": "Expressions with equal values have no side effects", "statement": "If `eq_expr_value` holds of two expressions whose operators are primitive, then evaluating either calls nothing and changes no local but those it binds itself.", "quantifier": "all pairs of expressions, all stores, traces and meanings of functions", "why_tests_cant": "Lints such as `eq_op` rely on it for every expression; tests only show that one call or assignment is not reported.", "anchors": ["clippy_utils/src/hir_utils.rs:57-66", "clippy_utils/src/hir_utils.rs:491-713", "clippy_utils/src/hir_utils.rs:1109-1111"]}
{"id": "C74", "title": "Equal expressions hash alike and all duplicates are found", "statement": "Expressions equal for `SpanlessEq` have equal `SpanlessHash`; `search_same` returns disjoint groups of at least two equal expressions in source order, ordered by their first members, and if equality is an equivalence that respects the hash, any two equal expressions are in one group.", "quantifier": "all pairs of expressions; all lists, hash functions and equality relations", "why_tests_cant": "Tests check a few lists; whether a duplicate is lost depends on every pair and on hash collisions.", "anchors": ["clippy_utils/src/hir_utils.rs:1150-1656", "clippy_utils/src/lib.rs:2190-2223"]}
{"id": "C75", "title": "A condition reported by ifs_same_cond can never hold", "statement": "If `ifs_same_cond` reports condition j of an if-else chain together with an earlier condition i, then whenever condition i was found false and the conditions in between are free of effects and found false, condition j is not found true.", "quantifier": "all chains of conditions, stores, traces and meanings of functions", "why_tests_cant": "Tests show that syntactically repeated conditions are reported, not that the reported branch is dead in every state.", "anchors": ["clippy_lints/src/ifs/ifs_same_cond.rs:11-48", "clippy_utils/src/lib.rs:2190-2223"]}
{"id": "C76", "title": "Patterns said not to overlap match no common value", "statement": "When match_same_arms decides that the patterns of two arms have no overlapping values, there is no value that both patterns match; so the arms may be exchanged without changing which one is taken.", "quantifier": "for all patterns (bindings, or-patterns, structs, tuple structs, tuples with `..`, slices with a rest, literals, ranges, constants) and all values of the matched type", "why_tests_cant": "Pairs of nested patterns and the values that both match are unbounded; a test fixes one pair.", "anchors": ["clippy_lints/src/matches/match_same_arms.rs:184-436"]}
{"id": "C77", "title": "Merging match arms as match_same_arms suggests keeps the meaning of the match", "statement": "After the suggestion of match_same_arms (one arm takes the pattern `p | q`, or the arms are left to the wildcard arm) the match takes an arm with the same body, evaluates the same guards in the same order and state, and fails in the same cases as before.", "quantifier": "for all lists of arms, guards with side effects, bodies, matched values and states", "why_tests_cant": "Depends on all arms between the merged ones and on all values; tests run the fix on a handful of matches and compare text.", "anchors": ["clippy_lints/src/matches/match_same_arms.rs:21-174"]}
{"id": "C78", "title": "Tabs in doc comments are found as maximal runs and replaced exactly", "statement": "Applying the suggestions of tabs_in_doc_comments replaces each tab of the comment by four spaces and changes no other byte; the reported ranges are exactly the maximal runs of tabs.", "quantifier": "for all comments and all surrounding text", "why_tests_cant": "Offsets accumulate over any number of runs and multi-byte characters; tests fix a dozen short strings.", "anchors": ["clippy_lints/src/tabs_in_doc_comments.rs:63-120"]}
{"id": "C79", "title": "The line count of too_many_lines is the number of lines with code", "statement": "The number compared with the threshold is the number of lines of the body with a visible character outside of comments.", "quantifier": "for all bodies without string literals and nested comments (false otherwise)", "why_tests_cant": "Line and block comments combine in unboundedly many ways on and across lines.", "anchors": ["clippy_lints/src/functions/too_many_lines.rs:27-68"]}
{"id": "C80", "title": "The difference of two lintcheck runs is exact", "statement": "For each lint and place the warnings of both runs are paired in order; unpaired ones are added or removed and pairs with different text are changed; each lint with a difference has one row; nothing is reported exactly if both runs agree; truncated lists show at least five entries and count the rest rightly.", "quantifier": "for all pairs of runs", "why_tests_cant": "Depends on the interleaving of two sorted lists of any length with duplicates; lintcheck has no such tests.", "anchors": ["lintcheck/src/json.rs:30-34", "lintcheck/src/json.rs:90-178", "lintcheck/src/json.rs:265-278"]}
{"id": "C81", "title": "Lint groups that are not reported leave no level open", "statement": "If lint_groups_priority reports nothing for a table, the level of every lint does not depend on the order in which Cargo passes entries of equal priority; and a suggested priority puts the group below every lint of the table.", "quantifier": "for all tables, group memberships, lints and orders", "why_tests_cant": "Quantifies over all orders Cargo may choose and all priorities.", "anchors": ["clippy_lints/src/cargo/lint_groups_priority.rs:21-119"]}
{"id": "C82", "title": "Reported crate versions are normal dependencies that come more than once", "statement": "is_normal_dep terminates and decides reachability by normal dependencies; a package name is reported with exactly its versions, in order, if and only if it is not allowed, occurs at least twice and every occurrence is a normal dependency of the local package.", "quantifier": "for all acyclic dependency graphs, package lists and configurations", "why_tests_cant": "Graphs and package lists are unbounded; each test needs a whole workspace.", "anchors": ["clippy_lints/src/cargo/multiple_crate_versions.rs:11-75"]}
{"id": "C83", "title": "Simplified cfg conditions hold in the same configurations", "statement": "Each suggestion of non_minimal_cfg keeps the value of the condition, and a condition without report has no needless all or any outside of not.", "quantifier": "for all conditions and configurations", "why_tests_cant": "Nesting is unbounded and all configurations matter.", "anchors": ["clippy_lints/src/attrs/non_minimal_cfg.rs:9-56"]}
{"id": "C84", "title": "Functions taken for the identity are the identity", "statement": "A function or closure that clippy takes for the identity returns its argument and has no other effect; hence `x.map(f)`, `x.map_err(f)`, `x.map_or(d, f)` and `x.map_or_else(g, f)` with such an f behave like the suggested `x`, `x.unwrap_or(d)` and `x.unwrap_or_else(g)`.", "quantifier": "for all closures, receivers, defaults, states and behaviours of called functions", "why_tests_cant": "Patterns and bodies nest without bound; equality of behaviour ranges over all states and callees.", "anchors": ["clippy_utils/src/lib.rs:1806-1992", "clippy_lints/src/methods/map_identity.rs:15-83", "clippy_lints/src/methods/map_or_identity.rs:14-36", "clippy_lints/src/methods/unnecessary_map_or_else.rs:14-39"]}
{"id": "C85", "title": "bind_instead_of_map keeps behaviour", "statement": "Replacing `x.and_then(|p| … Some(y) …)` by `x.map(|p| … y …)` (and the Result and or_else forms), as suggested, keeps the value and the effects.", "quantifier": "for all receivers, closures, states and behaviours of called functions", "why_tests_cant": "Bodies nest without bound, and the results to be replaced may be anywhere in them.", "anchors": ["clippy_utils/src/visitors.rs:207-288", "clippy_lints/src/methods/bind_instead_of_map.rs:14-194"]}
{"id": "C86", "title": "unnecessary_filter_map tells what the closure does", "statement": "When the lint says `.filter_map` or `.find_map` could be `.map` or is unnecessary, the closure returns Some for every element; when it says `.filter`, the closure returns None or Some of its argument.", "quantifier": "for all closures, arguments and states", "why_tests_cant": "All bodies and all arguments matter.", "anchors": ["clippy_lints/src/methods/unnecessary_filter_map.rs:16-155"]}
{"id": "C87", "title": "Suggested combinators keep behaviour", "statement": "The suggestions of map_unwrap_or, map_unwrap_or_else, option_map_or_none, result_map_or_else_none, unnecessary_map_or, manual_is_variant_and, manual_ok_or, manual_option_zip and or_then_unwrap have the value and effects of the code they replace.", "quantifier": "for all receivers, arguments, closures, states and behaviours of called functions", "why_tests_cant": "Order and number of effects cannot be covered by examples.", "anchors": ["clippy_lints/src/methods/map_unwrap_or.rs:21-143", "clippy_lints/src/methods/map_unwrap_or_else.rs:16-68", "clippy_lints/src/methods/option_map_or_none.rs:15-105", "clippy_lints/src/methods/result_map_or_else_none.rs:14-42", "clippy_lints/src/methods/unnecessary_map_or.rs:41-263", "clippy_lints/src/methods/manual_is_variant_and.rs:48-372", "clippy_lints/src/methods/manual_ok_or.rs:12-70", "clippy_lints/src/methods/manual_option_zip.rs:16-85", "clippy_lints/src/methods/or_then_unwrap.rs:12-62"]}
{"id": "C88", "title": "Code moved out of closures keeps behaviour", "statement": "The suggestions of unnecessary_lazy_evaluations, unnecessary_literal_unwrap, obfuscated_if_else and return_and_then have the value and effects of the code they replace; what switch_to_eager_eval accepts has no effect and does not depend on variables it does not use.", "quantifier": "for all expressions, states and behaviours of called functions", "why_tests_cant": "A closure is a boundary for return; all bodies and all states matter.", "anchors": ["clippy_utils/src/eager_or_lazy.rs:115-323", "clippy_lints/src/methods/unnecessary_lazy_eval.rs:15-107", "clippy_lints/src/methods/unnecessary_literal_unwrap.rs:27-143", "clippy_lints/src/methods/obfuscated_if_else.rs:13-84", "clippy_lints/src/methods/return_and_then.rs:18-97"]}
{"id": "C89", "title": "A match written as Option::map behaves the same", "statement": "When manual_map replaces a match or if-let by a call of map, the new expression gives the same value and performs the same effects in the same order; what it moves into the closure contains nothing that leaves the closure.", "quantifier": "for all expressions, patterns, states and behaviours of called functions", "why_tests_cant": "Arms in both orders, nested patterns, blocks, loops with labels and by-reference bindings combine without bound.", "anchors": ["clippy_lints/src/matches/manual_map.rs:11-115", "clippy_lints/src/matches/manual_utils.rs:22-268", "clippy_utils/src/lib.rs:753-776", "clippy_utils/src/lib.rs:922-1004"]}
{"id": "C90", "title": "A match written as Option::filter behaves the same", "statement": "When manual_filter replaces a match, if-let or and_then by a call of filter, the new expression gives the same value and performs the same effects.", "quantifier": "for all expressions, conditions, states and behaviours of called functions", "why_tests_cant": "The condition is any expression, and may be negated, a call, in blocks; the suggestion depends on each.", "anchors": ["clippy_lints/src/matches/manual_filter.rs:20-229", "clippy_lints/src/matches/manual_utils.rs:22-268"]}
{"id": "C91", "title": "A match written as unwrap_or, ok or err behaves the same", "statement": "When manual_unwrap_or, manual_unwrap_or_default or manual_ok_err replaces a match or if-let by a method call, the new expression gives the same value and performs the same effects.", "quantifier": "for all expressions, states and behaviours of called functions", "why_tests_cant": "All orders of arms, wildcard and variant patterns, constants and default values.", "anchors": ["clippy_lints/src/matches/manual_unwrap_or.rs:20-246", "clippy_lints/src/matches/manual_ok_err.rs:20-168", "clippy_utils/src/lib.rs:666-696"]}
{"id": "C92", "title": "if-let and if written as map_or, map_or_else and then behave the same", "statement": "When option_if_let_else or if_then_some_else_none replaces a conditional by a method call, the new expression gives the same value and performs the same effects, whether evaluated eagerly or lazily.", "quantifier": "for all expressions, states and behaviours of called functions", "why_tests_cant": "Eager or lazy evaluation is chosen by the form of the whole expression; order of effects and control flow out of the branches matter.", "anchors": ["clippy_lints/src/option_if_let_else.rs:118-416", "clippy_lints/src/if_then_some_else_none.rs:64-140", "clippy_utils/src/eager_or_lazy.rs:115-323"]}
{"id": "C93", "title": "Removing a final return, or a let in front of a result, keeps what a function returns", "statement": "Each suggestion of needless_return (remove `return`, `return;` or replace it by `()` in an arm) and of let_and_return gives a function or closure body that returns the same value and has the same effects in the same order.", "quantifier": "for all bodies, nestings of blocks, ifs and matches, arguments, states and behaviours of called functions", "why_tests_cant": "The position of the return is found by descending through arbitrarily nested blocks, branches and arms, and the semicolons on the way are removed.", "anchors": ["clippy_lints/src/returns/needless_return.rs:57-217", "clippy_lints/src/returns/let_and_return.rs:16-65"]}
{"id": "C94", "title": "`?` in place of let-else, and `Err(e)?` in place of `return Err(e)?`", "statement": "When question_mark replaces `let Some(p) = e else { return None };` by `let p = e?;` and when needless_return_with_question_mark drops a `return`, the block around behaves the same.", "quantifier": "for all initializers, irrefutable patterns, surrounding blocks, states and behaviours of called functions", "why_tests_cant": "By-reference bindings with subpatterns are rewritten with as_ref, and the statement may stand anywhere in a block.", "anchors": ["clippy_lints/src/question_mark.rs:101-203", "clippy_utils/src/lib.rs:2921-2940", "clippy_lints/src/returns/needless_return_with_question_mark.rs:12-45"]}
{"id": "C95", "title": "`?` in place of an if, if-let or match that returns early", "statement": "When question_mark replaces `if x.is_none() { return None; }`, `if let Some(x) = o { .. } else { return None }`, `if let Err(e) = r { return Err(e); }` or the corresponding match by `?`, the code gives the same value, returns the same value early, and has the same effects.", "quantifier": "for all scrutinees, bodies, orders of arms, states and behaviours of called functions including the conversion of errors", "why_tests_cant": "The early return is found through nested blocks and statements, in either arm, with or without conversion and by-reference bindings.", "anchors": ["clippy_lints/src/question_mark.rs:205-326", "clippy_lints/src/question_mark.rs:346-590"]}
{"id": "C96", "title": "A match on a bool as `if`, and a match of bools as matches!", "statement": "When match_bool replaces a two-armed match on a bool by an `if`, or match_like_matches_macro replaces a match or if-let whose arms are true and false by `matches!` or its negation, the expression gives the same value, leaves in the same way and has the same effects in the same order.", "quantifier": "for all scrutinees, patterns, guards, numbers of arms, arm bodies, states and behaviours of called functions", "why_tests_cant": "Which arm is `true`, where guards stand, empty arms and the polarity of the literal combine freely; a wrong negation shows only for the right value of the scrutinee and the guard.", "anchors": ["clippy_lints/src/matches/match_bool.rs:13-84", "clippy_lints/src/matches/match_like_matches.rs:17-199"]}
{"id": "C97", "title": "A pattern that only tells the variant as is_some, is_ok, ..", "statement": "When redundant_pattern_matching replaces an if-let, a match or a `matches!` that only tells the variant (or a bool) by a method call, optionally with the guard after `&&`, the expression gives the same value and has the same effects.", "quantifier": "for all scrutinees of type Option, Result or bool, variants, guards, branches, states and behaviours of called functions", "why_tests_cant": "Four variants, two orders of arms, wildcard or explicit second arm, and guards on either arm; the dropped guard shows only where it is false.", "anchors": ["clippy_lints/src/matches/redundant_pattern_match.rs:32-105", "clippy_lints/src/matches/redundant_pattern_match.rs:118-326", "clippy_lints/src/matches/redundant_pattern_match.rs:340-557"]}
{"id": "C98", "title": "A match that gives back its scrutinee", "statement": "When needless_match replaces a match or a chain of if-lets by its scrutinee, the scrutinee alone gives the same value with the same effects.", "quantifier": "for all scrutinees, lists of arms, nested patterns, guards without effects, chains of any length and states", "why_tests_cant": "Pattern and body are compared structurally at any depth, and the arms that are missing (the last `else`) stand for all other values.", "anchors": ["clippy_lints/src/matches/needless_match.rs:17-120", "clippy_lints/src/matches/needless_match.rs:157-220"]}
{"id": "C99", "title": "A match with a single pattern as if-let or `==`", "statement": "When single_match or single_match_else replaces a two-armed match by `if let`, by `if e == K`, or by the arm alone if the scrutinee is the constant itself, the expression gives the same value and has the same effects.", "quantifier": "for all scrutinees, patterns, bodies, states and behaviours of called functions", "why_tests_cant": "Three rewrites are chosen by the shape of pattern, else body and scrutinee; the equality form relies on PartialEq being derived.", "anchors": ["clippy_lints/src/matches/single_match.rs:28-81", "clippy_lints/src/matches/single_match.rs:83-189"]}
{"id": "C100", "title": "Nested branching collapsed into the outer pattern or a guard", "statement": "When collapsible_match moves an `if` that fills an arm into the guard of the arm, or says that the pattern of an inner if-let or match can replace a variable of the outer pattern, doing so gives the same value and the same effects.", "quantifier": "for all matches, positions of the arm, guards, conditions, nested patterns, states and behaviours of called functions", "why_tests_cant": "The value that fails the new guard falls through to later arms; whether they do what the old `else` did depends on all the arms after it, and on names that are bound in between.", "anchors": ["clippy_lints/src/matches/collapsible_match.rs:23-55", "clippy_lints/src/matches/collapsible_match.rs:57-212"]}
{"id": "C101", "title": "A guard on a bound variable as part of the pattern", "statement": "When redundant_guards moves a guard `matches!(x, p if g)`, `if let p = x` or `x == k` into the pattern in place of x, the match gives the same value and has the same effects.", "quantifier": "for all matches, arms, patterns p, constants k, inner guards, bodies, states and behaviours of called functions", "why_tests_cant": "The variable may stand anywhere in the pattern, by value or by reference; the new pattern binds other names in another order.", "anchors": ["clippy_lints/src/matches/redundant_guards.rs:20-102", "clippy_lints/src/matches/redundant_guards.rs:163-274"]}
{"id": "C102", "title": "Rewriting an adaptor inside an iterator chain", "statement": "Applying map_identity, flat_map_identity, filter_map_identity, map_flatten, flat_map_option, iter_overeager_cloned or unused_enumerate_index to adaptors anywhere in an iterator chain changes no result and no effect, nor their order, whatever consumes the chain: any consuming method or a `for` loop.", "quantifier": "for all chains of adaptors, closures (which may have effects, panic, or assign variables), sources, states and behaviours of called functions, at any depth in the chain, for every consumer", "why_tests_cant": "The iterator is lazy: items are produced one at a time from either end, interleaved with the effects of every closure above and below. Tests fix one chain and one consumer.", "anchors": ["clippy_lints/src/methods/map_identity.rs:15-83", "clippy_lints/src/methods/flat_map_identity.rs:12-30", "clippy_lints/src/methods/filter_map_identity.rs:11-49", "clippy_lints/src/methods/map_flatten.rs:14-80", "clippy_lints/src/methods/flat_map_option.rs:11-33", "clippy_lints/src/methods/iter_overeager_cloned.rs:37-144", "clippy_lints/src/loops/unused_enumerate_index.rs:68-98"]}
{"id": "C103", "title": "Rewriting the method that consumes an iterator", "statement": "filter_next, filter_map_next, iter_nth_zero, iter_skip_next, manual_next_back, unused_enumerate_index, iter_overeager_cloned, map_all_any_identity and double_ended_iterator_last suggest a consumer that gives the same value with the same effects.", "quantifier": "for all chains of adaptors, closures (which may have effects, panic, or assign variables), sources, states and behaviours of called functions", "why_tests_cant": "Whether an item is asked for at all, and which effects happen before the answer, depends on the iterator and the closures.", "anchors": ["clippy_lints/src/methods/filter_next.rs:22-72", "clippy_lints/src/methods/filter_map_next.rs:11-34", "clippy_lints/src/methods/iter_nth_zero.rs:13-32", "clippy_lints/src/methods/iter_skip_next.rs:13-45", "clippy_lints/src/methods/manual_next_back.rs:8-37", "clippy_lints/src/methods/map_all_any_identity.rs:13-43", "clippy_lints/src/methods/double_ended_iterator_last.rs:13-80", "clippy_lints/src/methods/iter_overeager_cloned.rs:37-144"]}
{"id": "C104", "title": "find(..).is_some() as any(..)", "statement": "search_is_some's suggestion `any(..)` (or its negation) for `find(..).is_some()`, `position(..).is_none()` and the like gives the same value with the same effects.", "quantifier": "for all chains of adaptors, closures (which may have effects, panic, or assign variables), sources, states and behaviours of called functions", "why_tests_cant": "find passes references to the closure, any passes values; the parameter pattern is rewritten.", "anchors": ["clippy_lints/src/methods/search_is_some.rs:19-99"]}
{"id": "C105", "title": "fold as any, all, sum or product", "statement": "unnecessary_fold's suggestion gives the same value with the same effects as the fold it replaces.", "quantifier": "for all chains of adaptors, closures (which may have effects, panic, or assign variables), sources, states and behaviours of called functions, and for all fold bodies", "why_tests_cant": "any and all stop early, fold never does; the closure may use the accumulator elsewhere.", "anchors": ["clippy_lints/src/methods/unnecessary_fold.rs:96-290"]}
{"id": "C106", "title": "filter and map as filter_map, and back", "statement": "manual_filter_map, manual_find_map, option_filter_map, result_filter_map and filter_map_bool_then replace `filter(..).map(..)`, `find(..).map(..)` or `filter_map(..)` by code that gives the same items with the same effects in the same order.", "quantifier": "for all chains of adaptors, closures (which may have effects, panic, or assign variables), sources, states and behaviours of called functions, and for all patterns and methods recognised", "why_tests_cant": "The filter and the map are two closures with their own variables, by reference and by value; the suggestion fuses them.", "anchors": ["clippy_lints/src/methods/filter_map.rs:19-434", "clippy_lints/src/methods/filter_map_bool_then.rs:16-117"]}
{"id": "C107", "title": "for loops over iterators", "statement": "unused_enumerate_index, manual_flatten and manual_find replace a `for` loop by a loop or an expression with the same result and the same effects, including leaving the loop early.", "quantifier": "for all loops, patterns, bodies, iterators, states and behaviours of called functions", "why_tests_cant": "The body may break, return, panic or assign variables at any item.", "anchors": ["clippy_lints/src/loops/unused_enumerate_index.rs:15-66", "clippy_lints/src/loops/manual_flatten.rs:16-87", "clippy_lints/src/loops/manual_find.rs:18-105"]}
{"id": "C108", "title": "Asking the iterator instead of a collected vector", "statement": "needless_collect's suggestions for `collect::<Vec<_>>()` followed by len, is_empty, contains or an index give the same value with the same effects.", "quantifier": "for all chains of adaptors, closures (which may have effects, panic, or assign variables), sources, states and behaviours of called functions", "why_tests_cant": "Collecting runs the whole iterator, its replacement only part of it; the variable of the suggested closure may capture one of the argument.", "anchors": ["clippy_lints/src/methods/needless_collect.rs:27-106"]}
{"id": "C109", "title": "Splitting a string in two", "statement": "When needless_splitn replaces splitn/rsplitn by split/rsplit, or manual_split_once replaces splitn(2, p) (used at once by nth, next, next_tuple, or through two `let`s from its iterator) by split_once or rsplit_once, the program gives the same result, the same panics and early returns, and the same effects in the same order.", "quantifier": "for all strings (including empty ones and ones without the separator), patterns (characters, arrays, strings), counts, continuations, states and behaviours of called functions", "why_tests_cant": "Which part is which depends on the direction and the number of matches; overlapping and empty patterns, and the parts after the second, show a mistake only on particular strings.", "anchors": ["clippy_lints/src/methods/str_splitn.rs:19-371"]}
{"id": "C110", "title": "Stripping a prefix or suffix after testing for it", "statement": "When manual_strip replaces `if s.starts_with(p) { … s[p.len()..] … }` (or ends_with and the other slice) by `if let Some(rest) = s.strip_prefix(p)`, the program does the same.", "quantifier": "for all strings, patterns, blocks with any number of such slices under any binders, states and behaviours of called functions", "why_tests_cant": "The slices may stand anywhere in the block, under variables of the same name, after assignments, in the `let` whose name is reused; lengths are in bytes and patterns in characters.", "anchors": ["clippy_lints/src/manual_strip.rs:71-289"]}
{"id": "C111", "title": "Lines and words of a string", "statement": "When str_split_at_newline replaces `s.trim().split(newline)` by `s.lines()`, or trim_split_whitespace drops a trim before split_whitespace, the same parts come out.", "quantifier": "for all strings, states and expressions giving the string", "why_tests_cant": "It depends on white space at the ends, on empty lines and on the kind of line end.", "anchors": ["clippy_lints/src/methods/str_split.rs:16-48", "clippy_lints/src/strings.rs:446-469"]}
{"id": "C112", "title": "Consecutive replacements of characters", "statement": "When collapsible_str_replace joins consecutive calls of replace with the same replacement into one with an array of characters, the resulting string and effects are the same.", "quantifier": "for all strings, chains of any length, characters, replacements and states", "why_tests_cant": "A replacement may contain a character replaced later, and other calls may stand between; both need particular texts.", "anchors": ["clippy_lints/src/methods/collapsible_str_replace.rs:13-96"]}
{"id": "C113", "title": "Patterns of string methods", "statement": "When single_char_pattern replaces a one-character string by a character, manual_pattern_char_comparison replaces a closure of comparisons by a character or an array, or search_is_some replaces find(p).is_some() by contains(p), every method taking a pattern gives the same result.", "quantifier": "for all 22 methods, strings, patterns, closures, other arguments, states and behaviours of called functions", "why_tests_cant": "It concerns every method in both directions on every string; the operands of the closure are evaluated elsewhere after the change.", "anchors": ["clippy_lints/src/string_patterns.rs:90-246", "clippy_lints/src/methods/search_is_some.rs:101-148", "clippy_utils/src/source.rs:782-822"]}
{"id": "C114", "title": "Comparing the first or last character", "statement": "When chars_next_cmp or chars_last_cmp replaces a comparison of s.chars().next(), last() or next_back() with a character by starts_with or ends_with, the value, panics and effects are the same.", "quantifier": "for all strings, compared expressions, sides of the comparison, states and behaviours of called functions", "why_tests_cant": "Empty strings, the side on which the chain stands and effects of the compared expression matter together.", "anchors": ["clippy_lints/src/methods/chars_cmp.rs:13-50", "clippy_lints/src/methods/chars_cmp_with_unwrap.rs:13-42", "clippy_lints/src/methods/mod.rs:6078-6096"]}
{"id": "C115", "title": "ASCII classes and comparisons that ignore case", "statement": "When manual_is_ascii_check replaces matches! or a range test by an is_ascii method, or manual_ignore_case_cmp replaces a comparison after to_ascii_lowercase/uppercase by eq_ignore_ascii_case, the value and effects are the same.", "quantifier": "for all characters, bytes, strings, slices, literals, orders of alternatives, states and behaviours of called functions", "why_tests_cant": "It is a claim about every code point and every string, in each order of the alternatives.", "anchors": ["clippy_lints/src/manual_is_ascii_check.rs:73-240", "clippy_lints/src/manual_ignore_case_cmp.rs:45-126"]}
{"id": "C116", "title": "Bytes of strings and ends of slices", "statement": "bytes_nth, bytes_count_to_len, needless_as_bytes, sliced_string_as_bytes, get_first and get_last_with_len suggest code that gives the same value, panics and effects.", "quantifier": "for all strings (of any characters, in UTF-8), slices, bounds, states and behaviours of called functions", "why_tests_cant": "Bytes and characters differ only outside ASCII, and panics only at particular bounds.", "anchors": ["clippy_lints/src/methods/bytes_nth.rs:14-52", "clippy_lints/src/methods/bytes_count_to_len.rs:11-37", "clippy_lints/src/methods/needless_as_bytes.rs:12-27", "clippy_lints/src/methods/sliced_string_as_bytes.rs:12-36", "clippy_lints/src/methods/get_first.rs:14-54", "clippy_lints/src/methods/get_last_with_len.rs:12-52"]}
{"id": "C117", "title": "Repeating strings; suggestions about strings anywhere in a program", "statement": "repeat_once and manual_str_repeat suggest code with the same value and effects; and every suggestion about strings that is right without conditions stays right wherever in a program it is made, together with any others.", "quantifier": "for all strings, characters, counts, programs and places in them, states and behaviours of called functions", "why_tests_cant": "The contexts and combinations of suggestions are unbounded.", "anchors": ["clippy_lints/src/methods/repeat_once.rs:12-52", "clippy_lints/src/methods/manual_str_repeat.rs:16-98"]}
{"id": "C118", "title": "Rewriting conditions", "statement": "When collapsible_if, collapsible_else_if, needless_else, needless_if, nonminimal `if !..else` (if_not_else) or blocks_in_conditions rewrites an `if`, the program ends the same way (value, break, continue, return or panic), makes the same calls in the same order, and leaves the same values in all variables.", "quantifier": "for all programs of the language (nested blocks, patterns, loops with labels, break, continue, return, calls), all states of the variables, all numbers of loop iterations, and all behaviours of the called functions (including panics)", "why_tests_cant": "The conditions and the branches can be any code: a let in a chain, a break inside a condition, a name that the rewriting brings into scope. Tests have a few fixed shapes.", "anchors": ["clippy_lints/src/collapsible_if.rs:97-306", "clippy_lints/src/needless_else.rs:39-60", "clippy_lints/src/needless_ifs.rs:40-83", "clippy_lints/src/if_not_else.rs:52-136", "clippy_lints/src/blocks_in_conditions.rs:55-152"]}
{"id": "C119", "title": "Redundant else", "statement": "When redundant_else drops an `else` after branches that do not go on, and lets its block follow the `if`, the program does the same.", "quantifier": "for all programs of the language (nested blocks, patterns, loops with labels, break, continue, return, calls), all states of the variables, all numbers of loop iterations, and all behaviours of the called functions (including panics), and for any judgement of which expressions have type `!` that is right about them", "why_tests_cant": "Whether a branch goes on is decided by a visitor over nested matches, blocks and ifs; a branch that can go on in one case makes the else-block run twice.", "anchors": ["clippy_lints/src/redundant_else.rs:46-158"]}
{"id": "C120", "title": "Declarations and late initialisation", "statement": "When needless_late_init turns `let x;` and later assignments into `let x = ..`, let_if_seq a `let` followed by a conditional assignment into `let x = if ..`, manual_let_else an `if let`/`match` into `let .. else`, or redundant_locals drops `let x = x;`, the program does the same.", "quantifier": "for all programs of the language (nested blocks, patterns, loops with labels, break, continue, return, calls), all states of the variables, all numbers of loop iterations, and all behaviours of the called functions (including panics)", "why_tests_cant": "The assignment is moved to the end of every branch through nested blocks; a branch that leaves the loop, a shadowed name or a second match arm make the difference.", "anchors": ["clippy_lints/src/needless_late_init.rs:91-442", "clippy_lints/src/let_if_seq.rs:75-171", "clippy_lints/src/manual_let_else.rs:62-451", "clippy_lints/src/redundant_locals.rs:50-128"]}
{"id": "C121", "title": "Assignments and swaps", "statement": "When assign_op_pattern writes `x = x o a` as `x o= a`, misrefactored_assign_op writes out `x o= x o a`, or manual_swap and the xor swap are replaced by swap, the program does the same; where almost_swapped warns, the second assignment has no effect.", "quantifier": "for all programs of the language (nested blocks, patterns, loops with labels, break, continue, return, calls), all states of the variables, all numbers of loop iterations, and all behaviours of the called functions (including panics), and all integers", "why_tests_cant": "Operators that do not commute, operands that panic or change the variable, equal indices and indices that read the vector itself are single points in a large space.", "anchors": ["clippy_lints/src/operators/assign_op_pattern.rs:20-124", "clippy_lints/src/operators/misrefactored_assign_op.rs:11-71", "clippy_lints/src/swap.rs:88-321"]}
{"id": "C122", "title": "Loops made simpler", "statement": "When single_element_loop replaces a `for` over one element by a block, manual_while_let_some or while_let_loop replaces a loop by `while let`, the program does the same for every number of iterations.", "quantifier": "for all programs of the language (nested blocks, patterns, loops with labels, break, continue, return, calls), all states of the variables, all numbers of loop iterations, and all behaviours of the called functions (including panics)", "why_tests_cant": "Loops may run any number of times, leave through labels, or change what the condition reads; the effect of a wrong scope shows only in a later iteration.", "anchors": ["clippy_lints/src/loops/single_element_loop.rs:14-148", "clippy_lints/src/loops/manual_while_let_some.rs:61-105", "clippy_lints/src/loops/while_let_loop.rs:17-148"]}
{"id": "C123", "title": "Needless continue", "statement": "When needless_continue drops a `continue` at the end of a loop body, or merges what follows an `if` with `continue` into a branch, the loop does the same.", "quantifier": "for all programs of the language (nested blocks, patterns, loops with labels, break, continue, return, calls), all states of the variables, all numbers of loop iterations, and all behaviours of the called functions (including panics)", "why_tests_cant": "The last statement is searched through nested ifs, matches and labelled blocks; only a continue for this loop may go.", "anchors": ["clippy_lints/src/needless_continue.rs:196-549"]}
{"id": "C124", "title": "Suggestions applied throughout a program", "statement": "Suggestions of these lints that keep the meaning of the code they replace keep the meaning of every program, wherever in it and however many of them are applied.", "quantifier": "for all programs of the language (nested blocks, patterns, loops with labels, break, continue, return, calls), all states of the variables, all numbers of loop iterations, and all behaviours of the called functions (including panics), and all sets of places", "why_tests_cant": "cargo clippy --fix applies suggestions in arbitrary contexts; tests look at one place at a time.", "anchors": ["clippy_lints/src/collapsible_if.rs:168-217", "clippy_lints/src/redundant_else.rs:46-113", "clippy_lints/src/needless_continue.rs:420-464", "clippy_lints/src/operators/assign_op_pattern.rs:20-124"]}
{"id": "C125", "title": "Counters of for loops", "statement": "When explicit_counter_loop replaces a counter incremented once in the body of a `for` loop by `(start..).zip(..)`, the counter has the same value at every use in every iteration and the program ends the same way, with the same calls made.", "quantifier": "for all programs of the language (nested blocks, patterns, loops with labels, break, continue, return, calls), all states of the variables, all numbers of loop iterations, and all behaviours of the called functions (including panics), and all vectors iterated over", "why_tests_cant": "The visitor must see that the increment is run exactly once in every iteration that goes on, past continue, branches, nested loops, labelled blocks and shadowed names, and that nothing looks at the counter after it; a single missed path shifts the counter only in later iterations.", "anchors": ["clippy_lints/src/loops/explicit_counter_loop.rs:18-125", "clippy_lints/src/loops/utils.rs:14-256"]}
{"id": "C126", "title": "Calls of unwrap after a check", "statement": "A call of unwrap, expect or unwrap_err that panicking_unwrap reports panics every time it is reached; one that unnecessary_unwrap reports never panics. A call on the place checked, in a branch that leaves it alone, is reported.", "quantifier": "all function bodies, all executions of any length, all behaviours of unknown functions and of code holding mutable references", "why_tests_cant": "The verdict depends on every path from the check to the call: negated and combined conditions, nested branches and loops, assignments to the place or to what contains it, references that stay alive, as_mut being exempted. Tests cover a few shapes; a missed mutation is only seen when the value changes at run time.", "anchors": ["clippy_lints/src/unwrap.rs:84-543", "clippy_utils/src/usage.rs:35-44"]}
{"id": "C127", "title": "Loops replaced by copies between slices", "statement": "Where manual_memcpy replaces a loop by calls of copy_from_slice, a loop that finishes is replaced by copies that finish and leave every array as the loop does: starts, limits, offsets and counters of the loop become the bounds of the slices.", "quantifier": "all loops over a range of any bounds, all bodies, all arrays of any length, all values of variables", "why_tests_cant": "The bounds of the slices are put together from the range, an offset of either sign, a counter's first value and simplifications of zero and equal text; whether they are right depends on all of these at once and on the order in which the loop reads and writes. The tests compare suggestions as text and never run them.", "anchors": ["clippy_lints/src/loops/manual_memcpy.rs:20-515", "clippy_lints/src/loops/utils.rs:22-105"]}
{"id": "C128", "title": "Statements reported as having no effect", "statement": "A statement that no_effect reports, and the initialiser of an unused variable that no_effect_underscore_binding reports, calls no function, runs no destructor and does not panic, so that removing it cannot be observed.", "quantifier": "all statements, all values of variables, all behaviours of functions depending on everything that happened before", "why_tests_cant": "An expression has no effect only if every operator in it is built in, every value made or moved has no destructor and nothing panics; tests list statements one by one and look at the message, they do not run them with and without it.", "anchors": ["clippy_lints/src/no_effect.rs:88-271"]}
{"id": "C129", "title": "Statements reduced to their operands", "statement": "The statements that unnecessary_operation suggests in place of a statement call the same functions and run the same destructors in the same order and panic in the same cases; the assertion suggested for an index panics exactly when the index does.", "quantifier": "all statements, all values of variables, all behaviours of functions depending on everything that happened before", "why_tests_cant": "Dropping an operator is right only if it is built in and cannot panic, and if the operands may be dropped one by one; which operands are left depends on how operators are nested. The suggestion is applied by cargo fix, and the tests only compile the result.", "anchors": ["clippy_lints/src/no_effect.rs:273-402"]}
{"id": "C130", "title": "Code shared by the branches of an if", "statement": "Moving the statements that branches_sharing_code reports in front of and after a chain of `if` changes neither what is called, nor the result, nor the variables afterwards.", "quantifier": "all chains of if with a final else, all values of variables, all behaviours of functions depending on everything that was called before", "why_tests_cant": "Statements that look alike may use variables that only look alike, the conditions run before or after what is moved, and branches have different lengths. Tests compare the message for hand-written branches; they never run the moved code.", "anchors": ["clippy_lints/src/ifs/branches_sharing_code.rs:23-104", "clippy_lints/src/ifs/branches_sharing_code.rs:240-470"]}
{"id": "C131", "title": "The expression at the end of all arms of a match", "statement": "Moving the expression with which all arms of a match end after the match, as branches_sharing_code suggests, changes neither what is called, nor the result, nor the variables afterwards.", "quantifier": "all matches, all arms, all values of variables, all behaviours of functions depending on everything that was called before", "why_tests_cant": "The expression may mention names that are bound by the patterns or in the arms and look the same in each; no test has all ways to hide a name.", "anchors": ["clippy_lints/src/ifs/branches_sharing_code.rs:106-208"]}
{"id": "C132", "title": "Parameters only used in recursion", "statement": "Calls of a function that differ only in the arguments for parameters reported by only_used_in_recursion have the same result and call the same other functions in the same order.", "quantifier": "all recursive functions, all arguments, all numbers of steps, all behaviours of other functions depending on everything called before", "why_tests_cant": "Whether a parameter matters is about all pairs of runs of the function: values flow from one parameter to another over any number of recursive calls, in cycles too. A test can only look at which parameters are reported for a few functions.", "anchors": ["clippy_lints/src/only_used_in_recursion.rs:190-300", "clippy_lints/src/only_used_in_recursion.rs:366-436", "clippy_utils/src/lib.rs:1996-2011"]}
{"id": "C133", "title": "Loops over the indices of a sequence", "statement": "Where needless_range_loop reports a loop over a range, looping over the elements as suggested, with the element in place of the indexing, makes the same calls with the same arguments, leaves the same contents and variables, and panics in the same cases.", "quantifier": "all bodies, bounds, contents of sequences and states, all behaviours of called functions", "why_tests_cant": "Whether the adaptors suggested (skip, take, enumerate and their order) visit the elements the range indexes depends on the bounds and lengths of each run, and on the body leaving alone what selects the sequence; tests compare the text of suggestions.", "anchors": ["clippy_lints/src/loops/needless_range_loop.rs:25-196", "clippy_lints/src/loops/needless_range_loop.rs:198-229", "clippy_lints/src/loops/needless_range_loop.rs:259-365", "clippy_lints/src/loops/needless_range_loop.rs:368-463"]}
{"id": "C134", "title": "Assertions before indexing", "statement": "Where missing_asserts_for_indexing is silent about a slice, no bounds check of it with a literal index fails once the first one and the assertion before it have passed; where it asks for an assertion, the assertion fails only where the code panics anyway.", "quantifier": "all texts, all lengths of slices", "why_tests_cant": "The claim is about all lengths at run time and all sequences of indices and assertions; tests list a few functions and the message for each.", "anchors": ["clippy_lints/src/missing_asserts_for_indexing.rs:215-235", "clippy_lints/src/missing_asserts_for_indexing.rs:237-301", "clippy_lints/src/missing_asserts_for_indexing.rs:303-344", "clippy_lints/src/missing_asserts_for_indexing.rs:346-434"]}
{"id": "C135", "title": "Assertions replaced before indexing", "statement": "An assertion that missing_asserts_for_indexing replaces, with a suggestion to be applied automatically, is replaced by one with which the code panics in the same cases.", "quantifier": "all texts, all lengths of slices", "why_tests_cant": "That the replacement is neither weaker nor stronger than the assertion together with the indexing that follows is about all lengths.", "anchors": ["clippy_lints/src/missing_asserts_for_indexing.rs:346-410", "clippy_lints/src/missing_asserts_for_indexing.rs:98-126"]}
{"id": "C136", "title": "Conditions that do not change", "statement": "A loop whose condition while_immutable_condition reports behaves like `if cond { loop { .. } }`, and, if it has no break and no return, never runs or never ends.", "quantifier": "all conditions and bodies, all states, all behaviours of called functions, all numbers of steps", "why_tests_cant": "That a loop never ends cannot be tested, and that no iteration changes the condition is about all executions.", "anchors": ["clippy_lints/src/loops/while_immutable_condition.rs:12-56", "clippy_lints/src/loops/while_immutable_condition.rs:58-116", "clippy_utils/src/usage.rs:15-28"]}
{"id": "C137", "title": "Loops detected as infinite", "statement": "A loop that infinite_loop reports, asking for the function to return `!` or for a break, is never left: neither by break, nor by return, nor by continuing a loop around it.", "quantifier": "all bodies with nested loops, labelled blocks, breaks and continues, all outcomes of conditions, all numbers of steps", "why_tests_cant": "That a loop is never left is about all executions of any length; tests list a few bodies.", "anchors": ["clippy_lints/src/loops/infinite_loop.rs:14-65", "clippy_lints/src/loops/infinite_loop.rs:143-205"]}
{"id": "C138", "title": "Loops that push the same item", "statement": "Where same_item_push reports a loop, each time round appends the value that the item has before the loop, so the vector is as after resizing it as suggested.", "quantifier": "all bodies, all numbers of rounds, all states, all behaviours of called functions and methods", "why_tests_cant": "The equality is about any number of rounds of any body; tests list loops that are reported and loops that are not.", "anchors": ["clippy_lints/src/loops/same_item_push.rs:16-100", "clippy_lints/src/loops/same_item_push.rs:103-174"]}
{"id": "C139", "title": "while let loops over iterators", "statement": "Replacing a `while let Some(y) = p.next()` loop that while_let_on_iterator reports by the suggested for loop, over p or over p.by_ref(), keeps what the program does, and uses no place that is moved from or borrowed.", "quantifier": "all programs with nested loops, branches, closures, fields and indices, all states, all behaviours of called functions, all numbers of steps", "why_tests_cant": "Whether the iterator can be moved depends on all uses of it and of the fields around and within it, in the loop, after it and in later rounds of loops around it; tests apply the suggestion in a few functions.", "anchors": ["clippy_lints/src/loops/while_let_on_iterator.rs:19-68", "clippy_lints/src/loops/while_let_on_iterator.rs:80-127", "clippy_lints/src/loops/while_let_on_iterator.rs:129-201", "clippy_lints/src/loops/while_let_on_iterator.rs:203-279", "clippy_utils/src/lib.rs:1190-1210"]}
{"id": "C140", "title": "Iterators detected as infinite", "statement": "Where infinite_iter reports an infinite iteration, what consumes the iterator never ends.", "quantifier": "all chains of iterator adaptors, all closures, all numbers of steps", "why_tests_cant": "That consuming never ends cannot be observed by a test, and is about all closures passed to the adaptors.", "anchors": ["clippy_lints/src/infinite_iter.rs:69-101", "clippy_lints/src/infinite_iter.rs:106-184", "clippy_lints/src/infinite_iter.rs:186-262"]}
{"id": "C141", "title": "Checks for keys become entries", "statement": "Where map_entry suggests to use the entry of a map instead of a check for the key followed by insertions, the suggestion compiles, makes the same calls, observes the same results and leaves the same map.", "quantifier": "all arms (with branches, loops, closures and returns), keys, values, maps and states, whether keys are Copy or not", "why_tests_cant": "The suggestion must be right for all programs around the insertions: how often they run, what uses the map or the key before and after, and what can be moved into a closure.", "anchors": ["clippy_lints/src/entry.rs:66-212", "clippy_lints/src/entry.rs:361-597", "clippy_lints/src/entry.rs:626-720", "clippy_lints/src/entry.rs:722-763"]}
{"id": "C142", "title": "Collections that are never read", "statement": "Whatever a collection holds that collection_is_never_read reports, the calls a program makes, whether it panics and its other variables are the same.", "quantifier": "all programs with branches, loops, methods and closures, all contents of the collection, all behaviours of the functions and methods", "why_tests_cant": "It is about two runs of the program, for all contents and all methods; a test sees one run.", "anchors": ["clippy_lints/src/collection_is_never_read.rs:48-58", "clippy_lints/src/collection_is_never_read.rs:78-158"]}
{"id": "C143", "title": "The order of evaluation of operands", "statement": "An expression in which mixed_read_write_in_expression reports nothing has the same value and leaves the same variables, in whatever order operands are evaluated.", "quantifier": "all expressions with assignments, branches and loops, all orders of evaluation at each step, all variables", "why_tests_cant": "It quantifies over all orders in which the operands could be evaluated; the compiler picks one.", "anchors": ["clippy_lints/src/mixed_read_write_in_expression.rs:88-105", "clippy_lints/src/mixed_read_write_in_expression.rs:200-294", "clippy_lints/src/mixed_read_write_in_expression.rs:310-379"]}
{"id": "C144", "title": "Sorting by keys", "statement": "Where unnecessary_sort_by suggests sort() or sort_by_key(), with Reverse or without, the slice is sorted in the same way as by the closure that compares.", "quantifier": "all closures over two parameters with patterns, all expressions they compare, all functions, methods, operators and casts in them, all slices", "why_tests_cant": "It is about all slices and all functions the keys may call; a test sorts one slice by one key.", "anchors": ["clippy_lints/src/methods/unnecessary_sort_by.rs:33-132", "clippy_lints/src/methods/unnecessary_sort_by.rs:170-241", "clippy_lints/src/methods/unnecessary_sort_by.rs:243-342"]}
{"id": "C145", "title": "Inserting what a set was asked for", "statement": "An insert that set_contains_or_insert reports tells no more than the contains() before it: whenever it runs, the key is new just if the set did not contain it.", "quantifier": "all branches with loops, closures and nested branches, all sets and keys, all other changes to sets", "why_tests_cant": "It is about every way to reach the insert, and all contents of the set; a test takes one way.", "anchors": ["clippy_lints/src/set_contains_or_insert.rs:54-72", "clippy_lints/src/set_contains_or_insert.rs:80-145"]}
{"id": "C146", "title": "Divisions behind a check of the divisor", "statement": "A division that manual_checked_ops reports divides by the value that the condition checked, which is not zero; so checked_div gives Some of the same quotient.", "quantifier": "all conditions that compare with zero, all divisors, all branches with assignments, loops and nested branches, all stores", "why_tests_cant": "It is about every way to reach the division, and all values of the divisor; a test takes one.", "anchors": ["clippy_lints/src/manual_checked_ops.rs:49-126", "clippy_lints/src/manual_checked_ops.rs:135-164"]}
{"id": "C147", "title": "Vectors that are filled with zeros", "statement": "Where slow_vector_initialization suggests vec![0; len], all vectors, variables and calls are the same as after the allocation and the resize or extend it replaces.", "quantifier": "all allocations, all sizes, all statements that fill a vector, all stores, whatever room an allocation has", "why_tests_cant": "It is about all sizes, and how much room allocations may have; a test sees one allocator.", "anchors": ["clippy_lints/src/slow_vector_initialization.rs:101-161", "clippy_lints/src/slow_vector_initialization.rs:247-352"]}
{"id": "C148", "title": "Loops that fill a slice", "statement": "Where manual_slice_fill suggests fill(), all slices and variables are the same as after the loop, the same calls are made, and one panics just if the other does.", "quantifier": "all loops over indices and over elements, all values that are assigned, all slices of all lengths, all stores", "why_tests_cant": "It is about slices of every length, the empty one among them; a test fills one slice.", "anchors": ["clippy_lints/src/loops/manual_slice_fill.rs:20-107"]}
{"id": "C149", "title": "Vectors that are made and pushed to", "statement": "What vec_init_then_push reports is a vector that is made empty and the pushes right after it, at least as many as it was made for; vec![..] of what is pushed leaves all vectors, variables and calls the same.", "quantifier": "all blocks of statements, all items that are pushed, all stores, however the vectors are used later", "why_tests_cant": "It is about every block, with any number of vectors and pushes; a test has one.", "anchors": ["clippy_lints/src/vec_init_then_push.rs:65-150", "clippy_lints/src/vec_init_then_push.rs:153-225"]}
{"id": "C150", "title": "Mutexes that are locked again in an if let", "statement": "What if_let_mutex reports are a mutex that is locked in what an if let matches and a lock of the same mutex in a branch; no run gets past that second lock. Every if let that locks a mutex again like this is reported.", "quantifier": "all expressions with locks, branches, statements and drops of guards, all mutexes that are locked before, all runs", "why_tests_cant": "It is about every run of every expression; a test that deadlocks does not end.", "anchors": ["clippy_lints/src/if_let_mutex.rs:54-89", "clippy_lints/src/if_let_mutex.rs:92-108"]}
{"id": "C151", "title": "Conditions that ask whether arithmetic overflows", "statement": "What panicking_overflow_checks reports asks whether an unsigned sum or difference overflows. With overflow checks it is never true: it panics or is false. Without, it is true just where that sum or difference overflows. Every such condition is reported.", "quantifier": "all conditions over sums and differences of any depth, all unsigned types, all values of the variables", "why_tests_cant": "It is about all values of the variables at every width, and about both ways to build; a test has a few values and one build.", "anchors": ["clippy_lints/src/panicking_overflow_checks.rs:52-83"]}
