# Design of the formal model

The code is rust-lang/rust-clippy (`/repo`). Clippy is a large family of mostly
independent analyses on top of the compiler, plus a command-line front end, a
configuration reader and developer tooling. The model is split the same way.

## Layout

All Coq files are in `rocq/theories`, logical prefix `Verif`.

- `*Model.v` / base files: executable Gallina definitions, one comment per
  definition citing the lines in `/repo` it models. No proofs.
- `*Spec.v`: the independent specification a theorem is stated against
  (evaluation of Rust expressions, documented meaning of std methods, what a
  text region is, ...). It never mentions a helper of the lint it judges.
- `*Proofs.v`: lemmas.
- `P_*.v`: property theorems only (`Theorem ... exact lemma.`), each followed by
  `Print Assumptions`, and `Example`s showing that the hypotheses are met by a
  concrete case.

## Cluster A: lints that claim something about values

`RustInt.v` defines the Rust integer types (8..128 bits and pointer sized, the
pointer width being a parameter 16/32/64), ranges, wrapping and two's complement.
`RustExpr.v` defines a small typed expression language (literals, variables,
unary/binary operators, casts, method calls, `if`, ranges) and an evaluator
`eval mode ptrwidth env e`, whose result is a value, a panic, or "stuck" (ill
typed or outside the language). `mode` says whether overflow checks are on.
A lint that offers a rewrite is a function `expr -> option expr`; its theorem is
"if the lint offers e' for e and e evaluates to v (no panic), e' evaluates to
v". A lint that makes a claim ("always true") is a function to verdicts; the
theorem is the claim for all environments. Guards that only make lints quieter
(MSRV, macro expansion, const context, lint levels) are dropped: the theorem is
then about more firings than the real lint has.

## Clusters B, C, D

B: command line, driver, configuration, developer tooling: strings as lists of
characters or bytes, argument vectors as lists, tool histories as lists of
operations, files as strings.
C: text utilities: literals, identifiers, indentation, suggestion printing with a
reference precedence parser.
D: algorithms: sweeps, interval merging, graph closure, abstract interpretation of
loop bodies against an inductive execution relation.

## Plan per property

- **C01 Rotate suggestion preserves the value.** Model `check_expr` on the expression AST (both operand orders, constant amounts, `bits - n` amounts, xor amounts). Spec of rotate by bit positions. Prove for unsigned; the signed and xor variants are expected false: `_refuted` with witnesses.
- **C02 Ceiling-division suggestion preserves the value.** Model all accepted shapes; spec of div_ceil = -floor(-x/y). Unsigned by arithmetic; signed expected `_refuted`.
- **C03 Power-of-two suggestion preserves the truth value.** Model the two shapes; spec: exists k, x = 2^k. Checked mode proved, wrapping mode at 0 `_refuted`.
- **C04 abs_diff suggestion preserves the value.** Model comparison direction table; arithmetic proof in both modes.
- **C05 rem_euclid suggestion preserves the value.** Model both addition orders; truncating vs Euclidean remainder lemma.
- **C06 is_multiple_of suggestion preserves the truth value.** Model the comparison shapes; spec by divisibility.
- **C07 Lowest-bit and midpoint suggestions preserve the value.** Spec of isolate_lowest_one by lowest set bit, midpoint by division in Z rounded to zero.
- **C08 bad_bit_mask / ineffective_bit_mask verdicts are true.** Model `check_bit_mask` branch by branch on 128-bit patterns; prove each verdict by bitwise lemmas; comparison with 0 mask for signed constants expected `_refuted`.
- **C09 verbose_bit_mask suggestion preserves the truth value.** Low-mask lemma: x & (2^k-1) = 0 iff 2^k divides x.
- **C10 absurd_extreme_comparisons verdicts are true.** Model detect_absurd_comparison over all types; decide by range reasoning.
- **C11 invalid_upcast_comparisons verdicts are true.** Model bounds of the pre-cast type; prove for value-preserving casts, `_refuted` for sign-changing and narrowing ones.
- **C12 identity_op / erasing_op replacements preserve the value.** Model is_redundant_op/check_remainder/check_op; evaluate both sides.
- **C13 Comparison-pair verdicts are true.** Model operator pair table over an arbitrary decidable total order (Z).
- **C14 double_comparisons rewrite preserves the truth value.** Model the table; prove for total orders and rows valid for partial orders; NaN row `_refuted` with IEEE comparison from Coq's SpecFloat.
- **C15 int_plus_one rewrite preserves the truth value.** Model the eight shapes; prove in checked mode, examine wrapping mode.
- **C16 clamp suggestion preserves the value.** Model six shapes over Z (total order) with the lint's min/max role assignment.
- **C17 Saturating-arithmetic suggestions preserve the value.** Small statement semantics for `if x != 0 { x -= 1 }`; arithmetic.
- **C18 Range-contains suggestion preserves the truth value.** Model role assignment of bounds; prove for total orders; `||` with NaN `_refuted`.
- **C19 min/max verdicts are true.** Model nested min/max and extremum tests.
- **C20 A silent integer cast preserves the value.** Model the three lints' decision tables for opaque operands; exhaustively prove for all type pairs x pointer widths for every value; missing cases `_refuted`.
- **C21 Bit-width reductions used to silence truncation warnings are sound.** Model apply_reductions over the AST; soundness on the unsigned fragment by structural induction, unsound cases `_refuted`.
- **C22 Sign analysis used to silence sign-loss warnings is sound.** Model the sign analysis over the AST; soundness by structural induction (no overflow, i.e. checked mode).
- **C23 ilog2 / bit-width suggestions preserve the value.** Spec of ilog2 by powers of two.
- **C24 Merged range pattern matches the same values.** Model the merging loop on lists; invariant on covered set.
- **C25 Overlapping-arm reports are real and complete up to nesting.** Model sort + stack sweep; soundness by invariant on stack, completeness up to nesting by bracket-structure invariant.
- **C26 never_loop reports only loops that never loop.** Inductive big-step outcome relation for a loop-body language; structural induction on the analysis for the visited fragment; unvisited positions (`&&` rhs, guards) `_refuted`.
- **C27 Constant evaluation agrees with run-time evaluation.** Model ConstEvalCtxt over the AST with u128 payloads; soundness by structural induction.
- **C28 Constant ordering agrees with value ordering.** Total order proofs for the mixed integer order, agreement for typed constants.
- **C29 Sign extension helpers are inverse conversions.** Modular arithmetic on 128-bit patterns.
- **C30 Boolean simplification negates soundly.** Boolean AST with terminals; structural induction for extraction, negation and printing.
- **C31 Comparison normalisation preserves meaning.** Case analysis over operators and any order relation.
- **C32 Reformatting a numeric literal preserves the literal.** Character-level model of NumericLiteral; value spec by Horner evaluation ignoring underscores.
- **C33 Digit grouping has the advertised shape and is stable.** Character-level model of group_digits and the grouping lint; shape predicate; idempotence.
- **C34 Camel-case splitting loses nothing.** Character lists with abstract upper/lower predicates; structural induction.
- **C35 Built suggestions re-parse to the intended tree.** Token printer with Clippy's parenthesisation rules + reference precedence-climbing parser; round trip on the sound fragment; `_refuted` where the tree changes.
- **C36 Duration unit promotion preserves the duration.** Model promote over unit table; divisibility.
- **C37 Lint arguments reach the driver unchanged.** Separator join/split lemma; refuted for arguments that contain the separator or are empty.
- **C38 cargo-clippy command dispatch and flag handling.** Fold model of the argument loop; list lemmas.
- **C39 Driver decides whether to lint from its arguments only as documented.** Model arg_value on argument lists with abstract predicate.
- **C40 MSRV in force is the innermost attribute's.** Traversal of attributed trees with the stack; refinement to innermost-attribute spec.
- **C41 `..` in a configuration list extends, otherwise replaces.** List model; filter/append characterisation.
- **C42 Configuration keys are honoured, diagnosed, never silently lost.** Table fold; per-key specification.
- **C43 Listing of possible values is complete and fits the terminal.** Fuelled model of the layout loop with termination measure; permutation and width theorems.
- **C44 Lint renames never chain.** Histories as operation lists over rename tables; invariant; deprecate expected `_refuted`.
- **C45 Version bump edits only the version.** Line scanner model; refuted for trailing blanks.
- **C46 Region updates touch only the region.** String model of find/splice.
- **C47 Work splitting loses no argument.** Fold over lengths; concatenation lemma.
- **C48 Borrow-origin relation is the transitive closure.** Worklist model over nat graphs; equals transitive closure.
- **C49 Reindenting a block changes only indentation.** Line model; expected partially refuted, decide while modelling.
- **C50 The configuration file used is the nearest one.** Search over a list of directory states; characterised by the first interesting directory. The file system is a parameter.
- **C51 The suggested configuration name is a closest one.** min_by_key over the filtered options, edit distance (rustc's) a parameter.
- **C52 Accepted item orderings are complete and unambiguous.** Counting argument: incl + equal length of a duplicate-free list gives a permutation.
- **C53 Removing or renaming a lint touches exactly its own test files.** Prefix filter model; path buffer model; refuted for tests/ui-toml.
- **C54 Generated module list declares every module once.** Sorted-list argument; refuted for the Windows separator.
- **C55 Symbol list formatting is stable and loses nothing.** Text model.
- **C56 Reported line of an offset.** Induction on lines.
- **C58 Lossless and precision-losing numeric casts are told apart by the values of the types.** CastModel.v models the type tables; CastSpec.v defines IEEE formats by precision and exponent; P_Cast.v proves the statement for all types except f16, for which it is refuted.
- **C59 The size computed for an enum is the least that holds its discriminants.** CastModel.v models enum_ty_to_nbits as the fold over the stored discriminants, enum_value_nbits and get_discriminant_value; CastSpec.v defines discriminants by recursion as in the Reference; proof by an invariant of the fold with the two states exact / overflowed.
- **C60 cast_abs_to_unsigned keeps the value.** CastModel.v models the lint; preserved in Checked mode, refuted in Wrapping mode.
- **C61 checked_conversions offers try_from only for the same condition.** CastModel.v models the recogniser (get_types_from_cast, check_upper_bound, check_lower_bound, combine); proved when the casts of the bounds keep their values, refuted otherwise.
- **C62 A mistyped-suffix suggestion is a literal of the intended value.** NumModel models the function on the parsed literal; value of suggestion from C32's format theorem, range from from_str_radix; exponent part without a digit before the group is refuted (panic, invalid literal).
- **C63 A hexadecimal suggestion denotes the same number.** NumModel.check_decimal; hexadecimal printing modelled as repeated division, value by induction on log2, then C32's theorem; powers by induction on the number of digits.
- **C57 Compound constants compare, hash and equal like the values they stand for.** Nested constant type with a denotation into Rust values; lexicographic specification; induction on the nesting; `_refuted` for empty repetitions and signed minima.
- **C65 Raw string literals lose only what they do not need.** `LitModel.v`; raw literals as in the reference (the first quote followed by that many hashes ends them), value of plain literals by a state machine over escapes. False when a run of quotes precedes the hashes: refuted.
- **C66 Octal-looking escapes are found exactly and the replacements mean what they say.** `LitModel.v`; the value of a literal and where its escapes begin by a state machine in `LitSpec.v`. The second suggestion is false for a single digit: refuted.
- **C69 A string of one character becomes the same character.** `LitModel.v`, against the grammar of character literals. False for a literal tab, newline or carriage return: refuted.
- **C64 Nesting or-patterns changes nothing about what is matched.** `OrPatModel.v` function by function; matching as the list of all ways over any world of values. Refinement in one direction always, in both for patterns without nested or-patterns; order of alternatives, duplicates in `unordered_over` and missing parentheses are refuted.
- **C67 Comparisons with booleans are replaced by equivalent expressions.** `BoolCmpModel.v` on the source trees and suggestions of `SuggModel.v`; a context lemma (a text that binds as tight as its place asks for parses in place) by induction over the context; value under any reading with booleans. Dropped parentheses, floats and a type before `<` are refuted.
- **C68 An `if` with boolean literals as results reduces to its condition.** `BoolCmpModel.v` (`reduce`, `needless_bool_assign`, `needless_bool_guard`) with the context lemma of C67 and a rule for statements that begin with a block. Behind `&`, at the end of a block, and for a negated `!` the claim is refuted.
- **C70 Arithmetic that is not reported as having side effects does not panic.** PanicModel.v models manage_bin_ops, manage_unary_ops, manage_method_call, literal_integer, max_int_num and is_safe_due_to_smaller_source_type on the typed expression language. `arithmetic_side_effects_silent_partial`: silent, outside the listed blind spots => the operation itself does not panic; every blind spot has a `_refuted` witness (shifts, `0 - x`, `x / -1`, `x * -1`, `x + !0`, `!0 + (b as u32)`, a constant receiver). `arithmetic_side_effects_reported_partial`: a reported operation on variables and literals panics for some environment; `MAX - x` and sums with a cast `bool` are reported in vain (refuted).
- **C71 Evaluating eagerly what was lazy never introduces a panic.** PanicModel.v models the visitor with its accumulator on the expression language. `eager_evaluation_has_value` by induction on the expression, using the soundness of constant evaluation (C27); `unnecessary_lazy_unwrap_or` and `unnecessary_lazy_then` follow. What the compiler rejects is stated semantically (an operand that can only have one value). `eager_evaluation_unchecked_refuted` shows the assumption is needed.
- **C72 Expressions found equal by SpanlessEq behave alike.** SameModel.v models eq_expr, eq_block, eq_stmt, eq_pat, eq_ty, reduce_exprkind and swap_binop with the map of locals; SameSpec.v has an independent fuelled semantics (stores, events, break/continue/return/panic). `spanless_eq_behaviour_partial`: the right expression, reordered, and the left one simulate each other; `spanless_eq_same_behaviour_partial`: without reordering when operands only compute; `spanless_eq_reflexive_partial`. Refuted without the restrictions: order of calls, panics behind `&&`, labels of blocks, overloaded operators with a primitive left operand.
- **C73 Expressions with equal values have no side effects.** `eq_expr_value_harmless_partial` and `eq_expr_value_harmless_right_partial`: equal without side effects allowed => no call or assignment outside constants (induction on the comparison), and such an expression leaves trace and outer store alone (induction on the fuel). `eq_expr_value_operator_refuted`: overloaded operators are not looked at.
- **C74 Equal expressions hash alike and all duplicates are found.** The hash is modelled as the sequence of words fed to the hasher. `spanless_hash_partial` by induction on the comparison for expressions without exchangeable operators, empty blocks, blocks around `return`, `unsafe`, lifetimes, `..` in struct patterns; `spanless_hash_refuted` has a witness for each of these. `search_same_sound`, `search_same_disjoint`, `search_same_complete` by an invariant of the buckets; `search_same_sorted_partial` when equal hashes mean equal; the documented order is refuted when hashes collide, and `search_same_pair_refuted` shows that a third expression hides a duplicate.
- **C75 A condition reported by ifs_same_cond can never hold.** `ifs_same_cond_unreachable_partial` from C72 (behaviour without reordering), C73 (no effects) and C74 (groups in source order). Refuted: a condition in between that assigns (`ifs_same_cond_assignment_refuted`), and method calls on receivers not seen to be mutable (`ifs_same_cond_method_refuted`).
- **C76 Patterns said not to overlap match no common value.** Model NormalizedPat and from_pat, the order of fields, ranges, slices and has_overlapping_values; independently define by recursion on patterns all ways in which a pattern matches a value; prove by induction on the size that a pattern matched by a value normalises to a normal form that holds of the value, and that two normal forms that hold of one value are found to overlap. Constants, `Self`, braces on tuple structs and signed open ranges are refuted.
- **C77 Merging match arms as match_same_arms suggests keeps the meaning of the match.** Model the blocking indices, the pairwise equality, the grouping by search_same and the three suggestions; give matches a semantics with guards that may have effects or fail, tried again for each alternative of an or-pattern; prove that moving an arm across arms disjoint from it preserves the semantics, and that for pairs the blocking indices make the arms in between disjoint. Refuted for overlapping pairs, groups of three, wildcards with guards.
- **C78 Tabs in doc comments are found as maximal runs and replaced exactly.** Model get_chunks_of_tabs as the loop it is and the edits made of it; prove by induction that the edits applied in order give the text with tabs replaced, and that the ranges are the maximal runs.
- **C79 The line count of too_many_lines is the number of lines with code.** Model the loop over lines with its search for comment markers; specify by a one-pass automaton over characters with nesting and strings; prove equality line by line; refute for nested comments and strings.
- **C80 The difference of two lintcheck runs is exact.** Model the key order, the stable sort, merge_join_by, chunk_by and truncation; prove the result place by place by induction on both lists. Reordered duplicates are a refutation of order independence.
- **C81 Lint groups that are not reported leave no level open.** Model check_table; specify by permutations sorted by priority where the last flag concerning a lint decides; prove independence. Two groups of one priority are excluded; fixing two groups at once loses their order (refuted), so does the least priority.
- **C82 Reported crate versions are normal dependencies that come more than once.** Model the sort, the grouping, the search for the local package and the recursion with fuel; prove by the rank of an acyclic graph; refute for cycles, for a third version that is not a normal dependency, and for packages named like the local one.
- **C83 Simplified cfg conditions hold in the same configurations.** Model the recursion with each report given by the condition after the edit; evaluate conditions under any set of options; induction on conditions.
- **C84 Functions taken for the identity are the identity.** A language of closures with patterns, assignment, return, break, loops and unknown calls over an arbitrary world (CloSpec); is_body_identity_function over it; induction over pattern and body. Refuted for `let … else`.
- **C85 bind_instead_of_map keeps behaviour.** find_all_ret_expressions as a rewriting; induction on fuel and body shows that each way out of the body is rewritten. Refuted for returns in guards and for labelled blocks.
- **C86 unnecessary_filter_map tells what the closure does.** check_expression and the visitor of returns over the same language; induction on fuel and body. Refuted for labelled blocks, nested returns, and for `Some(y)` of another variable called unnecessary.
- **C87 Suggested combinators keep behaviour.** One rewriting function per lint over the language of closures; equation lemmas for the methods; conditions where the order of evaluation changes, each with a refutation of the claim without it.
- **C88 Code moved out of closures keeps behaviour.** The same language; bodies that move are compared with and without the boundary of the closure. Refuted where a return is moved, effects are dropped, or Err(x).unwrap_or(y) becomes x.
- **C89 A match written as Option::map behaves the same.** MatModel models the lints on the language of CloSpec. movable_calm proves by induction that nothing escapes from a movable expression; manual_map_sound compares both evaluations. A `_` arm in front of the others is refuted.
- **C90 A match written as Option::filter behaves the same.** MatModel, for Copy types; the two texts that clippy gets wrong (a function passed by name) are refuted.
- **C91 A match written as unwrap_or, ok or err behaves the same.** MatModel; a constant evaluates to the same value everywhere (induction). `Some(x @ p)` is refuted.
- **C92 if-let and if written as map_or, map_or_else and then behave the same.** MatModel with the eager/lazy decision of CloModel. A `_` arm first, a constructor call `C()`, and a `break` in the block are refuted.
- **C93 Removing a final return, or a let in front of a result, keeps what a function returns.** TailModel on the language of CloSpec; final_tail proves by induction on the body that the suggestion either behaves the same, or gives as value what was returned, or gives a value where unit was given. The last is excluded by a hypothesis on types, and refuted without it.
- **C94 `?` in place of let-else, and `Err(e)?` in place of `return Err(e)?`.** let_else_stmt compares the evaluation of the statement with all that follows; stmt_block lifts it into any block.
- **C95 `?` in place of an if, if-let or match that returns early.** return_bad_lands proves by induction what the recognised branches do; the three forms are compared with the desugared `?`. Seven situations in which the lint is wrong are refuted with witnesses.
- **C96 A match on a bool as `if`, and a match of bools as matches!.** The evaluation of an arm is stated once (armrun); the match is unfolded by its equation and compared with the `if`. For `matches!`, induction over the arms.
- **C97 A pattern that only tells the variant as is_some, is_ok, ...** tells_pat: what each recognised pattern says about the view of the value; then by cases. The guard that is dropped is refuted with a witness.
- **C98 A match that gives back its scrutinee.** pat_same_eval, by induction over the pattern: the body evaluates to the matched value. Then induction over arms or the chain. The `else { None }` behind a refutable pattern, repeated effects and statements taken for values are refuted with witnesses.
- **C99 A match with a single pattern as if-let or `==`.** The match is unfolded; the second arm binds nothing and handles what is left; derived equality is a hypothesis that the lint checks.
- **C100 Nested branching collapsed into the outer pattern or a guard.** put_match, by induction over patterns: matching with the pattern in place of the variable is matching twice, up to the order of the bindings; eval_frame carries the body over to the other environment. Missing arms, statements and arms in between are refuted with witnesses.
- **C101 A guard on a bound variable as part of the pattern.** put_arm: the arm with guard and the arm with the new pattern agree for every value and whatever follows. Dropped subpatterns, user-defined equality, the inner guard and capture are refuted with witnesses.
- **C102 Rewriting an adaptor inside an iterator chain.** IterSpec gives lazy iterators a meaning (state machines pulled from either end); IterModel models the lints; a simulation (IterSim) is shown closed under all adaptors, consumers and loops.
- **C103 Rewriting the method that consumes an iterator.** Equality of evaluation for every chain; last against next_back for iterators without effects, refuted with them.
- **C104 find(..).is_some() as any(..).** Induction on the fuel of the consuming loop; closures with a plain variable need deref_closure_args, which is not modelled.
- **C105 fold as any, all, sum or product.** fold and any/all are compared on iterators without effects, by induction on the items; refuted for effects, swapped operands and other uses of the accumulator.
- **C106 filter and map as filter_map, and back.** Both sides are one loop over the items with a verdict for each item; the verdicts are compared, the loops follow by simulation.
- **C107 for loops over iterators.** Simulation of the loop by the loop over the rewritten iterator; manual_find by induction on the rounds.
- **C108 Asking the iterator instead of a collected vector.** len in full, the others for iterators without effects and arguments that only have a value; refuted otherwise.
- **C109 Splitting a string in two.** The search for patterns is defined over lists of characters; a lemma says what splitn(2, p) and split_once give from the first match. The `let` form is proved by following the iterator variable through the two calls and framing it out of the rest.
- **C110 Stripping a prefix or suffix after testing for it.** Induction on the block with a relation between the states of the two programs (they agree but for the new variable, which holds the rest); the byte positions are justified by a lemma about cutting UTF-8.
- **C111 Lines and words of a string.** Induction over the string for words; for lines, induction over the list of parts the string is joined from; witnesses where the two differ.
- **C112 Consecutive replacements of characters.** A replacement of characters is a flat_map over the string; induction over the chain; witnesses for the two conditions.
- **C113 Patterns of string methods.** Every method depends on a pattern only through its matches; the matches of a one-character string and of the character are the same by induction over the string.
- **C114 Comparing the first or last character.** The lint's shapes are listed by inversion, each compared by computation with the pattern; witnesses for the lost panic and the changed order.
- **C115 ASCII classes and comparisons that ignore case.** The ranges are compared by arithmetic on code points; lower and upper case give the same equality; witness for a literal in the other case.
- **C116 Bytes of strings and ends of slices.** Case analysis on the values; a lemma relates cutting a string at bytes to the slice of its bytes; witnesses for panics that are lost.
- **C117 Repeating strings; suggestions about strings anywhere in a program.** Induction on the count; for programs, a congruence proof over all forms of expressions.
- **C118 Rewriting conditions.** A big-step evaluator with variables as names, so that capture is visible; a chain of conditions with its block is one expression that may fail. Each rewriting is proved to give alike results from every state, by induction on the chain of conditions.
- **C119 Redundant else.** is_never_root is proved to accept only expressions that yield no value, given that of the types; then the chain is split by induction. Names declared in the moved block are framed out of what follows.
- **C120 Declarations and late initialisation.** A relation between a state in which the variable is assigned and the value given instead, kept through all branches; patterns substituted into patterns are proved to bind the same values.
- **C121 Assignments and swaps.** Evaluation of the operands is followed step by step; indices that clippy calls equal are proved to have no effects; lists updated at two places are compared pointwise.
- **C122 Loops made simpler.** Induction on the number of iterations from a lemma about one; the visitor for break and continue is proved to exclude those outcomes.
- **C123 Needless continue.** Two bodies are related when both go on with the loop or end alike; the relation is kept by every construct the search descends into, and suffices for the loop.
- **C124 Suggestions applied throughout a program.** Being alike is proved to be a congruence: by induction on the derivation that parts have been replaced, for every construct of the language, also for programs the compiler accepts only.
- **C125 Counters of for loops.** The visitor is modelled with its states and depth; it is proved to move only forward, to count only increments outside branches and before any continue, and to see every change and every use; then the two bodies are proved to stay one apart after the increment by induction on the body, and the loops by induction on the vector.
- **C126 Calls of unwrap after a check.** A language with places, mutable references that unknown code can write through until the place is used again, and a record of each unwrap. What is collected from a condition is proved to hold when the branch starts, to stay true while nothing that may be the place is mutated, and so every report to agree with every recorded call, by induction on the execution.
- **C127 Loops replaced by copies between slices.** A language of loops over ranges with usize arithmetic that panics on overflow and arrays that panic out of bounds. By induction on the rounds, each destination holds the elements written so far and each counter its first value plus the number of rounds; the bounds in the suggestion evaluate to the first and last index.
- **C128 Statements reported as having no effect.** A language of expressions with places, moves, temporaries, destructors, overloaded operators and panics, and a trace of what can be observed. By induction on the expression the trace is unchanged; for each case that the lint forgets, a witness.
- **C129 Statements reduced to their operands.** In the same language, by induction on the expression: looking at an operand and moving it give the same trace, a list of operands run one by one gives the trace of the whole, and only the last step can panic. Witnesses for destructors, overloaded operators and lost panics.
- **C130 Code shared by the branches of an if.** A language with declarations that hide others, assignments, calls whose result depends on the history, and early returns. The scan from the start, the search from the end by hash and the pass over it that tells variables apart are modelled as they are; by induction over them every branch is start, middle and end, the declarations of the middle are not used by the end, and running the end outside of the branch does the same. Witnesses for the rest.
- **C131 The expression at the end of all arms of a match.** In the same language: what an arm binds is not used by the expression, so that evaluating it with or without these variables is the same.
- **C132 Parameters only used in recursion.** A language with assignments, branches, loops, recursion and early return, run to any depth. The search over parameters is a depth-first search that the stack cuts at cycles: proved to disable exactly the parameters from which one that is used, unnamed or unused can be reached. From this, by induction on the depth, two runs that differ in reported parameters stay alike in all other variables. Witnesses for short-circuit operators and panics.
- **C133 Loops over the indices of a sequence.** A language with vectors, vectors of vectors, calls, assignments and branches. The notes of the visitor are shown to leave the variable of the loop only where the suggestion binds it; a simulation then relates each round, and arithmetic on ranges relates the rounds. Witnesses for ranges that end beyond the sequence, inclusive ranges up to the length, the length of the outer sequence, assignments to the variable of the loop or to what selects the sequence, and bounds with effects.
- **C134 Assertions before indexing.** The state kept for each slice is shown, by induction on the text, to be the highest index, whether it is the first, and the first assertion; the report is compared with the lengths each index needs. Witnesses for v[..=0], which is not counted, branches, and slices that are assigned.
- **C135 Assertions replaced before indexing.** Proved for assertions that the length is greater than, or at least, a number; for equality, the code is shown to panic always. False for equality and for upper bounds, with witnesses.
- **C136 Conditions that do not change.** A language with nested loops, labelled break and continue, return, static items and calls through mutable references, run to any depth. Variables that are not noted as mutated are shown to keep their values, so that the condition does; the loops are then equal by induction on the depth. Witnesses for overloaded operators in the condition, and for continue of an outer loop, which the search for break and return does not count.
- **C137 Loops detected as infinite.** A language of loops and labelled blocks, run to any depth. Statements in which the visitor finds no exit are shown to end normally, or with a jump to a target inside the loop, by induction on the depth. Witnesses for break to a loop around the reported one, and for jumps in the value of a break.
- **C138 Loops that push the same item.** A language with vectors whose methods may change them, blocks, calls, && and break. By mutual induction on expressions and statements, a vector that is pushed once and not otherwise noted grows by copies of the item only. Witnesses for uses in let statements and at the end of blocks, which are not visited, and for pushes behind &&.
- **C139 while let loops over iterators.** A language of places (variables, fields, indices, dereferences) with calls that may change what is at a place; places that are moved from or borrowed must not be used. The comparison of fields is shown to find all places that overlap; a simulation relates the runs, by induction on statements and steps, with the scopes of variables for loops around. Witnesses for indices that the loop changes, for dereferences that would be moved from, and for closures called once, after which uses are not seen.
- **C140 Iterators detected as infinite.** Iterators are states with a next function that runs for a number of steps. An invariant on states, kept by next, says that an iterator never ends; what is found infinite starts in such a state. Witnesses for cycle() of an empty iterator and for sum() into an Option, which end, and for closures of flat_map, whose case in the code is never reached.
- **C141 Checks for keys become entries.** A language with a map, key variables, insertions and the entry, which is gone once used or once the map is used; or_insert_with lends the map to the closure. The source and what is suggested run in step, as long as the search has not seen a use of the map. Witnesses for keys that are assigned, keys that are calls, insertions in closures, and keys that are not Copy and used otherwise.
- **C142 Collections that are never read.** A language with method calls on variables, whose effects are parameters. Runs that start with different contents of the collection stay the same but for it, by induction on the program, where the methods called on it tell nothing but by what they return. Witnesses for methods that panic, write to an argument, or call a closure as often as the collection is long.
- **C143 The order of evaluation of operands.** Evaluation is a relation that lets operands be evaluated in either order. Two evaluations agree, even from stores that differ in variables the expression does not mention, by induction on the expression: the operands of what is not reported do not interfere. Witnesses for operands that both write, and for reads behind &.
- **C144 Sorting by keys.** Patterns bind parts of a value; expressions are evaluated with functions that are parameters. Expressions that are mirrored have the same value where what one binds is what the other binds, by induction on the expression; what the patterns bind is so related, by induction on the pattern. A stable sort depends on no more than what its comparison says. Witnesses for casts to different types, for paths of different lengths, and for what is bound below @.
- **C145 Inserting what a set was asked for.** Runs are a relation that records what each insert found. What is visited before the insert leaves the set and the key as they are, by induction on the run; so the insert finds what contains() found. Witnesses for an insert in a loop, a key that is assigned, and a struct that holds the set and is borrowed.
- **C146 Divisions behind a check of the divisor.** Runs are a relation that records the divisor of each division. Where the variables of the divisor are not assigned, it keeps its value, by induction on the run. The first division by a variable is reached before anything assigns it, as what is visited before it does not mention the variable. Witnesses for a second division, a divisor whose parts are assigned, and a dividend that assigns.
- **C147 Vectors that are filled with zeros.** Statements run on stores of vectors with capacities, which an allocation may exceed. A size that does not ask the vector has the same value before and after the allocation, by induction on the size; so both leave as many zeros. Witnesses for capacities of this and of another vector, for the length of the vector itself, for calls that are made once instead of twice, and for an allocation in an arm of a match.
- **C148 Loops that fill a slice.** Loops run on stores of slices; indices out of bounds panic. A value that is evaluated eagerly has the same value in every iteration, by induction on the value; after k iterations the first k elements are that value, by induction on k. Witnesses for an index that is not the variable of the loop, which is not checked.
- **C149 Vectors that are made and pushed to.** The search over the statements keeps that it is at pushes that follow the vector it began with, by induction on the block. Items that do not ask the vector have the same values before and after the pushes, so both leave the same, by induction on the items; what follows keeps this. Witnesses for items that ask the vector, and for a vector that an arm of a match makes.
- **C150 Mutexes that are locked again in an if let.** A mutex that is held stays held, and is not locked again, until its guard is dropped, by induction on runs. So the second lock is never passed where the first is always reached and not given up. Witnesses for guards that live in a statement only, are in a branch, or are dropped by hand, and for a second mutex that is missed.
- **C151 Conditions that ask whether arithmetic overflows.** eq_expr_value is equality, by induction; so what is reported is one of six shapes. Checked values stay in range, so a sum is not less than its terms; for wrapping ones, cases on whether the sum reaches the modulus. A witness for a sum that is missed because the match looks for a sum first.

## What is proved, and under which assumptions

`Print Assumptions` says "Closed under the global context" for each of the 714 theorems below: no axiom, not even of the standard library, is used.

- **C01** (partial, `P_Arith.v`): `rotate_preserves_partial`, `rotate_signed_refuted`, `rotate_xor_refuted`, `rotate_sum_wrapping_refuted`, `rotate_amount_type_refuted`. Proved for unsigned operands with amounts `a`/`bits - a` or constants summing to the width, in both overflow modes for `|` and with checks on for `+`. The remaining cases of the statement are false; each exclusion has a refuted theorem with a witness.
- **C02** (partial, `P_Arith.v`): `div_ceil_preserves_partial`, `div_ceil_wrapping_refuted`, `div_ceil_signed_refuted`, `div_ceil_negative_divisor_refuted`. Proved for every shape on unsigned operands with overflow checks on; refuted with checks off and for signed operands.
- **C03** (partial, `P_Arith.v`): `is_power_of_two_preserves_partial`, `is_power_of_two_count_ones`, `is_power_of_two_wrapping_refuted`. All shapes with overflow checks on, the count_ones shape also with checks off; refuted for `x & (x-1) == 0` at 0 with checks off.
- **C04** (proved, `P_Arith.v`): `abs_diff_preserves`. Every integer type, both modes; `Duration` and reference operands are not modelled.
- **C05** (partial, `P_Arith.v`): `rem_euclid_preserves_partial`, `rem_euclid_wrapping_refuted`. With overflow checks on; refuted with checks off.
- **C06** (proved, `P_Arith.v`): `is_multiple_of_preserves`. Both modes, all shapes.
- **C07** (partial, `P_Arith.v`): `isolate_lowest_one_preserves`, `midpoint_preserves_partial`, `midpoint_wrapping_refuted`. isolate_lowest_one in both modes (NonZero receivers not modelled); midpoint of integers with overflow checks on; refuted with checks off. Float midpoints not modelled.
- **C08** (partial, `P_Cmp.v`): `bad_bit_mask_constant`, `bad_bit_mask_value_partial`, `bad_bit_mask_exceeds_refuted`, `bad_bit_mask_exceeds_wrong`, `bad_bit_mask_signed_refuted`, `ineffective_bit_mask_preserves`. That a reported comparison is constant, and that an ineffective mask may be dropped, hold in full. The reported truth value is right for ==, != and the not-exceeding rows on non-negative operands; it is wrong on the rows asking whether the masked side exceeds the constant, and can be wrong for signed operands (refuted with witnesses).
- **C09** (proved, `P_Cmp.v`): `verbose_bit_mask_preserves`. All types, modes and thresholds.
- **C10** (proved, `P_Cmp.v`): `absurd_comparison_correct`. Integers, bool; float and char extremes are not produced by the lint.
- **C11** (partial, `P_Cmp.v`): `invalid_upcast_correct_partial`, `invalid_upcast_complete`, `invalid_upcast_sign_refuted`, `invalid_upcast_narrow_refuted`, `invalid_upcast_host_refuted`. Proved when the casts only widen, and conversely every comparison with one result for all values before the cast is reported; refuted for sign-changing and narrowing casts, and the verdict depends on the host pointer width.
- **C12** (partial, `P_Cmp.v`): `identity_op_preserves_partial`, `identity_op_rem_refuted`, `erasing_op_zero`. Everything except `i128::MIN % k`, for which the claim is false (witness).
- **C13** (proved, `P_Cmp.v`): `const_comparisons_correct`. All three verdicts, integer, boolean and f64 constants (NaN included).
- **C14** (partial, `P_Cmp.v`): `double_comparison_preserves_partial`, `double_comparison_nan_refuted`. All rewrites, except that `x < y || x > y` to `x != y` is false on NaN (witness).
- **C15** (partial, `P_Cmp.v`): `int_plus_one_preserves_partial`, `int_plus_one_wrapping_refuted`. With overflow checks on; refuted with checks off.
- **C16** (partial, `P_Range.v`): `clamp_expr_preserves`, `clamp_expr_float_partial`, `clamp_float_nan_refuted`, `clamp_float_zero_refuted`, `clamp_wide_shift_refuted`, `clamp_match_preserves`, `clamp_match_float`, `clamp_two_if_partial`, `clamp_two_if_refuted`, `clamp_else_if_partial`, `clamp_else_if_refuted`, `clamp_stmt_float_partial`. All six shapes. Integers: the expression and match forms hold for every input; the statement forms need that the tested variable is the assigned one, which the code does not check (refuted otherwise). Floats: equal up to the sign of zero, except min/max chains on NaN (refuted).
- **C17** (partial, `P_Range.v`): `implicit_saturating_sub_preserves`, `manual_saturating_sub_preserves`, `inverted_saturating_sub_corrects`, `inverted_saturating_sub_wrapping_refuted`, `implicit_saturating_add_partial`, `implicit_saturating_add_host_refuted`, `manual_saturating_arithmetic_partial`, `manual_saturating_arithmetic_refuted`, `saturating_sub_default_preserves`. All four lints, every integer type, both overflow modes. False of the code: a default written -MAX, and usize::MAX taken from the host.
- **C18** (partial, `P_Range.v`): `range_contains_preserves`, `range_contains_float_or_guard`, `range_contains_wide_shift_refuted`. Proved for every operand type, operator, order and nesting, in wrapping builds and in checked builds whose bounds contain no signed shift by a wider amount; the shift case is refuted with a witness (a bound that panics is skipped by && but evaluated by the range). Char operands and the text of the replaced span are not modelled.
- **C19** (proved, `P_Range.v`): `min_max_constant`, `unnecessary_min_or_max_preserves`. Constant result up to the sign of a float zero; unnecessary_min_or_max only concerns Ord types, modelled for integers.
- **C20** (partial, `P_Cast.v`): `silent_cast_exact`, `silent_cast_keeps_partial`, `silent_cast_refuted`, `reported_cast_can_lose`. Silence of the three integer cast lints on an opaque operand is characterised exactly: the value is kept unless a fixed-size type is cast to a narrower usize/isize, where the claim is refuted. Every report has a witness on some pointer width.
- **C21** (partial, `P_Cast.v`): `reductions_bound_partial`, `reductions_bound_signed_partial`, `silent_truncation_keeps_partial`, `reductions_bound_refuted`. Bound proved by induction for unsigned operands whose parts are not wider than the whole, and for signed shifts; eight kinds of counterexample for the rest (inner casts, methods, signed operations, pointer width, wrapping over-shift).
- **C22** (partial, `P_Cast.v`): `silent_sign_nonneg_partial`, `silent_sign_keeps_partial`, `silent_sign_nonneg_refuted`. Sign analysis sound with overflow checks on; refuted with overflow checks off (pow, *, +).
- **C23** (partial, `P_Log.v`): `manual_ilog2_preserves_partial`, `manual_ilog2_preserves_nonzero`, `manual_ilog2_preserves_refuted`, `manual_ilog2_complete`, `manual_bit_width_preserves`, `mismatched_bit_width_exact`. bit_width holds for every build and value; ilog2 with overflow checks on or for a value other than zero, refuted otherwise.
- **C24** (proved, `P_Pat.v`): `manual_range_same_values`, `manual_range_offered_iff`. 
- **C25** (proved, `P_Pat.v`): `overlapping_arms_sound`, `overlapping_arms_complete`, `overlapping_arms_order_refuted`. Nested ranges may or may not be reported; an order dependence among them is recorded as a refutation, it is not part of the claim.
- **C26** (partial, `P_Loop.v`): `never_loop_sound_partial`, `never_loop_once_partial`, `never_loop_and_refuted`, `never_loop_guard_refuted`, `never_loop_assign_refuted`, `never_loop_label_refuted`. Sound for every body whose jumps are in positions the analysis visits; refuted for jumps in the right operand of && and ||, match guards and assigned values. Type soundness of `!` is built into the executions.
- **C27** (partial, `P_Const.v`): `const_eval_value`, `const_eval_total_wrapping`, `const_eval_total_checked_partial`, `const_eval_wide_shift_refuted`, `const_eval_cross_target_refuted`, `eval_int_value`. Value agreement holds whenever host and target pointer widths agree; absence of panics is proved with overflow checks off, and with them on only when no signed value is shifted by an amount of a wider type. Both exclusions are necessary: the refuted theorems give witnesses.
- **C28** (proved, `P_Const.v`): `constant_cmp_int`, `constant_cmp_bool`, `constant_cmp_agrees`, `fullint_order`. Integer, boolean and f64 constants; f16/f32/f128 are not modelled, string and compound constants are C57.
- **C29** (proved, `P_Const.v`): `sext_is_twos_complement`, `unsext_of_sext`, `sext_of_unsext`, `clip_is_mod`. All twelve integer types, all pointer widths.
- **C30** (partial, `P_Bool.v`): `nonminimal_bool_sound_partial`, `simplify_not_any_context`, `overly_complex_sound`, `nonminimal_bool_no_more`, `inverted_bool_sound`, `nonminimal_bool_types_refuted`, `nonminimal_bool_cast_refuted`, `nonminimal_bool_context_refuted`. Every suggestion for a whole expression is read back as an equivalent one, for any behaviour of the external simplifier within its contract; refuted for comparisons between two types, for a left operand ending in a cast, and for a suggestion used inside a larger expression.
- **C31** (proved, `P_Cmp.v`): `normalize_comparison_equivalent`. Both directions, all types.
- **C32** (proved, `P_Num.v`): `literal_format_preserves`, `literal_format_reads_same`, `literal_format_digits`, `literal_text_unambiguous`. Every well-formed literal of the language; literals with a leading minus sign (only passed in by one caller) are not covered.
- **C33** (partial, `P_Num.v`): `grouping_right_shape`, `grouping_left_shape`, `grouping_padded_shape`, `literal_format_shape_partial`, `literal_format_shape_refuted`, `literal_format_stable_partial`, `literal_format_stable_refuted`, `literal_lint_accepts_suggestion`. The shape fails for exponents with a plus sign, stability for an exponent zero written with an underscore; the lints accept their own suggestion in every case.
- **C34** (proved, `P_Camel.v`): `camel_indices_exact`, `camel_start_leftmost`, `camel_split_partition`, `camel_until_longest`, `count_match_start_longest`, `count_match_end_longest`, `snake_case_stable`, `camel_snake_round_trip`, `camel_snake_round_trip_refuted`. For any type of characters with a length of at least one byte and disjoint cases (facts of Unicode, shown to hold for ISO 8859-1). The round trip through snake case needs a name without underscores; its refutation with one is included.
- **C35** (partial, `P_Sugg.v`): `sugg_reparse_partial`, `sugg_reparse_value`, `sugg_parse_unique`, `sugg_from_source`, `sugg_receiver`, `sugg_enclosing`, `sugg_neg_value`, `sugg_not_value`, `sugg_precedence_reference`, `sugg_comparison_chain_refuted`, `sugg_cast_less_refuted`, `sugg_int_plus_one_refuted`, `sugg_assign_range_refuted`, `sugg_add_right_refuted`, `sugg_mul_right_refuted`, `sugg_return_refuted`, `sugg_not_unordered_refuted`. Every term of the builder outside five named combinations parses as the tree meant; with right-nested &&, ||, &, |, ^ it has the same value under any reading in which they are associative; suggestions made from source expressions stand for them. The statement is false in general: each excluded combination is refuted with a source-level witness. Texts are token lists.
- **C36** (proved, `P_Dur.v`): `duration_promotion_preserves`, `duration_promotion_coarsest`, `duration_promotion_complete`. Coarsest and complete relative to the minimum supported version: the code does not skip over an unavailable unit.
- **C37** (partial, `P_Cli.v`): `lint_args_reach_compiler_partial`, `lint_args_empty_refuted`, `lint_args_separator_refuted`. End to end through both programs: the arguments after `--` arrive in order, minus `--no-deps`, followed by exactly `--cfg clippy`. Excluded, and false (witnesses): empty arguments, and arguments containing the transport separator or ending so that they merge with it.
- **C38** (proved, `P_Cli.v`): `cargo_clippy_help`, `cargo_clippy_version`, `cargo_clippy_explain`, `lint_named_unique`, `cargo_clippy_dispatch`, `cargo_clippy_exit`. All argument vectors. Spawning the process itself is not modelled, its program, arguments and environment are.
- **C39** (partial, `P_Cli.v`): `arg_value_finds`, `arg_value_dashes_refuted`, `is_arg_flag`, `driver_wrapper_name`, `driver_lints_iff`, `driver_rustc`. Everything but the clause `before any --`: the search does not stop at `--` (witness). Paths are split as on Unix.
- **C40** (proved, `P_Conf.v`): `msrv_early_innermost`, `msrv_stack_restored`, `msrv_late_innermost`, `msrv_in_force_unique`, `msrv_meets_iff`, `msrv_meets_monotone`, `msrv_attrs_diagnosed`, `msrv_attrs_no_false_alarm`, `msrv_merge`. Early passes, late passes with the SEEN_MSRV_ATTR shortcut, and the merge with Cargo.toml. The syntax tree is the same for early and late passes in the model.
- **C41** (proved, `P_Conf.v`): `config_list_extends`, `config_list_not_a_list`, `config_list_diagnostics`, `config_list_unique`. Any element type and element reader.
- **C42** (partial, `P_Conf.v`): `conf_keys_handled_partial`, `conf_keys_no_false_alarm`, `conf_table_meets_requirements`, `conf_suggested_names`, `conf_keys_refuted`. Proved for every table in which fields without a type are renamed to distinct fields with one, which includes the real table of 100 keys. The full statement is false of the real table: the old key lint-inconsistent-struct-field-initializers has a type as well as a new name and silently sets a dead field.
- **C43** (proved, `P_Conf.v`): `value_list_complete`, `value_list_plain`. ASCII values.
- **C44** (partial, `P_Dev.v`): `lint_renames_never_chain`, `rename_redirects`, `rename_reaches_current_partial`, `rename_reaches_current_refuted`, `rename_reported_recorded_refuted`. No chaining is proved for every history. Reaching a current name needs that no rename target is deprecated (refuted otherwise: rename a b, deprecate b).
- **C45** (partial, `P_Dev.v`): `version_bump_exact_partial`, `version_bump_no_version`, `version_bump_read_back_partial`, `version_display_parses`, `version_bump_crlf_refuted`, `version_bump_comment_refuted`, `version_bump_skipped_refuted`. Exact when nothing follows the closing quote of the version line; false of the code with a carriage return, trailing blanks or a comment.
- **C46** (partial, `P_Dev.v`): `region_update_exact`, `region_update_panics_iff`, `region_update_idempotent_partial`, `region_update_idempotent_refuted`, `check_mode_agrees`. Idempotence needs that the inserted text does not contain an end marker.
- **C47** (proved, `P_Dev.v`): `split_args_lossless`, `split_args_sizes`, `split_args_size_meaning`. The length limit applies to a batch without its last argument, as in the code.
- **C48** (proved, `P_Dev.v`): `reachable_is_closure`, `reachable_add`. 
- **C49** (partial, `P_Reindent.v`): `reindent_keeps_partial`, `reindent_indentation`, `reindent_trailing_refuted`, `reindent_blank_lines_refuted`. Proved for every text without a carriage return inside a line: only the common indentation changes and slices never panic. False as stated: up to two blank lines at the end are lost, and lines of blanks only keep the text indented (both refuted with witnesses).
- **C50** (proved, `P_Conf.v`): `config_file_nearest`, `config_start_dir`. Canonicalisation of the start path is not modelled; directories are given as the list from the start to the root.
- **C51** (proved, `P_Conf.v`): `closest_match_minimal`, `closest_match_complete`. Relative to rustc's edit distance.
- **C52** (proved, `P_Conf.v`): `ordering_groups_checked`, `ordering_groups_default`. Reading the TOML arrays into groups is not modelled.
- **C53** (partial, `P_Dev.v`): `test_files_exact`, `ui_test_paths_exact`, `ui_toml_test_paths_partial`, `ui_toml_test_paths_refuted`, `remove_declaration_keeps`. The second and later tests/ui-toml directories get a wrong path.
- **C54** (partial, `P_Dev.v`): `slice_groups_partition`, `gen_mods_once_partial`, `gen_mods_once_refuted`. Holds for the separator /, false for the backslash.
- **C55** (proved, `P_Dev.v`): `fmt_syms_idempotent`, `fmt_syms_lossless`. The error for a missing list is None in the model.
- **C56** (proved, `P_Dev.v`): `offset_to_line_exact`. 
- **C58** (partial, `P_Cast.v`): `cast_lossless_int`, `cast_lossless_bool`, `cast_lossless_float_partial`, `cast_lossless_float_refuted`, `cast_lossless_widening`, `precision_silent_exact`, `precision_reported_inexact`, `precision_silent_refuted`. Holds for all types except f16: the code takes f16 to be 64 bits wide in cast_lossless and cast_precision_loss ignores f16/f128.
- **C59** (partial, `P_Cast.v`): `enum_bits_exact`, `enum_discriminant_correct`, `enum_value_bits_exact`, `enum_cast_reported_exact`, `enum_cast_pointer_refuted`, `enum_cast_sign_refuted`. The bit counts and discriminants are exact for all enums whose given discriminants can be read; the report is exact for fixed-size targets; pointer-sized targets and signedness refuted.
- **C60** (partial, `P_Cast.v`): `cast_abs_preserves_partial`, `cast_abs_preserves_refuted`. Preserved with overflow checks on; refuted with overflow checks off for a widening cast of the minimum.
- **C61** (partial, `P_Cast.v`): `checked_conversions_partial`, `checked_conversions_refuted`. Proved when the casts of the bounds keep their values; refuted when they do not (the lint does not compare the widths).
- **C62** (partial, `P_Num.v`): `mistyped_suffix_int`, `mistyped_suffix_float_partial`, `mistyped_suffix_float_refuted`. Integers: every literal. Floats: when a digit precedes the group; otherwise the code panics or suggests an invalid literal.
- **C63** (proved, `P_Num.v`): `hex_suggestion_same_number`, `hex_powers_reported`. 
- **C57** (partial, `P_Struct.v`): `struct_cmp_agrees_partial`, `struct_cmp_empty_refuted`, `struct_eq_exact`, `struct_eq_value`, `struct_eq_hash`, `struct_eq_per`, `numeric_extremes`, `is_numeric_max_exact`, `is_numeric_min_partial`, `is_numeric_min_refuted`, `is_numeric_min_never`, `numeric_min_eq_refuted`. Proved for all nested constants without an empty repetition. False for `[x; 0]` and for is_numeric_min on signed types below 128 bits (both refuted). f64 stands for the float widths; Adt/RawPtr/Err constants are opaque.
- **C65** (partial, `P_Lit.v`): `raw_hashes_removed_partial`, `raw_hashes_all_found`, `raw_hashes_removed_refuted`, `raw_string_to_plain`. The number of hashes is minimal and the literal denotes the same string, unless a run of several quotes stands before hashes (refuted). Removal of the `r` is proved for contents without a carriage return.
- **C66** (partial, `P_Lit.v`): `octal_reports_exact`, `octal_hex_suggestion`, `octal_null_suggestion_partial`, `octal_null_suggestion_refuted`. Reports and the first suggestion are as claimed; the second is false when a single digit follows (refuted).
- **C69** (partial, `P_Lit.v`): `str_to_char_partial`, `str_to_char_found`, `str_to_char_refuted`. Proved for literals without a newline, tab or carriage return in their text; false with one (refuted).
- **C64** (partial, `P_OrPat.v`): `or_pattern_never_wider`, `or_pattern_same_partial`, `or_pattern_bindings_partial`, `or_pattern_terminates`, `or_pattern_reported`, `or_pattern_parens_partial`, `or_pattern_top_level`, `or_pattern_bindings_refuted`, `or_pattern_same_refuted`, `or_pattern_parens_refuted`. Never wider, for all patterns; the same set of ways to match for patterns without or-patterns inside alternatives; the same bindings where the source binds in one way. The full statement is false: reordering alternatives changes bindings, `unordered_over` ignores multiplicity, and some suggestions lack parentheses (all refuted with witnesses). `x @ ..` and guard patterns are not modelled.
- **C67** (partial, `P_BoolCmp.v`): `bool_comparison_value_partial`, `bool_comparison_alone`, `bool_comparison_reported`, `bool_comparison_value_refuted`, `bool_comparison_not_refuted`, `bool_comparison_float_refuted`, `bool_comparison_type_refuted`. Standing alone the suggestion always has the value of the comparison; within other operators when no operand binds looser than they do. The rest is false and refuted: parentheses of an operand are dropped, comparisons of floats are negated by the opposite comparison, and `a as T >= b` by text that does not parse.
- **C68** (partial, `P_BoolCmp.v`): `needless_bool_value_partial`, `needless_bool_return`, `needless_bool_assign_value`, `needless_bool_guard_value`, `needless_bool_statement_partial`, `needless_bool_addr_refuted`, `needless_bool_return_refuted`, `needless_bool_statement_refuted`, `needless_bool_statement_not_refuted`, `needless_bool_statement_call_refuted`. In every context but directly behind `&` (refuted) the value is kept; as a statement the text is not cut short, except in three refuted situations. Braces after `else` and comments are not modelled.
- **C70** (partial, `P_Panic.v`): `arithmetic_side_effects_silent_partial`, `arithmetic_side_effects_reported_partial`, `arithmetic_side_effects_shift_refuted`, `arithmetic_side_effects_from_zero_refuted`, `arithmetic_side_effects_division_refuted`, `arithmetic_side_effects_factor_refuted`, `arithmetic_side_effects_complement_refuted`, `arithmetic_side_effects_source_refuted`, `arithmetic_side_effects_method_refuted`, `arithmetic_side_effects_reported_refuted`. Proved outside the listed blind spots, each of which has a witness; the converse is proved for variables and literals.
- **C71** (proved, `P_Panic.v`): `eager_evaluation_has_value`, `unnecessary_lazy_unwrap_or`, `unnecessary_lazy_then`, `eager_evaluation_unchecked_refuted`. Given that the compiler does not already reject an operation on constants; without that the statement is false (refuted). References, calls, indexing and blocks are outside the expression language.
- **C72** (partial, `P_Same.v`): `spanless_eq_behaviour_partial`, `spanless_eq_same_behaviour_partial`, `spanless_eq_reflexive_partial`, `spanless_eq_order_refuted`, `spanless_eq_panic_refuted`, `spanless_eq_block_label_refuted`, `spanless_eq_operator_refuted`. Up to the order of operands, and as it stands when operands of operators only compute; without that the claim is false (refuted: order of calls, panics behind `&&`). Labelled blocks are excluded (refuted). Macros, closures, items, generic arguments, inline assembly and some rarer expressions are not modelled.
- **C73** (partial, `P_Same.v`): `eq_expr_value_harmless_partial`, `eq_expr_value_harmless_right_partial`, `eq_expr_value_operator_refuted`. For expressions whose operators are primitive; overloaded operators may do anything (refuted). Rarer expressions are not modelled.
- **C74** (partial, `P_Same.v`): `spanless_hash_partial`, `spanless_hash_refuted`, `search_same_sound`, `search_same_disjoint`, `search_same_complete`, `search_same_sorted_partial`, `search_same_order_refuted`, `search_same_pair_refuted`. The search is proved for every hash and equality. Equal expressions hash alike outside six kinds of exceptions, each with a witness; the documented order of groups is false when hashes collide (refuted).
- **C75** (partial, `P_Same.v`): `ifs_same_cond_unreachable_partial`, `ifs_same_cond_assignment_refuted`, `ifs_same_cond_method_refuted`. For conditions that are not method calls, whose operators have operands that only compute, when the conditions in between have no effects; false without (refuted).
- **C76** (partial, `P_Arms.v`): `has_overlapping_values_partial`, `struct_patterns_overlap_exact`, `has_overlapping_values_signed_refuted`, `has_overlapping_values_const_refuted`, `has_overlapping_values_self_refuted`, `has_overlapping_values_braces_refuted`. For patterns without constants, `Self`, aliases, braces on tuple and unit structs, and signed ranges without a start; each of these is false with a witness. Guards inside patterns and references to statics are not modelled.
- **C77** (partial, `P_Arms.v`): `match_same_arms_mergeable_partial`, `match_same_arms_suggestion_partial`, `match_same_arms_wildcard_partial`, `match_same_arms_group_partial`, `match_same_arms_pair_refuted`, `match_same_arms_three_refuted`, `match_same_arms_wildcard_refuted`, `match_same_arms_wildcard_guard_refuted`, `match_same_arms_signed_refuted`. Two arms can always be merged one way or the other; the way suggested is right if they do not overlap or the first is the first of all. Groups of any size are right if no other arm overlaps them. Otherwise false, with witnesses. That arms found equal agree is a hypothesis here; for expressions it is C72.
- **C78** (proved, `P_Tools.v`): `tabs_replaced`, `tabs_runs`. Offsets are unbounded in the model; the code panics above 2^32.
- **C79** (partial, `P_Tools.v`): `too_many_lines_count_partial`, `too_many_lines_nested_refuted`, `too_many_lines_string_refuted`. For bodies without strings and without comments in comments, false otherwise (witnesses). Non-ASCII white space is not modelled.
- **C80** (partial, `P_Tools.v`): `lintcheck_output`, `lintcheck_diff_places`, `lintcheck_diff_rows`, `lintcheck_diff_none`, `lintcheck_truncate`, `lintcheck_summary`, `lintcheck_order_refuted`. All of the statement; what is false is that the order of several warnings at one place does not matter (witness). Reading and writing of JSON and the printing are not modelled.
- **C81** (partial, `P_Tools.v`): `lint_groups_unambiguous_partial`, `lint_groups_suggestion_partial`, `lint_groups_least_refuted`, `lint_groups_order_lost_refuted`. Two groups of one priority are excluded. False for the least priority, and when the suggestions for two groups are applied together (witnesses). Parsing of the table is not modelled.
- **C82** (partial, `P_Tools.v`): `is_normal_dep_correct`, `multiple_crate_versions_partial`, `is_normal_dep_cycle_refuted`, `multiple_crate_versions_third_refuted`, `multiple_crate_versions_local_refuted`. For acyclic graphs and one package of the local name; false otherwise (witnesses), also when a third version is no normal dependency.
- **C83** (partial, `P_Tools.v`): `non_minimal_cfg_preserves`, `non_minimal_cfg_complete_partial`, `non_minimal_cfg_not_refuted`. The suggestions are right in full; completeness outside of `not` only (witness).
- **C84** (partial, `P_Clo.v`): `identity_function_partial`, `map_identity_partial`, `map_or_identity_partial`, `map_or_else_identity_partial`, `identity_let_else_refuted`. Every closure without `let … else`; with one the statement is false (witness). Programs that get stuck (ill-typed ones) are excluded. Type adjustments are not modelled inside identity functions.
- **C85** (partial, `P_Clo.v`): `bind_instead_of_map_partial`, `bind_return_in_guard_refuted`, `bind_labelled_block_refuted`. For bodies without labelled blocks and returns in guards; false with them (witnesses).
- **C86** (partial, `P_Clo.v`): `unnecessary_filter_map_partial`, `filter_map_labelled_refuted`, `filter_map_nested_return_refuted`, `filter_map_unnecessary_refuted`. Without labelled blocks and returns inside operands of returns, and for a parameter that is not bound again; false otherwise (witnesses).
- **C87** (partial, `P_Clo.v`): `map_unwrap_or_partial`, `map_unwrap_or_order_refuted`, `map_unwrap_or_else_exact`, `option_map_or_none_partial`, `option_map_or_none_return_refuted`, `result_map_or_else_none_exact`, `unnecessary_map_or_partial`, `unnecessary_map_or_swapped_refuted`, `manual_is_variant_and_partial`, `manual_is_variant_and_err_refuted`, `manual_is_variant_and_return_refuted`, `manual_is_variant_and_twice_refuted`, `manual_ok_or_partial`, `manual_option_zip_partial`, `manual_option_zip_order_refuted`, `or_then_unwrap_exact`. Three suggestions in full; the others under conditions whose omission is refuted with witnesses (order of effects, asymmetric comparisons, moved returns, `Err` compared).
- **C88** (partial, `P_Clo.v`): `eager_eval_pure`, `eager_eval_unused`, `unnecessary_lazy_eval_exact`, `return_and_then_partial`, `unnecessary_literal_unwrap_partial`, `literal_unwrap_err_refuted`, `literal_unwrap_dropped_refuted`, `literal_unwrap_return_refuted`, `obfuscated_if_else_partial`, `obfuscated_if_else_return_refuted`. unnecessary_lazy_evaluations in full; the others for code without moved returns and dropped effects (witnesses).
- **C89** (partial, `P_Mat.v`): `manual_map_partial`, `movable_stays`, `manual_map_wild_first_refuted`. Whenever the first arm is not `_`; with `_` first the statement is false (witness). Scrutinees that are references are not modelled.
- **C90** (partial, `P_Mat.v`): `manual_filter_partial`, `manual_filter_and_then_partial`, `manual_filter_path_refuted`, `manual_filter_negated_path_refuted`. For Copy types and closures as predicates. A predicate that is a named function gives a text that is no expression (Copy) or loses its negation (not Copy): witnesses. `mut` bindings and non-Copy closures are not covered.
- **C91** (partial, `P_Mat.v`): `manual_unwrap_or_partial`, `manual_ok_err_keeps`, `manual_unwrap_or_at_refuted`. manual_ok_err in full; manual_unwrap_or without `x @ p` patterns (false with them, witness), and where the default value of the type is the one recognised.
- **C92** (partial, `P_Mat.v`): `option_if_let_else_partial`, `option_if_let_else_wild_first_refuted`, `option_if_let_else_ctor_refuted`, `if_then_some_else_none_partial`, `if_then_some_break_refuted`. Without `_` as first arm, a constructor call `C()` as the other value, and `break` in the block; false with them (witnesses).
- **C93** (partial, `P_Tail.v`): `needless_return_fn_partial`, `needless_return_closure_partial`, `needless_return_type_refuted`, `let_and_return_partial`, `let_and_return_ref_refuted`. A suggestion may turn a unit statement into a value of another type, and a `ref` binding into a value; both false with witnesses, the rest is proved. Temporaries and drop order are not modelled.
- **C94** (proved, `P_Tail.v`): `question_let_else_keeps`, `return_question_keeps`. Given that the initializer is an Option and the compiler is right that the inner pattern is irrefutable. Temporaries and scrutinees that are references are not modelled.
- **C95** (partial, `P_Tail.v`): `question_if_is_partial`, `question_if_let_partial`, `question_match_partial`, `question_if_is_stays_refuted`, `question_if_is_nothing_refuted`, `question_if_is_some_refuted`, `question_if_is_as_ref_refuted`, `question_if_let_body_refuted`, `question_if_let_name_refuted`, `question_if_let_nothing_refuted`, `question_match_ref_refuted`. Where the branch really leaves with the error, nothing of the other branch is dropped and dropped bindings are by value; each of these is not checked by the lint and false without it (witnesses).
- **C96** (proved, `P_Pick.v`): `match_bool_keeps`, `matches_macro_keeps`. Given what the compiler checks: the scrutinee is a bool, guards aside the arms are exhaustive.
- **C97** (partial, `P_Pick.v`): `if_let_variant_keeps`, `matches_true_keeps`, `match_variant_partial`, `match_variant_guard_refuted`. if-let and `matches!(e, true)` in full; the match form without a guard on an arm with `false` (false with one, witness). Poll and IpAddr are not modelled.
- **C98** (partial, `P_Pick.v`): `needless_match_partial`, `needless_if_let_partial`, `needless_if_let_literal_refuted`, `needless_if_let_effect_refuted`, `needless_match_statement_refuted`. Where only None reaches an `else` with None, the scrutinee of a longer chain has no effects and statements are not taken for values; the lint checks none of these and each is false without it (witnesses).
- **C99** (proved, `P_Pick.v`): `single_match_keeps`. Given that PartialEq is derived where `==` is suggested, which the lint checks, and that the arms are exhaustive.
- **C100** (partial, `P_Pick.v`): `collapsible_guard_partial`, `collapsible_if_let_partial`, `collapsible_match_partial`, `collapsible_guard_exhaustive_refuted`, `collapsible_guard_statement_refuted`, `collapsible_match_between_refuted`, `collapsible_match_guard_refuted`. Where values that fail the new guard or pattern get to the arm of the `else`, names are distinct and the arm that looks further has no guard; the lint checks none of these and each is false without it (witnesses).
- **C101** (partial, `P_Pick.v`): `redundant_guards_partial`, `redundant_guards_subpattern_refuted`, `redundant_guards_user_eq_refuted`, `redundant_guards_inner_guard_refuted`, `redundant_guards_capture_refuted`. For bindings without subpattern, distinct names and structural equality; false otherwise (witnesses). Guards that are method calls are not modelled.
- **C102** (partial, `P_Iter.v`): `iter_adaptors_partial`. For functions that return an Option where the types say so, identity closures without `let … else`, and programs that do not get stuck. `skip`, `take` and `enumerate` are not asked from the back. Cloning has no effects in the model; `inspect` and lints on other adaptors are not modelled.
- **C103** (partial, `P_Iter.v`): `iter_consumers_exact`, `iter_cloned_end_partial`, `map_all_any_identity_partial`, `double_ended_last_partial`, `double_ended_last_effects_refuted`. Six lints in full; `cloned()` and the identity for programs that do not get stuck; `last()` on iterators without effects (false with them, witness).
- **C104** (partial, `P_Iter.v`): `search_is_some_partial`. For `position` in full; for `find` with a closure whose parameter is `&p` or `_`. The rewriting of other closures is not modelled; a path given to `find` is kept and does not compile with `any`.
- **C105** (partial, `P_Iter.v`): `fold_bool_partial`, `fold_number_partial`, `fold_any_effects_refuted`, `fold_any_swapped_refuted`, `fold_any_accumulator_refuted`. any/all on iterators without effects where the accumulator stands on the left and is used once; each is needed (witnesses). sum/product given commutative + and *; overflow is not modelled.
- **C106** (partial, `P_Iter.v`): `manual_filter_map_method_partial`, `manual_find_map_method_partial`, `manual_filter_map_pattern_partial`, `manual_find_map_pattern_partial`, `option_filter_map_partial`, `filter_map_bool_then_partial`, `manual_filter_map_subpattern_refuted`, `manual_filter_map_guard_refuted`, `manual_filter_map_argument_refuted`, `option_filter_map_name_refuted`, `filter_map_bool_then_assigns_refuted`. Where the dropped arguments have no effects, the pattern of `matches!` has only `_` inside and no guard, the functions are the library's, and the condition assigns no variable of the item; the lints check none of these and each is false without it (witnesses). Receivers other than the parameter are not modelled.
- **C107** (partial, `P_Iter.v`): `unused_enumerate_for_exact`, `manual_flatten_partial`, `manual_find_partial`, `manual_find_assigns_refuted`. unused_enumerate_index in full. manual_flatten for loops that end, given that the compiler is right about the pattern. manual_find where the condition does not assign the item (false otherwise, witness) and without subpatterns.
- **C108** (partial, `P_Iter.v`): `needless_collect_len_exact`, `needless_collect_partial`, `needless_collect_capture_refuted`, `needless_collect_effects_refuted`, `needless_collect_argument_refuted`. len in full; the others on iterators without effects and for arguments that only have a value and do not use the name `x` (each false without, witnesses). Vectors bound to a variable first are not modelled.
- **C109** (proved, `P_Str.v`): `str_splitn_exact`, `split_once_indirect_exact`. In full for the forms modelled; iterators kept in variables only for the two `let`s the lint itself looks for.
- **C110** (partial, `P_Str.v`): `manual_strip_partial`, `manual_strip_inclusive_refuted`, `manual_strip_pattern_assigned_refuted`, `manual_strip_shadow_refuted`. For blocks of any form where the new name does not clash, the pattern is not assigned and no slice is inclusive; the lint checks none of these and each is needed (witnesses). The slices inside closures are not visited.
- **C111** (partial, `P_Str.v`): `trim_split_whitespace_exact`, `str_split_partial`, `str_split_empty_refuted`, `str_split_crlf_refuted`. trim_split_whitespace in full. str_split for strings that are not empty, are trimmed, and have one kind of line end (false otherwise, witnesses).
- **C112** (partial, `P_Str.v`): `collapsible_str_replace_partial`, `collapsible_str_replace_again_refuted`, `collapsible_str_replace_between_refuted`. For direct chains of any length where the replacement has none of the characters replaced later (false otherwise, witnesses).
- **C113** (partial, `P_Str.v`): `single_char_pattern_exact`, `search_is_some_str_exact`, `manual_pattern_char_comparison_partial`, `manual_pattern_char_both_sides_refuted`. single_char_pattern and search_is_some in full. Closures where the parameter stands on one side of each comparison (false otherwise, witness) and its other variables are not assigned by later arguments (the borrow checker's rule).
- **C114** (partial, `P_Str.v`): `chars_next_last_cmp_partial`, `chars_cmp_unwrap_refuted`, `chars_cmp_order_refuted`. Where the other side is a character, is a literal if it stands first, and the unwrapped side does not panic; the last two are needed (witnesses).
- **C115** (partial, `P_Str.v`): `manual_is_ascii_check_exact`, `manual_ignore_case_cmp_partial`, `manual_ignore_case_cmp_literal_refuted`. manual_is_ascii_check in full. manual_ignore_case_cmp where a literal is in the case compared (false otherwise, witness).
- **C116** (partial, `P_Str.v`): `bytes_nth_exact`, `bytes_count_to_len_exact`, `needless_as_bytes_exact`, `get_first_exact`, `sliced_string_as_bytes_partial`, `get_last_with_len_partial`, `sliced_string_as_bytes_boundary_refuted`, `get_last_with_len_empty_refuted`. In full but for two lints whose suggestions do not panic where the original does (witnesses).
- **C117** (proved, `P_Str.v`): `repeat_once_exact`, `manual_str_repeat_exact`, `str_lints_anywhere`. In full; suggestions inside the closures of patterns are left out of the last.
- **C118** (partial, `P_Blk.v`): `collapsible_if_keeps`, `collapsible_else_if_partial`, `collapsible_else_if_refuted`, `needless_else_keeps`, `needless_ifs_keeps`, `if_not_else_keeps`, `blocks_in_conditions_braces_keeps`, `blocks_in_conditions_let_partial`, `blocks_in_conditions_let_refuted`. In full but for collapsible_else_if where the inner `if` has a `;` and a value other than `()`, and blocks_in_conditions where the name `res` is used (both false, witnesses). needless_if is relative to what can_have_side_effects says.
- **C119** (partial, `P_Blk.v`): `redundant_else_tail_keeps`, `redundant_else_stmt_keeps`, `redundant_else_stmt_refuted`. Where the suggestion is marked machine-applicable, or names declared in the block are not used after it (false otherwise, witness). Relative to the types: what has type `!` yields no value.
- **C120** (partial, `P_Blk.v`): `needless_late_init_partial`, `needless_late_init_refuted`, `useless_let_if_seq_partial`, `useless_let_if_seq_refuted`, `manual_let_else_partial`, `manual_let_else_refuted`, `redundant_locals_keeps`. redundant_locals in full. The others where the suggestion does not capture names; let_if_seq where the first value is a literal; each restriction has a witness. Groups of several late-initialised variables are not modelled.
- **C121** (partial, `P_Blk.v`): `assign_op_pattern_keeps`, `misrefactored_assign_op_partial`, `misrefactored_assign_op_first_refuted`, `manual_swap_partial`, `manual_swap_refuted`, `manual_swap_index_refuted`, `xor_swap_partial`, `xor_swap_refuted`, `almost_swapped_warns`. assign_op_pattern and almost_swapped in full; swaps where the temporary is not used later, indices do not read the vector, and (xor) differ: false otherwise (witnesses). Integers do not overflow here; places are variables and vector elements.
- **C122** (partial, `P_Blk.v`): `single_element_loop_keeps`, `manual_while_let_some_partial`, `manual_while_let_some_refuted`, `manual_while_let_some_name_refuted`, `while_let_loop_partial`, `while_let_loop_refuted`, `while_let_loop_label_refuted`. single_element_loop in full (for arrays). The others where the suggestion captures no names, the loop has no label, and nothing is evaluated in another order; witnesses for each.
- **C123** (partial, `P_Blk.v`): `needless_continue_last_keeps`, `needless_continue_merge_partial`, `needless_continue_merge_refuted`. Dropping the last continue in full; merging where names declared in the branch are not used after it (false otherwise, witness).
- **C124** (proved, `P_Blk.v`): `replaced_anywhere`, `replaced_anywhere_ok`, `exact_fixes_keep`. In full, for any relation that keeps meaning.
- **C125** (partial, `P_BlkCounter.v`): `explicit_counter_loop_partial`, `explicit_counter_loop_label_refuted`, `explicit_counter_loop_and_refuted`, `explicit_counter_loop_alone_refuted`, `explicit_counter_loop_start_refuted`. For counters started with a literal, not standing on their own after the increment, and not changed in labelled blocks or on the right of && and ||: false otherwise (a witness for each). Integers do not overflow here.
- **C126** (partial, `P_Unw.v`): `unwrap_verdicts_partial`, `unwrap_reported_partial`, `unwrap_as_mut_refuted`, `unwrap_condition_refuted`. Where methods named as_mut are those of Option and Result: the lint exempts any method of that name, and is wrong for one that resets the field (witness). Reports are complete but for calls that are themselves a condition (witness). Closures, overloaded dereferencing and unions are not modelled.
- **C127** (partial, `P_Mem.v`): `manual_memcpy_partial`, `manual_memcpy_empty_refuted`, `manual_memcpy_let_refuted`, `manual_memcpy_compound_refuted`, `manual_memcpy_order_refuted`, `manual_memcpy_inclusive_refuted`, `manual_memcpy_field_refuted`, `manual_memcpy_counter_refuted`. For loops that go round, whose body only assigns elements of different arrays and increments counters, and whose sums do not overflow. Each condition is needed, with a witness: empty ranges panic in the suggestion, declarations and compound assignments to elements are dropped, copies that depend on each other are reordered, an inclusive range up to a length loses its last element, lengths of fields are confused, and limits with counters can overflow. Types of elements and how suggestions are printed are not modelled.
- **C128** (partial, `P_Eff.v`): `no_effect_partial`, `no_effect_underscore_binding_partial`, `no_effect_nested_refuted`, `no_effect_index_refuted`, `no_effect_underscore_binding_refuted`, `no_effect_closure_refuted`, `no_effect_panic_refuted`. Without overloaded operators, and if closures capture nothing with a destructor: nothing is called or dropped, and nothing panics unless it indexes or computes. Each condition is needed, with a witness: nested overloaded operators, overloaded indexing, any overloaded operator for bindings, closures that capture values, and indices and divisions that panic. Fields are only copied, not moved, in the model.
- **C129** (partial, `P_Eff.v`): `unnecessary_operation_partial`, `unnecessary_index_partial`, `unnecessary_panic_refuted`, `unnecessary_overloaded_refuted`, `unnecessary_order_refuted`, `unnecessary_moved_refuted`. Without overloaded operators and destructors: the same calls in the same order, and the same panics unless the operators removed panic. Each condition is needed, with a witness: panics of the operators removed, bounds checks behind a reference, nested overloaded operators and overloaded indexing, results dropped earlier, and x.0 becoming x, which drops x.
- **C130** (partial, `P_Bsh.v`): `branches_sharing_code_partial`, `branches_sharing_end_partial`, `branches_sharing_condition_refuted`, `branches_sharing_name_refuted`, `branches_sharing_overlap_refuted`. Moving code to the end in full if nothing is moved to the start. Code at the start where the conditions only compute, mention no name that is moved, and no statement of a branch is counted twice; each is needed (witnesses: a condition that calls a function, a moved declaration that captures a name of the condition, and a short branch whose one statement counts as its start and as its end). Macros and destructors are not modelled; whether a use modifies a variable is taken from the statement.
- **C131** (proved, `P_Bsh.v`): `match_sharing_code`. In full for the language modelled; patterns are numbers, the last binds a name. Destructors, because of which the lint does not mark the suggestion as machine-applicable, are not modelled.
- **C132** (partial, `P_Rcu.v`): `only_used_in_recursion_partial`, `only_used_in_recursion_lazy_refuted`, `only_used_in_recursion_panic_refuted`. Where built-in operators do not panic, and no reported parameter stands left of && or ||, whose right side may call functions; false otherwise (witnesses). One function without nested ones; all values are of primitive type, so that there are no destructors and no overloaded operators.
- **C133** (partial, `P_Rng.v`): `needless_range_loop_partial`, `needless_range_loop_short_refuted`, `needless_range_loop_inclusive_refuted`, `needless_range_loop_rows_refuted`, `needless_range_loop_assigned_refuted`, `needless_range_loop_selected_refuted`, `needless_range_loop_order_refuted`. Where the range ends within the sequence, its bounds have no effect, the variable of the loop and the variable that selects a row are not assigned, and a length that is compared is that of the sequence itself. Each is needed, with a witness. v[i][k], ranges without end, and borrows are not modelled.
- **C134** (partial, `P_Asr.v`): `missing_asserts_silent_partial`, `missing_asserts_reported_partial`, `missing_asserts_add_partial`, `missing_asserts_through_zero_refuted`, `missing_asserts_branch_refuted`, `missing_asserts_assigned_refuted`, `missing_asserts_add_branch_refuted`. For texts without branches in which no slice is assigned, and, for silence, without v[..=0]; false otherwise (witnesses). Effects before a panic are not modelled.
- **C135** (partial, `P_Asr.v`): `missing_asserts_replace_partial`, `missing_asserts_equal_partial`, `missing_asserts_less_refuted`, `missing_asserts_equal_refuted`. For > and >= in texts without branches; code whose == is replaced always panics. False for ==, < and <= (witnesses).
- **C136** (partial, `P_Whl.v`): `while_immutable_rewrite_partial`, `while_immutable_endless_partial`, `while_immutable_overloaded_refuted`, `while_immutable_continue_refuted`. Where the condition has no overloaded operator, and, for loops that never end, no outer loop is continued from within; false otherwise (witnesses). Panics and processes that exit are not modelled.
- **C137** (partial, `P_Inf.v`): `infinite_loop_partial`, `infinite_loop_outer_refuted`, `infinite_loop_value_refuted`. Where breaks have no labels from outside the loop and their values do not jump; false otherwise (witnesses). Panics and processes that exit are not modelled.
- **C138** (partial, `P_Sip.v`): `same_item_partial`, `same_item_resize_partial`, `same_item_let_refuted`, `same_item_tail_refuted`, `same_item_lazy_refuted`. Where the vector is not used in let statements or at the end of blocks, and, for the number of copies, the body has neither && nor break; false otherwise (witnesses).
- **C139** (partial, `P_Wli.v`): `while_let_by_ref_partial`, `while_let_by_move_partial`, `while_let_index_refuted`, `while_let_deref_refuted`, `while_let_closure_refuted`. Where the loop leaves alone the indices that select the iterator, the iterator is not written as a dereference, and, if it is moved, the loop is in no closure; false otherwise (witnesses). When the iterator is dropped, and items that are no local variables, are not modelled.
- **C140** (partial, `P_Iit.v`): `infinite_iter_partial`, `infinite_iter_cycle_refuted`, `infinite_iter_sum_refuted`, `infinite_iter_flat_map_refuted`. Where cycle() is called on iterators that have an item and sum() does not make an Option or a Result; false otherwise (witnesses). Numbers do not overflow in the model; rev and closures with state are not modelled.
- **C141** (partial, `P_Ent.v`): `map_entry_partial`, `map_entry_assigned_refuted`, `map_entry_call_refuted`, `map_entry_closure_refuted`, `map_entry_moved_refuted`. Proved where the key is a variable that is not assigned, no closure inserts, and a key that is not Copy is not used otherwise unless there is an else. Refuted without each of these, with witnesses.
- **C142** (partial, `P_Cnr.v`): `never_read_partial`, `never_read_panic_refuted`, `never_read_argument_refuted`, `never_read_closure_refuted`. Proved where the methods called on the collection tell nothing of what it holds but by what they return: they panic, write to their arguments and call closures alike. Refuted without each of these, with witnesses.
- **C143** (partial, `P_Mrw.v`): `mixed_read_write_partial`, `mixed_read_write_apart_partial`, `mixed_write_write_refuted`, `mixed_read_ref_refuted`. Proved where no two operands of an expression both write to a variable, and no variable that is written is read behind &; refuted otherwise, with witnesses. Closures and calls with effects are not modelled.
- **C144** (partial, `P_Srt.v`): `sort_by_partial`, `sort_by_cast_refuted`, `sort_by_path_refuted`, `sort_by_at_refuted`. Proved where patterns have no @, and the two expressions have as many elements, arguments and segments and cast to the same types; refuted for casts to different types, paths of different lengths and patterns with @, with witnesses. Patterns of structs and slices are not modelled.
- **C145** (partial, `P_Sci.v`): `set_insert_partial`, `set_insert_loop_refuted`, `set_insert_assigned_refuted`, `set_insert_owner_refuted`. Proved where the insert is not in a loop or closure, the key is not assigned and no struct that holds the set is borrowed; refuted without each of these, with witnesses.
- **C146** (partial, `P_Mco.v`): `manual_checked_partial`, `manual_checked_first_partial`, `manual_checked_second_refuted`, `manual_checked_assigned_refuted`, `manual_checked_dividend_refuted`. Proved for every division where the variables of the divisor are not assigned, and for the first division by a variable outside of loops whose dividend does not assign it; refuted for later divisions, divisors whose parts are assigned and dividends that assign, with witnesses. Closures are not modelled.
- **C147** (partial, `P_Svi.v`): `slow_init_partial`, `slow_init_other_capacity_refuted`, `slow_init_capacity_refuted`, `slow_init_self_refuted`, `slow_init_call_refuted`, `slow_init_match_refuted`. Proved where the allocation is what the first statement is, and the size has no calls and asks neither the vector itself nor a capacity; refuted without each of these, with witnesses. Blocks within the first statement are not modelled.
- **C148** (partial, `P_Msf.v`): `slice_fill_partial`, `slice_fill_index_refuted`, `slice_fill_value_refuted`. Proved for loops over elements, and for loops over indices whose variable is the index; refuted where the index is another variable, which is not checked, with witnesses.
- **C149** (partial, `P_Vip.v`): `init_then_push_reports`, `init_then_push_partial`, `init_then_push_self_refuted`, `init_then_push_match_refuted`. What is reported is proved in full. That vec![..] is the same is proved where the vector is made by the statement itself and no item asks it; refuted without each of these, with witnesses. Blocks within statements are not modelled.
- **C150** (partial, `P_Ilm.v`): `if_let_mutex_reports`, `if_let_mutex_found_partial`, `if_let_mutex_deadlocks_partial`, `if_let_mutex_statement_refuted`, `if_let_mutex_branch_refuted`, `if_let_mutex_drop_refuted`, `if_let_mutex_missed_refuted`. What is reported is proved in full. That the second lock is never passed is proved where the first is always reached and kept; that all are found, where what is matched locks one mutex only; refuted without each of these, with witnesses. Closures are not modelled.
- **C151** (partial, `P_Poc.v`): `overflow_check_reports`, `overflow_check_never_true`, `overflow_check_wrapping`, `overflow_check_found_partial`, `overflow_check_missed_refuted`. What is reported, that it is never true with overflow checks, and what it is without, are proved in full. That every such condition is reported is proved but where a sum is asked whether something can be taken from it; refuted there, with a witness. Macros are not modelled.

## Which parts of the code are modelled

Taken from the citations in the files; what a definition leaves out is said in its comment. Code not listed is not modelled.

- `ArithModel.v`: clippy_utils/src/lib.rs:1352-1359; clippy_lints/src/operators/manual_div_ceil.rs; manual_div_ceil.rs:104-118; manual_div_ceil.rs:124-130; manual_div_ceil.rs:141-197; manual_div_ceil.rs:27-36; manual_div_ceil.rs:38-47; manual_div_ceil.rs:49-57; manual_div_ceil.rs:59-67; manual_div_ceil.rs:69-75; manual_div_ceil.rs:16-100; clippy_lints/src/manual_is_power_of_two.rs; manual_is_power_of_two.rs:97-108; manual_is_power_of_two.rs:111-126; manual_is_power_of_two.rs:129-132; manual_is_power_of_two.rs:70-92; clippy_lints/src/manual_abs_diff.rs; manual_abs_diff.rs:117-148; manual_abs_diff.rs:57-95; clippy_lints/src/manual_rem_euclid.rs; manual_rem_euclid.rs:117-127; manual_rem_euclid.rs:106-115; manual_rem_euclid.rs:51-101; clippy_lints/src/operators/manual_is_multiple_of.rs; clippy_utils/src/consts.rs:1183-1185; manual_is_multiple_of.rs:58-80; manual_is_multiple_of.rs:14-55; clippy_lints/src/operators/manual_isolate_lowest_one.rs; manual_isolate_lowest_one.rs:128-132; clippy_lints/src/operators/manual_midpoint.rs; manual_midpoint.rs:13-60
- `ArmsModel.v`: clippy_lints/src/matches/match_same_arms.rs; match_same_arms.rs:184-211
- `AsrModel.v`: clippy_lints/src/missing_asserts_for_indexing.rs
- `AsrSpec.v`: clippy_lints/src/missing_asserts_for_indexing.rs
- `BlkModel.v`: higher.rs:74-82; collapsible_if.rs; needless_else.rs:39-60; needless_ifs.rs:40-83; if_not_else.rs:52-136; blocks_in_conditions.rs:55-152; redundant_else.rs; needless_late_init.rs; manual_let_else.rs; let_if_seq.rs; redundant_locals.rs:50-95; loops/while_let_loop.rs; loops/single_element_loop.rs:14-84, 137-148; visitors.rs:842-851; loops/manual_while_let_some.rs:61-105; loops/utils.rs; lib.rs:1128-1139; explicit_counter_loop.rs:18-125; swap.rs; operators/assign_op_pattern.rs:20-124; operators/misrefactored_assign_op.rs:11-71; needless_continue.rs
- `BoolCmpModel.v`: clippy_lints/src/bool_comparison.rs; clippy_lints/src/needless_bool.rs; bool_comparison.rs:169-178; needless_bool.rs:344-352; bool_comparison.rs:102-149; bool_comparison.rs:39-99; needless_bool.rs:109-124; clippy_utils/src/lib.rs:3370-3377; clippy_utils/src/lib.rs:3363-3368; needless_bool.rs:307-310; needless_bool.rs:139-166; clippy_utils/src/lib.rs:3393-3401; needless_bool.rs:168-191; needless_bool.rs:193-205; needless_bool.rs:269-283
- `BoolModel.v`: clippy_lints/src/booleans.rs; booleans.rs:255-265; booleans.rs:296-319; booleans.rs:240-327; booleans.rs:472-492; booleans.rs:494-526; booleans.rs:84-89; booleans.rs:400-460; booleans.rs:337-397; booleans.rs:541-552; booleans.rs:556-598; booleans.rs:198-237; booleans.rs:529-632; booleans.rs:128-196
- `BshModel.v`: clippy_lints/src/ifs/branches_sharing_code.rs; branches_sharing_code.rs:265-278; branches_sharing_code.rs:282-307; branches_sharing_code.rs:331-350; branches_sharing_code.rs:380-396; branches_sharing_code.rs:398-449; branches_sharing_code.rs:309-470; branches_sharing_code.rs:24-104; branches_sharing_code.rs:124-195
- `BshSpec.v`: clippy_lints/src/ifs/branches_sharing_code.rs
- `CamelModel.v`: clippy_utils/src/str_utils.rs; str_utils.rs:3-14; str_utils.rs:25-57; str_utils.rs:84-121; str_utils.rs:70-72; str_utils.rs:136-148; str_utils.rs:156-166; str_utils.rs:192-206; str_utils.rs:218-237; str_utils.rs:247-261; str_utils.rs:270-290
- `CamelSpec.v`: str_utils.rs
- `CargoModel.v`: lint_groups_priority.rs; lint_groups_priority.rs:21-34; lint_groups_priority.rs:57-119; lint_groups_priority.rs:105-115; multiple_crate_versions.rs; multiple_crate_versions.rs:60-68; multiple_crate_versions.rs:59-74; multiple_crate_versions.rs:17-31; multiple_crate_versions.rs:11-57
- `CastModel.v`: utils.rs:6-13; clippy_utils/src/ty/mod.rs:457-459; cast_possible_truncation.rs; cast_possible_truncation.rs:17-23; cast_possible_truncation.rs:25-27; cast_possible_truncation.rs:29-85; cast_possible_truncation.rs:104-117; cast_possible_truncation.rs:87-124; cast_possible_wrap.rs; cast_possible_wrap.rs:14-20; cast_possible_wrap.rs:11-12; cast_possible_wrap.rs:29-82; cast_possible_wrap.rs:84-90; cast_sign_loss.rs; cast_sign_loss.rs:138-143; cast_sign_loss.rs:108-121; cast_sign_loss.rs:123-136; cast_sign_loss.rs:23-31; cast_sign_loss.rs:37; cast_sign_loss.rs:195-211; cast_sign_loss.rs:145-177; cast_sign_loss.rs:290-329; cast_sign_loss.rs:339-365; cast_sign_loss.rs:218-243; cast_sign_loss.rs:249-278; cast_sign_loss.rs:79-106; mod.rs:920-926; cast_abs_to_unsigned.rs; cast_abs_to_unsigned.rs:12-44; cast_lossless.rs; cast_precision_loss.rs; cast_lossless.rs:79-110; cast_precision_loss.rs:9-24; clippy_utils/src/ty/mod.rs:921-924; utils.rs:15-22; utils.rs:26-47; utils.rs:24-61; ty/mod.rs:925-933; ty/mod.rs:948-958; cast_possible_truncation.rs:126-149; checked_conversions.rs; clippy_lints/src/checked_conversions.rs:303-316; checked_conversions.rs:106-112; checked_conversions.rs:98-104; checked_conversions.rs:223-276; checked_conversions.rs:177-191; checked_conversions.rs:195-201; checked_conversions.rs:204-220; checked_conversions.rs:130-154; checked_conversions.rs:116-126; checked_conversions.rs:72-76; checked_conversions.rs:50-102
- `CfgModel.v`: clippy_lints/src/attrs/non_minimal_cfg.rs; non_minimal_cfg.rs:17-56
- `ClampModel.v`: clippy_lints/src/manual_clamp.rs; manual_clamp.rs:134-139; manual_clamp.rs:115-130; manual_clamp.rs:606-637; manual_clamp.rs:784-816; manual_clamp.rs:674-709; manual_clamp.rs:659-758; manual_clamp.rs:265-299; manual_clamp.rs:309-338; manual_clamp.rs:348-429; manual_clamp.rs:142-161; manual_clamp.rs:443-490; manual_clamp.rs:501-552; manual_clamp.rs:565-602
- `CliModel.v`: src/main.rs; src/driver.rs; main.rs:55-59; main.rs:70-85; main.rs:62-97; main.rs:113-116; main.rs:111-124; main.rs:99-109; main.rs:27-53; main.rs:141-145; driver.rs:33-47; driver.rs:50-54; driver.rs:210-223; driver.rs:228-234; driver.rs:275-290; driver.rs:292-304; driver.rs:196-313
- `CloModel.v`: clippy_utils/src/lib.rs; visitors.rs; eager_or_lazy.rs; clippy_utils/src/visitors.rs; lib.rs:1116-1125; visitors.rs:195-205; usage.rs:197-206; lib.rs:1236-1250; lib.rs:302-304; lib.rs:1899-1955; lib.rs:1806-1888; lib.rs:1819-1833; lib.rs:1962-1975; map_identity.rs:15-83; map_or_identity.rs:14-36; unnecessary_map_or_else.rs:14-39; visitors.rs:238-278; visitors.rs:207-288; bind_instead_of_map.rs:14-55; bind_instead_of_map.rs:86-114; bind_instead_of_map.rs:157-194; unnecessary_filter_map.rs:111-155; unnecessary_filter_map.rs:34-43; unnecessary_filter_map.rs:33-43; unnecessary_filter_map.rs:16-84; option_map_or_none.rs:15-30; option_map_or_none.rs:33-105; result_map_or_else_none.rs:14-42; map_unwrap_or.rs:21-143; map_unwrap_or_else.rs:16-68; eager_or_lazy.rs:115-318, 321-323; unnecessary_map_or.rs:41-46; unnecessary_map_or.rs:49-57; unnecessary_map_or.rs:65-117; unnecessary_map_or.rs:124-248; manual_is_variant_and.rs:149-167; manual_is_variant_and.rs:172-212; manual_is_variant_and.rs:242-302; manual_is_variant_and.rs:48-99, 214-240, 242-302, 304-342, 345-372; manual_ok_or.rs:12-44, 47-70; manual_option_zip.rs:16-61, 70-85; or_then_unwrap.rs:12-62; unnecessary_literal_unwrap.rs:27-143; obfuscated_if_else.rs:13-84; return_and_then.rs:18-97; unnecessary_lazy_eval.rs:15-107; mod.rs
- `CmpModel.v`: clippy_utils/src/comparisons.rs; bit_mask.rs; bit_mask.rs:133-137; bit_mask.rs:139-167; bit_mask.rs:169-174, 191-199; bit_mask.rs:176-182; bit_mask.rs:207-215; bit_mask.rs:61-109; bit_mask.rs:31-44; bit_mask.rs:54-59; bit_mask.rs:13-118; verbose_bit_mask.rs:11-45; comparisons.rs:9-18; absurd_extreme_comparisons.rs; absurd_extreme_comparisons.rs:49-63; absurd_extreme_comparisons.rs:121-141; absurd_extreme_comparisons.rs:65-74; absurd_extreme_comparisons.rs:76-119; invalid_upcast_comparisons.rs; invalid_upcast_comparisons.rs:35-65; invalid_upcast_comparisons.rs:67-106; invalid_upcast_comparisons.rs:16-33; identity_op.rs; identity_op.rs:203-220; identity_op.rs:166-189; identity_op.rs:191-201; identity_op.rs:14-84; erasing_op.rs:11-55; const_comparisons.rs; const_comparisons.rs:167-206; const_comparisons.rs:20-38; const_comparisons.rs:133-150; const_comparisons.rs:152-159; const_comparisons.rs:40-131; double_comparison.rs:11-72; int_plus_one.rs; int_plus_one.rs:65-80; int_plus_one.rs:83-97; int_plus_one.rs:99-110; int_plus_one.rs:112-127
- `CnrModel.v`: clippy_lints/src/collection_is_never_read.rs
- `CnrSpec.v`: clippy_lints/src/collection_is_never_read.rs
- `ConfModel.v`: conf.rs; de.rs; types.rs; clippy_utils/src/msrvs.rs; msrvs.rs; msrvs.rs:257-263; msrvs.rs:220-223; msrvs.rs:225-232; msrvs.rs:235-237; msrvs.rs:149-151, 157-159; msrvs.rs:239-241; msrvs.rs:243-248; msrvs.rs:250-254; msrvs.rs:138-143; msrvs.rs:118-124; msrvs.rs:149-151; msrvs.rs:198-215; msrvs.rs:265-288; conf.rs:956-972; de.rs:484-516; de.rs:493-508; conf.rs:74-219; conf.rs:213-216; conf.rs:106-112; conf.rs:97-99; conf.rs:94, 101-103; conf.rs:95; conf.rs:64-72; conf.rs:158-193; conf.rs:147-195; conf.rs:144-204; conf.rs:221-830; conf.rs:863-929; conf.rs:907-912; conf.rs:893-918; conf.rs:891-928; conf.rs:869-882; de.rs:57-66; de.rs:69-167; de.rs:101-109; de.rs:129-143; de.rs:128-145; de.rs:120-147; de.rs:150-160; types.rs:443-706; types.rs:443-463; types.rs:465-489; types.rs:508-530; types.rs:549-618; types.rs:619-704
- `ConstModel.v`: clippy_utils/src/consts.rs; clippy_utils/src/lib.rs; clippy_utils/src/lib.rs:1655-1658; clippy_utils/src/lib.rs:1662-1665; clippy_utils/src/lib.rs:1668-1672; clippy_utils/src/consts.rs:34-68; consts.rs:75-78; consts.rs:80-125; consts.rs:988-1028; consts.rs:1029-1056; consts.rs:1071-1084; consts.rs:983-1100; consts.rs:724-738; consts.rs:740-762; consts.rs:622-691; consts.rs:772-905; consts.rs:1103-1108; consts.rs:846-883; consts.rs:575-580; consts.rs:1168-1174; consts.rs:459-463; consts.rs:483-498; consts.rs:267-277; consts.rs:501-517; consts.rs:588-593; consts.rs:213-220
- `DevModel.v`: clippy_utils/src/mir/transitive_relation.rs; clippy_dev/src/utils.rs:150-194; utils.rs:155-168; utils.rs:169-194; clippy_dev/src/utils.rs:195-266; utils.rs:207-217; utils.rs:200-218; utils.rs:232-260; clippy_dev/src/release.rs:16-28; utils.rs:342-431; release.rs:12-29; utils.rs:281-296; clippy_dev/src/utils.rs:433-456; clippy_dev/src/utils.rs:558-617; utils.rs:582-604; clippy_dev/src/utils.rs:654-673; clippy_dev/src/edit_lints.rs; parse.rs:198-300; edit_lints.rs:177-190; edit_lints.rs:22-44; edit_lints.rs:46-78; edit_lints.rs:96-147; new_lint.rs; parse.rs:352-366; edit_lints.rs:193-300; edit_lints.rs:302-317; edit_lints.rs:161-174; clippy_dev/src/fmt.rs:248-282; clippy_dev/src/fmt.rs:52-65; clippy_dev/src/generate.rs:142-163; clippy_utils/src/mir/transitive_relation.rs:5-28
- `DiffModel.v`: lintcheck/src/json.rs; json.rs:20-28; json.rs:31-33; json.rs:107; json.rs:129; json.rs:130; json.rs:186-191; json.rs:132-153; json.rs:77-88; json.rs:167-176; json.rs:266-278
- `DurModel.v`: clippy_lints/src/duration_suboptimal_units.rs; duration_suboptimal_units.rs:150-165; duration_suboptimal_units.rs:168-204; clippy_utils/src/msrvs.rs; duration_suboptimal_units.rs:206-218; duration_suboptimal_units.rs:63-72; duration_suboptimal_units.rs:128-143; duration_suboptimal_units.rs:121-146; duration_suboptimal_units.rs:75-113
- `EffModel.v`: clippy_lints/src/no_effect.rs; clippy_utils/src/lib.rs; no_effect.rs:206-222; no_effect.rs:225-228; no_effect.rs:230-271; no_effect.rs:333-402; no_effect.rs:89-94; no_effect.rs:184-201
- `EffSpec.v`: clippy_lints/src/no_effect.rs
- `EntModel.v`: clippy_lints/src/entry.rs
- `EntSpec.v`: clippy_lints/src/entry.rs
- `IitModel.v`: clippy_lints/src/infinite_iter.rs
- `IitSpec.v`: clippy_lints/src/infinite_iter.rs
- `IlmModel.v`: clippy_lints/src/if_let_mutex.rs
- `IlmSpec.v`: clippy_lints/src/if_let_mutex.rs
- `InfModel.v`: clippy_lints/src/loops/infinite_loop.rs
- `InfSpec.v`: clippy_lints/src/loops/infinite_loop.rs
- `IterModel.v`: methods/map_identity.rs:15-83; methods/flat_map_identity.rs:12-30; methods/filter_map_identity.rs:11-49; methods/map_flatten.rs:14-80; methods/flat_map_option.rs:11-33; methods/iter_overeager_cloned.rs:37-144; mod.rs:5480, 5544, 5788, 5826; methods/filter_next.rs:22-72; methods/filter_map_next.rs:11-34; methods/iter_nth_zero.rs:13-32; methods/iter_skip_next.rs:13-45; methods/manual_next_back.rs:8-37; methods/map_all_any_identity.rs:13-43; methods/iter_overeager_cloned.rs; mod.rs:5418, 5498, 5609, 5681, 5711; methods/double_ended_iterator_last.rs:13-80; methods/search_is_some.rs:19-99; methods/needless_collect.rs:27-106; clippy_utils/src/lib.rs; unnecessary_fold.rs:96-116; unnecessary_fold.rs:118-176; unnecessary_fold.rs:178-214; unnecessary_fold.rs:237-290; methods/filter_map.rs:19-44; methods/filter_map.rs:46-51, 266-325; methods/filter_map.rs:227-262; methods/filter_map.rs:170-181; methods/filter_map.rs:109-225; methods/filter_map.rs:401-434; methods/filter_map.rs:288-399; methods/filter_map_bool_then.rs:16-74; loops/unused_enumerate_index.rs:15-66; unused_enumerate_index.rs:68-98; loops/mod.rs:925-944; loops/manual_flatten.rs:16-87; clippy_utils/src/usage.rs:183-195; loops/manual_find.rs:18-105
- `LinesModel.v`: clippy_lints/src/functions/too_many_lines.rs; too_many_lines.rs:49-57; too_many_lines.rs:42-62; too_many_lines.rs:40-67; too_many_lines.rs:27-68
- `LitModel.v`: clippy_lints/src/raw_strings.rs; clippy_lints/src/octal_escapes.rs; clippy_utils/src/source.rs; raw_strings.rs:135-164; raw_strings.rs:135-168; raw_strings.rs:195-218; raw_strings.rs:106-192; raw_strings.rs:107-133; octal_escapes.rs:64-82; octal_escapes.rs:84-90; octal_escapes.rs:91-105; source.rs:780-818
- `LogModel.v`: clippy_lints/src/manual_ilog2.rs; bit_width.rs; manual_ilog2.rs:52-97; bit_width.rs:77-84; bit_width.rs:98-126
- `LoopModel.v`: clippy_lints/src/loops/never_loop.rs; never_loop.rs:135-150; never_loop.rs:152-158; never_loop.rs:160-167; never_loop.rs:180-212; never_loop.rs:500-506; never_loop.rs:457-481; never_loop.rs:295-482; never_loop.rs:20-85
- `MatModel.v`: clippy_lints/src/matches/manual_utils.rs; manual_map.rs; manual_filter.rs; manual_unwrap_or.rs; manual_ok_err.rs; clippy_lints/src/option_if_let_else.rs; if_then_some_else_none.rs; clippy_utils/src/lib.rs:753-776; manual_map.rs:11-34; manual_filter.rs:151-188; manual_utils.rs:193-204; lib.rs; manual_utils.rs:266-268; manual_utils.rs:42-61; manual_utils.rs:176-190; manual_utils.rs:206-232; manual_utils.rs:63-164; manual_map.rs:77-115; manual_map.rs:36-74; manual_filter.rs:43-56; manual_filter.rs:65-77; manual_filter.rs:20-41; manual_filter.rs:81-89; manual_filter.rs:190-229; manual_filter.rs:91-149; manual_unwrap_or.rs:20-34; manual_unwrap_or.rs:36-57; manual_unwrap_or.rs:59-76; clippy_utils/src/lib.rs:666-696; clippy_utils/src/consts.rs; manual_unwrap_or.rs:78-172; manual_ok_err.rs:101-118; manual_ok_err.rs:121-136; manual_ok_err.rs:74-98; manual_ok_err.rs:20-70; option_if_let_else.rs:370-384; option_if_let_else.rs:323-368; option_if_let_else.rs:305-318; option_if_let_else.rs:118-245; if_then_some_else_none.rs:64-140
- `McoModel.v`: clippy_lints/src/manual_checked_ops.rs
- `McoSpec.v`: clippy_lints/src/manual_checked_ops.rs
- `MemModel.v`: clippy_lints/src/loops/manual_memcpy.rs; manual_memcpy.rs:238-240; manual_memcpy.rs:249-258, 275-284; manual_memcpy.rs:260-273, 286-299; manual_memcpy.rs:301-339; manual_memcpy.rs:341-356; manual_memcpy.rs:382-385; manual_memcpy.rs:387-396; manual_memcpy.rs:377-415; loops/utils.rs:15-116; manual_memcpy.rs:459-484; loops/utils.rs:118-250; manual_memcpy.rs:486-512; manual_memcpy.rs:126-132; manual_memcpy.rs:134-151; manual_memcpy.rs:156-180; manual_memcpy.rs:117-217; manual_memcpy.rs:60-96; manual_memcpy.rs:429-457; manual_memcpy.rs:20-115
- `MemSpec.v`: clippy_lints/src/loops/manual_memcpy.rs
- `MrwModel.v`: clippy_lints/src/mixed_read_write_in_expression.rs
- `MrwSpec.v`: clippy_lints/src/mixed_read_write_in_expression.rs
- `MsfModel.v`: clippy_lints/src/loops/manual_slice_fill.rs
- `MsfSpec.v`: clippy_lints/src/loops/manual_slice_fill.rs
- `NumModel.v`: clippy_utils/src/numeric_literal.rs; clippy_lints/src/literal_representation.rs; numeric_literal.rs:6-26; numeric_literal.rs:34-52; numeric_literal.rs:114-145; numeric_literal.rs:74-107; numeric_literal.rs:232-263; numeric_literal.rs:55-71; numeric_literal.rs:190-230; numeric_literal.rs:148-188; literal_representation.rs:356-388; literal_representation.rs:333-352; literal_representation.rs:223, 306-326; literal_representation.rs:273-288; literal_representation.rs:249-304; literal_representation.rs:232-246; literal_representation.rs:435-478; literal_representation.rs:416-433
- `OrPatModel.v`: clippy_lints/src/unnested_or_patterns.rs; clippy_utils/src/ast_utils/mod.rs; clippy_utils/src/ast_utils/mod.rs:25-84; clippy_utils/src/hir_utils.rs:1088-1090; unnested_or_patterns.rs:393-436; unnested_or_patterns.rs:448-454; unnested_or_patterns.rs:359-380; unnested_or_patterns.rs:313-357; unnested_or_patterns.rs:227-311; unnested_or_patterns.rs:168-214; unnested_or_patterns.rs:182-194; unnested_or_patterns.rs:196-202; unnested_or_patterns.rs:175-208; unnested_or_patterns.rs:120-141; unnested_or_patterns.rs:143-166; unnested_or_patterns.rs:93-118
- `PanicModel.v`: clippy_lints/src/operators/arithmetic_side_effects.rs; clippy_utils/src/eager_or_lazy.rs; clippy_utils/src/lib.rs:2265-2273; arithmetic_side_effects.rs:422-433; arithmetic_side_effects.rs:435-445; arithmetic_side_effects.rs:329-337; arithmetic_side_effects.rs:388-416; arithmetic_side_effects.rs:127-214; arithmetic_side_effects.rs:251-273; arithmetic_side_effects.rs:218-249; arithmetic_side_effects.rs:283-305; eager_or_lazy.rs:26-37; eager_or_lazy.rs:38-48; clippy_utils/src/visitors.rs:327-414; eager_or_lazy.rs:124-309; eager_or_lazy.rs:115-318
- `PatModel.v`: clippy_lints/src/manual_range_patterns.rs; matches/overlapping_arms.rs; manual_range_patterns.rs; manual_range_patterns.rs:44-55; manual_range_patterns.rs:57-80; manual_range_patterns.rs:92-96; manual_range_patterns.rs:98-126; manual_range_patterns.rs:128-144; manual_range_patterns.rs:82-165; overlapping_arms.rs; overlapping_arms.rs:73-83; overlapping_arms.rs:89-94; overlapping_arms.rs:99-110; overlapping_arms.rs:112-120; overlapping_arms.rs:130-139; overlapping_arms.rs:124-147; overlapping_arms.rs:85-150; clippy_utils/src/consts.rs:297-340; overlapping_arms.rs:30-71; overlapping_arms.rs:11-28
- `PickModel.v`: clippy_utils/src/lib.rs:333-345; clippy_utils/src/source.rs:367-388; clippy_utils/src/hir_utils.rs; clippy_utils/src/hir_utils.rs:1107-1114; match_bool.rs:13-84; match_like_matches.rs:202-226; match_like_matches.rs:229-237; match_like_matches.rs:17-64; redundant_pattern_match.rs:118-174; redundant_pattern_match.rs:32-44; redundant_pattern_match.rs:46-63; redundant_pattern_match.rs:340-430; redundant_pattern_match.rs:271-326; needless_match.rs:157-206; needless_match.rs:69-89; needless_match.rs:17-49; needless_match.rs:91-120; needless_match.rs:51-67; single_match.rs:28-81; single_match.rs:83-189; collapsible_match.rs:216-221; collapsible_match.rs:147-151; collapsible_match.rs:143-211; collapsible_match.rs:23-42; collapsible_match.rs:70-142; collapsible_match.rs:23-55; redundant_guards.rs:247-274; redundant_guards.rs:163-202; redundant_guards.rs:32-36, 51-55; redundant_guards.rs:20-102
- `PocModel.v`: clippy_lints/src/panicking_overflow_checks.rs
- `PocSpec.v`: clippy_lints/src/panicking_overflow_checks.rs
- `RangeModel.v`: clippy_lints/src/ranges.rs; minmax.rs; methods/unnecessary_min_or_max.rs; ranges.rs:316-324; ranges.rs:326-365; ranges.rs:213-298; ranges.rs:193-204; minmax.rs:65-117; minmax.rs:38-56; unnecessary_min_or_max.rs:78-109; unnecessary_min_or_max.rs:52-76; unnecessary_min_or_max.rs:14-50
- `RcuModel.v`: clippy_lints/src/only_used_in_recursion.rs; clippy_utils/src/lib.rs:1996-2011; only_used_in_recursion.rs:366-436
- `RcuSpec.v`: clippy_lints/src/only_used_in_recursion.rs
- `ReindentModel.v`: clippy_utils/src/source.rs:492-527; source.rs:508; source.rs:514-524; source.rs:499-527; source.rs:493-497
- `RngModel.v`: clippy_lints/src/loops/needless_range_loop.rs; needless_range_loop.rs:231-257
- `RngSpec.v`: clippy_lints/src/loops/needless_range_loop.rs
- `RotateModel.v`: clippy_lints/src/manual_rotate.rs; manual_rotate.rs:45-48; manual_rotate.rs:50-57; manual_rotate.rs:59-69; manual_rotate.rs:99-103; manual_rotate.rs:88-117; manual_rotate.rs:72-138
- `RustExpr.v`: clippy_utils/src/hir_utils.rs
- `RustInt.v`: clippy_lints/src/casts/cast_possible_wrap.rs:8-9
- `SameModel.v`: clippy_utils/src/hir_utils.rs; clippy_utils/src/lib.rs; hir_utils.rs:153-166; hir_utils.rs:1075-1080; hir_utils.rs:904-921; hir_utils.rs:766-812; hir_utils.rs:995-1027; hir_utils.rs:1030-1073; hir_utils.rs:57-66; hir_utils.rs:498-507; hir_utils.rs:514-685; hir_utils.rs:491-713; hir_utils.rs:386-470; hir_utils.rs:176-203; hir_utils.rs:581-590; hir_utils.rs:120-122; hir_utils.rs:1109-1111; hir_utils.rs:1580-1656; hir_utils.rs:1412-1423; hir_utils.rs:1185-1389; clippy_utils/src/lib.rs:2190-2223; clippy_lints/src/ifs/ifs_same_cond.rs:27-48
- `SatModel.v`: clippy_lints/src/implicit_saturating_sub.rs; implicit_saturating_add.rs; methods/manual_saturating_arithmetic.rs; implicit_saturating_sub.rs:396-415; implicit_saturating_sub.rs:350-392; implicit_saturating_sub.rs:305-394; implicit_saturating_sub.rs:203-303; implicit_saturating_sub.rs:98-201; implicit_saturating_add.rs:99-116; implicit_saturating_add.rs:132-142; implicit_saturating_add.rs:118-130; implicit_saturating_add.rs:43-96; manual_saturating_arithmetic.rs:134-138; manual_saturating_arithmetic.rs:140-205; manual_saturating_arithmetic.rs:207-223; manual_saturating_arithmetic.rs:107-132; manual_saturating_arithmetic.rs:60-105; manual_saturating_arithmetic.rs:14-36; manual_saturating_arithmetic.rs:38-57
- `SciModel.v`: clippy_lints/src/set_contains_or_insert.rs
- `SciSpec.v`: clippy_lints/src/set_contains_or_insert.rs
- `SipModel.v`: clippy_lints/src/loops/same_item_push.rs
- `SipSpec.v`: clippy_lints/src/loops/same_item_push.rs
- `SrtModel.v`: clippy_lints/src/methods/unnecessary_sort_by.rs
- `SrtSpec.v`: clippy_lints/src/methods/unnecessary_sort_by.rs
- `StrModel.v`: clippy_utils/src/hir_utils.rs; methods/str_splitn.rs; methods/mod.rs:5810-5813; methods/str_split.rs:16-48; strings.rs:446-469; methods/collapsible_str_replace.rs; manual_strip.rs; methods/chars_cmp.rs:13-50; chars_next_cmp.rs; chars_last_cmp.rs; methods/chars_cmp_with_unwrap.rs:13-42; chars_next_cmp_with_unwrap.rs; chars_last_cmp_with_unwrap.rs; methods/mod.rs:6078-6096; methods/bytes_nth.rs:14-52; methods/bytes_count_to_len.rs:11-37; methods/needless_as_bytes.rs:12-27; methods/mod.rs:5582-5586; methods/sliced_string_as_bytes.rs:12-36; methods/get_first.rs:14-54; methods/get_last_with_len.rs:12-52; clippy_utils/src/source.rs:782-822; string_patterns.rs:90-113; clippy_utils/src/eager_or_lazy.rs; methods/search_is_some.rs:101-148; manual_ignore_case_cmp.rs:45-78; manual_is_ascii_check.rs:73-90; methods/repeat_once.rs:12-52; methods/manual_str_repeat.rs:16-98
- `StructConst.v`: clippy_utils/src/consts.rs; consts.rs:33-68; consts.rs:127-150; consts.rs:152-206; consts.rs:209-264; consts.rs:280-285; consts.rs:297-340
- `SuggModel.v`: clippy_utils/src/sugg.rs; sugg.rs:23-37; sugg.rs:422-431; sugg.rs:433-452; sugg.rs:402-409; sugg.rs:46-54; sugg.rs:357-377; sugg.rs:411-419; sugg.rs:454-468; sugg.rs:646-657; sugg.rs:593-622; sugg.rs:552-575; sugg.rs:587-639; sugg.rs:641-644; sugg.rs:295-355; sugg.rs:516-525; sugg.rs:527-550; sugg.rs:128-193; sugg.rs:101-126
- `SuggSpec.v`: parser/expr.rs
- `SviModel.v`: clippy_lints/src/slow_vector_initialization.rs
- `SviSpec.v`: clippy_lints/src/slow_vector_initialization.rs
- `TabsModel.v`: clippy_lints/src/tabs_in_doc_comments.rs; tabs_in_doc_comments.rs:99-120; tabs_in_doc_comments.rs:63-85
- `TailModel.v`: clippy_lints/src/returns/needless_return.rs; let_and_return.rs; needless_return_with_question_mark.rs; clippy_lints/src/question_mark.rs; needless_return.rs:113-217; needless_return.rs:79-111; needless_return.rs:57-76; let_and_return.rs:16-65; needless_return_with_question_mark.rs:12-45; clippy_utils/src/lib.rs:1261-1289; question_mark.rs:101-117; clippy_utils/src/lib.rs:2921-2940; question_mark.rs:119-203; question_mark.rs:241-273; question_mark.rs:205-214, 290-326; question_mark.rs:215-238; question_mark.rs:346-360; question_mark.rs:372-398; question_mark.rs:400-438; question_mark.rs:454-463
- `UnwModel.v`: clippy_lints/src/unwrap.rs; unwrap.rs:126-166; unwrap.rs:300-321; clippy_utils/src/usage.rs:35-44; unwrap.rs:178-206; unwrap.rs:323-374; unwrap.rs:242-250; unwrap.rs:210-230; unwrap.rs:232-296; unwrap.rs:377-405; unwrap.rs:413-425; unwrap.rs:442-511; unwrap.rs:430-514; unwrap.rs:522-543
- `UnwSpec.v`: clippy_lints/src/unwrap.rs
- `VipModel.v`: clippy_lints/src/vec_init_then_push.rs
- `VipSpec.v`: clippy_lints/src/vec_init_then_push.rs
- `WhlModel.v`: clippy_lints/src/loops/while_immutable_condition.rs; clippy_utils/src/usage.rs:53-58; clippy_utils/src/usage.rs:15-28
- `WhlSpec.v`: clippy_lints/src/loops/while_immutable_condition.rs
- `WliModel.v`: clippy_lints/src/loops/while_let_on_iterator.rs; clippy_utils/src/visitors.rs 300-311; clippy_utils/src/lib.rs 1190-1210
- `WliSpec.v`: clippy_lints/src/loops/while_let_on_iterator.rs

## Trusted base

- Coq 8.16.1's kernel (and `vm_compute`).
- What `Print Assumptions` lists for each theorem: nothing (see above). No axioms are
  added by this development.
- The reading of `/repo`: the code is never run; each definition cites its source.
- The specification of Rust itself (integer semantics, documented std methods,
  operator precedence) as written in the `*Spec.v`/`Rust*.v` files.

## Not modelled

Parsing and type checking by rustc, spans and macro expansion, diagnostics
rendering, lint-level bookkeeping, the file system and process spawning (only the
logic around them), performance.
