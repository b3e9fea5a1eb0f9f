(** Model of the comparisons with boolean literals (/repo/clippy_lints/src/bool_comparison.rs) and of `if` expressions with boolean literals as
    results (/repo/clippy_lints/src/needless_bool.rs), on source expressions and suggestions as in [SuggModel].
    Left out: macros, comments and blocks around literals; the lints are only quieter for the former two. *)
From Verif Require Export SuggModel.

(** bool_comparison.rs:169-178 [fetch_bool_expr], the same as needless_bool.rs:344-352: [lit] tells which atoms are `true` and `false`. *)
Definition fetch_bool_expr (lit : nat -> option bool) (c : cst) : option bool := match unparen c with CAtom n => lit n | _ => None end.

(** bool_comparison.rs:102-149 [check_comparison] with 151-167 [suggest_bool_comparison]: the text that replaces the comparison,
    without its own parentheses (those stay, since the span runs from the left to the right side). *)
Definition check_comparison (same_type : cst -> bool) (lit : nat -> option bool)
  (left_true left_false right_true right_false : option (sugg -> sugg)) (no_literal : option (sugg -> sugg -> sugg)) (l r : cst) : option sugg :=
  let hint c := hir_with_context same_type c in
  match fetch_bool_expr lit l, fetch_bool_expr lit r with
  | Some true, None => option_map (fun h => h (hint r)) left_true
  | None, Some true => option_map (fun h => h (hint l)) right_true
  | Some false, None => option_map (fun h => h (hint r)) left_false
  | None, Some false => option_map (fun h => h (hint l)) right_false
  | None, None => option_map (fun h => h (hint l) (hint r)) no_literal
  | _, _ => None
  end.
(** bool_comparison.rs:39-99 [check_expr]; both sides are of type `bool`. *)
Definition bool_comparison (same_type : cst -> bool) (lit : nat -> option bool) (op : bop) (l r : cst) : option sugg :=
  let id := fun h : sugg => h in
  match op with
  | Eq => check_comparison same_type lit (Some id) (Some not_) (Some id) (Some not_) None l r
  | Ne => check_comparison same_type lit (Some not_) (Some id) (Some not_) (Some id) None l r
  | Lt => check_comparison same_type lit None (Some id) (Some not_) None (Some (fun l r => make_binop BitAnd (not_ l) r)) l r
  | Gt => check_comparison same_type lit (Some not_) None None (Some id) (Some (fun l r => make_binop BitAnd l (not_ r))) l r
  | _ => None
  end.

(** Where an expression stands in the source: the operators and parentheses around it. *)
Inductive ctx :=
| KHole | KPost (k : ctx) (n : nat) | KUn (u : uop) (k : ctx) | KBinL (op : assoc_op) (k : ctx) (r : cst) | KBinR (op : assoc_op) (l : cst) (k : ctx)
| KCast (k : ctx) (ty : nat) | KParen (k : ctx).
(** The source with an expression, and with a text, in that place: what a suggestion for its span does. *)
Fixpoint fill (k : ctx) (c : cst) : cst :=
  match k with
  | KHole => c | KPost k n => CPost (fill k c) n | KUn u k => CUn u (fill k c) | KBinL op k r => CBin op (fill k c) r
  | KBinR op l k => CBin op l (fill k c) | KCast k n => CCast (fill k c) n | KParen k => CParen (fill k c)
  end.
Fixpoint fill_toks (k : ctx) (t : toks) : toks :=
  match k with
  | KHole => t | KPost k n => fill_toks k t ++ [TPost n] | KUn u k => prefix_toks u ++ fill_toks k t
  | KBinL op k r => fill_toks k t ++ op_token op :: snippet r | KBinR op l k => snippet l ++ op_token op :: fill_toks k t
  | KCast k n => fill_toks k t ++ [TAs; TType n] | KParen k => parens (fill_toks k t)
  end.
(** [get_parent_expr], which does not see parentheses. *)
Inductive parent_expr := PTop | PPost (n : nat) | PUn (u : uop) | PBin (op : assoc_op) | PCast.
Fixpoint parent_from (p : parent_expr) (k : ctx) : parent_expr :=
  match k with
  | KHole => p | KParen k => parent_from p k | KPost k n => parent_from (PPost n) k | KUn u k => parent_from (PUn u) k
  | KBinL op k _ | KBinR op _ k => parent_from (PBin op) k | KCast k _ => parent_from PCast k
  end.
Definition parent (k : ctx) : parent_expr := parent_from PTop k.

(** needless_bool.rs:109-124 [condition_needs_parentheses], with clippy_utils/src/lib.rs:3370-3377 [is_block_like]: [blk] tells which atoms
    are blocks, `if`s, `match`es or loops, [callish] which postfix parts are calls or indices. *)
Fixpoint condition_needs_parentheses (blk callish : nat -> bool) (c : cst) : bool :=
  let is_block_like i := match unparen i with CAtom n => blk n | _ => false end in
  match c with
  | CParen c => condition_needs_parentheses blk callish c
  | CBin (OBin _) i _ | CCast i _ => is_block_like i || condition_needs_parentheses blk callish i
  | CPost i n => callish n && (is_block_like i || condition_needs_parentheses blk callish i)
  | _ => false
  end.
(** Places without a parent expression: a statement, a block of nothing else, the end of a block after statements, and others
    (the value of a `let`, an argument, an arm ...).  clippy_utils/src/lib.rs:3363-3368 [is_parent_stmt]. *)
Inductive place := Stmt | BlockAlone | BlockEnd | Elsewhere.
Definition is_parent_stmt (pl : place) : bool := match pl with Stmt | BlockAlone => true | _ => false end.

(** needless_bool.rs:307-310 [Expression], for each branch. *)
Inductive expression := Bool (b : bool) | RetBool (b : bool).
(** needless_bool.rs:139-166, the closure [reduce], with 362-374 [is_as_argument] and [is_operand_of_binary_or_unary] and clippy_utils/src/lib.rs:3393-3401
    [is_receiver_of_method_call]; [method] tells which postfix parts are method calls.  Not modelled: the braces after `else`. *)
Definition reduce (same_type : cst -> bool) (blk callish method : nat -> bool) (cond : cst) (k : ctx) (pl : place) (ret not : bool) : sugg :=
  let snip := hir_with_context same_type cond in
  let snip := if not then not_ snip else snip in
  let snip := if ret then make_return snip else snip in
  if match parent k with
     | PTop => condition_needs_parentheses blk callish cond && is_parent_stmt pl
     | PPost n => method n
     | PCast => true
     | PBin (OBin _) => true
     | PUn (Deref | Not | Neg) => true
     | _ => false
     end
  then maybe_paren snip else snip.
(** needless_bool.rs:168-191, the suggestion for `if cond {a} else {b}`. *)
Definition needless_bool (same_type : cst -> bool) (blk callish method : nat -> bool) (cond : cst) (a b : expression) (k : ctx) (pl : place) : option sugg :=
  let reduce := reduce same_type blk callish method cond k pl in
  match a, b with
  | RetBool true, RetBool false => Some (reduce true false)
  | Bool true, Bool false => Some (reduce false false)
  | RetBool false, RetBool true => Some (reduce true true)
  | Bool false, Bool true => Some (reduce false true)
  | _, _ => None
  end.
(** needless_bool.rs:193-205 for `if cond { lhs = a } else { lhs = b }`: the texts of the statements, without their semicolons.
    [lit_text] are the texts of the literals. *)
Definition needless_bool_assign (same_type : cst -> bool) (lit_text : bool -> nat) (cond lhs : cst) (a b : bool) : list toks :=
  let c := hir_with_context same_type cond in
  if eqb a b then [disp c; snippet lhs ++ [TAssign; TAtom (lit_text a)]]
  else [snippet lhs ++ TAssign :: disp (if a then c else not_ c)].
(** needless_bool.rs:269-283, for `if cond { return a; } b` at the end of a block, without a constructor: the text of the new end of the block.
    (With a constructor the text is its argument, and stands between parentheses of its own.) *)
Definition needless_bool_guard (same_type : cst -> bool) (cond : cst) (a b : bool) : option toks :=
  if eqb a b then None
  else let snip := hir_with_context same_type cond in Some (disp (if a then snip else not_ snip)).
