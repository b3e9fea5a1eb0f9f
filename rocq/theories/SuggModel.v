(** Model of the suggestion builder, /repo/clippy_utils/src/sugg.rs.
    A text is a list of tokens: operators, parentheses, and opaque atoms (paths, literals, calls, blocks ...),
    postfix parts (`.f()`, `[i]`, `?`) and types.  So parentheses inside an atom (its arguments, or characters of a
    literal) are not seen, and `&` followed by `&` is not the one token `&&`, which the compiler's parser treats as
    two in front of an operand. *)
From Coq Require Export List Arith Bool.
Export ListNotations.

(** [ast::BinOpKind], [AssocOp], and the unary operators. *)
Inductive bop := Mul | Div | Rem | Add | Sub | Shl | Shr | BitAnd | BitXor | BitOr | Eq | Lt | Le | Ne | Ge | Gt | And | Or.
Inductive limits := HalfOpen | Closed.
Inductive assoc_op := OBin (b : bop) | OAssign | OAssignOp (b : bop) | OCast | ORange (l : limits).
Inductive un_op := UDeref | UNot | UNeg.

Inductive token :=
| TAtom (n : nat) | TPost (n : nat) | TType (n : nat)
| TLParen | TRParen
| TBin (b : bop) | TBang | TMut | TAs | TAssign | TAssignOp (b : bop) | TRange (l : limits) | TReturn.
Definition toks := list token.

(** Decidable equality of operators, [PartialEq] in the code. *)
Definition bop_eq_dec : forall a b : bop, {a = b} + {a <> b}.
Proof. decide equality. Defined.
Definition assoc_op_eq_dec : forall a b : assoc_op, {a = b} + {a <> b}.
Proof. decide equality; try apply bop_eq_dec. decide equality. Defined.
Definition op_eqb (a b : assoc_op) : bool := if assoc_op_eq_dec a b then true else false.

(** sugg.rs:23-37 [Sugg]. *)
Inductive sugg :=
| NonParen (t : toks)
| MaybeParen (t : toks)
| BinOp (op : assoc_op) (l r : toks)
| UnOp (op : un_op) (inner : sugg).

Definition op_token (op : assoc_op) : token :=
  match op with OBin b => TBin b | OAssign => TAssign | OAssignOp b => TAssignOp b | OCast => TAs | ORange l => TRange l end.
Definition un_token (u : un_op) : token := match u with UDeref => TBin Mul | UNot => TBang | UNeg => TBin Sub end.
(** sugg.rs:422-431 [binop_to_string]. *)
Definition binop_to_string (op : assoc_op) (l r : toks) : toks := l ++ op_token op :: r.

(** sugg.rs:433-452 [has_enclosing_paren]: the loop returns the rest after the parenthesis that brings the depth to zero,
    or nothing if there is none. *)
Fixpoint closing (depth : nat) (t : toks) : toks :=
  match t with
  | [] => []
  | c :: t =>
      let depth := match c with TLParen => S depth | TRParen => pred depth | _ => depth end in
      match depth with 0 => t | _ => closing depth t end
  end.
Definition has_enclosing_paren (t : toks) : bool :=
  match t with TLParen :: t => match closing 1 t with [] => true | _ => false end | _ => false end.
Definition parens (t : toks) : toks := TLParen :: t ++ [TRParen].

(** sugg.rs:402-409 [starts_with_unary_op]. *)
Definition starts_with_unary_op (s : sugg) : bool :=
  match s with
  | UnOp _ _ => true
  | BinOp _ _ _ => false
  | MaybeParen t | NonParen t => match t with (TBin Mul | TBang | TBin Sub | TBin BitAnd) :: _ => true | _ => false end
  end.
(** sugg.rs:46-54 [Display], 394-400 [into_string], with 411-419 [maybe_inner_paren] and 357-377 [maybe_paren] inlined
    where they call each other: [inner] is the text of `maybe_inner_paren`. *)
Fixpoint disp (s : sugg) : toks :=
  match s with
  | NonParen t | MaybeParen t => t
  | BinOp op l r => binop_to_string op l r
  | UnOp op i =>
      un_token op ::
      (if starts_with_unary_op i then disp i
       else match i with
            | NonParen t => t
            | MaybeParen t => if has_enclosing_paren t then t else parens t
            | BinOp op l r => parens (binop_to_string op l r)
            | UnOp _ _ => disp i
            end)
  end.
(** sugg.rs:357-377 [maybe_paren]; for [UnOp] the text in parentheses is the text of the suggestion. *)
Definition maybe_paren (s : sugg) : sugg :=
  match s with
  | NonParen _ => s
  | MaybeParen t => if has_enclosing_paren t then MaybeParen t else NonParen (parens t)
  | BinOp op l r => NonParen (parens (binop_to_string op l r))
  | UnOp _ _ => NonParen (parens (disp s))
  end.
(** sugg.rs:411-419 [maybe_inner_paren]. *)
Definition maybe_inner_paren (s : sugg) : sugg := if starts_with_unary_op s then s else maybe_paren s.
(** sugg.rs:454-468 [strip_enclosing_paren] and 379-392 [strip_paren]. *)
Definition strip_enclosing_paren (t : toks) : toks := if has_enclosing_paren t then removelast (tl t) else t.
Definition strip_paren (s : sugg) : sugg :=
  match s with NonParen t | MaybeParen t => NonParen (strip_enclosing_paren t) | _ => s end.

(** rustc_ast's [AssocOp::precedence], as numbers in the same order: assignments 1, ranges 2, ... casts 12. *)
Definition bop_prec (b : bop) : nat :=
  match b with
  | Mul | Div | Rem => 11 | Add | Sub => 10 | Shl | Shr => 9 | BitAnd => 8 | BitXor => 7 | BitOr => 6
  | Eq | Lt | Le | Ne | Ge | Gt => 5 | And => 4 | Or => 3
  end.
Definition precedence (op : assoc_op) : nat :=
  match op with OBin b => bop_prec b | OAssign | OAssignOp _ => 1 | OCast => 12 | ORange _ => 2 end.

(** sugg.rs:646-657 [Associativity] and 659-677 [associativity]. *)
Inductive associativity_t := ABoth | ALeft | ANone | ARight.
Definition assoc_eqb (a b : associativity_t) : bool :=
  match a, b with ABoth, ABoth | ALeft, ALeft | ANone, ANone | ARight, ARight => true | _, _ => false end.
Definition associativity (op : assoc_op) : associativity_t :=
  match op with
  | OAssign | OAssignOp _ => ARight
  | OBin (Add | BitAnd | BitOr | BitXor | And | Or | Mul) | OCast => ABoth
  | OBin (Div | Eq | Gt | Ge | Lt | Le | Rem | Ne | Shl | Shr | Sub) => ALeft
  | ORange _ => ANone
  end.
(** sugg.rs:593-622: [is_shift], [is_arith], [needs_paren]. *)
Definition is_shift (op : assoc_op) : bool := match op with OBin (Shl | Shr) => true | _ => false end.
Definition is_arith (op : assoc_op) : bool := match op with OBin (Add | Sub | Mul | Div | Rem) => true | _ => false end.
Definition needs_paren (op other : assoc_op) (dir : associativity_t) : bool :=
  (precedence other <? precedence op)
  || ((precedence other =? precedence op)
      && ((negb (op_eqb op other) && negb (assoc_eqb (associativity op) dir))
          || (op_eqb op other && negb (assoc_eqb (associativity op) ABoth))))
  || (is_shift op && is_arith other)
  || (is_shift other && is_arith op).
(** sugg.rs:552-575 [ParenHelper]. *)
Definition paren_helper (paren : bool) (s : sugg) : toks := if paren then parens (disp s) else disp s.
(** sugg.rs:587-639 [make_assoc]. *)
Definition make_assoc (op : assoc_op) (lhs rhs : sugg) : sugg :=
  let lhs_paren := match lhs with BinOp lop _ _ => needs_paren op lop ALeft | _ => false end in
  let rhs_paren := match rhs with BinOp rop _ _ => needs_paren op rop ARight | _ => false end in
  BinOp op (paren_helper lhs_paren lhs) (paren_helper rhs_paren rhs).
(** sugg.rs:641-644 [make_binop]; 577-585 [make_unop]. *)
Definition make_binop (b : bop) (lhs rhs : sugg) : sugg := make_assoc (OBin b) lhs rhs.
Definition make_unop (op : toks) (s : sugg) : sugg := MaybeParen (op ++ disp (maybe_inner_paren s)).

(** sugg.rs:295-355: [as_ty], [addr], [mut_addr], [deref], [addr_deref], [mut_addr_deref], [make_return], [range]. *)
Definition as_ty (s : sugg) (ty : nat) : sugg := make_assoc OCast s (NonParen [TType ty]).
Definition addr : sugg -> sugg := make_unop [TBin BitAnd].
Definition mut_addr : sugg -> sugg := make_unop [TBin BitAnd; TMut].
Definition deref : sugg -> sugg := make_unop [TBin Mul].
Definition addr_deref : sugg -> sugg := make_unop [TBin BitAnd; TBin Mul].
Definition mut_addr_deref : sugg -> sugg := make_unop [TBin BitAnd; TMut; TBin Mul].
Definition make_return (s : sugg) : sugg := NonParen (TReturn :: disp s).
Definition range (s e : sugg) (l : limits) : sugg := make_assoc (ORange l) s e.
(** sugg.rs:516-525 [Neg]. *)
Definition neg (s : sugg) : sugg :=
  match s with
  | UnOp UNeg i => i
  | BinOp OCast _ _ => MaybeParen (TBin Sub :: parens (disp s))
  | _ => make_unop [TBin Sub] s
  end.
(** sugg.rs:527-550 [Not]. *)
Definition flip (b : bop) : option bop :=
  match b with Eq => Some Ne | Ne => Some Eq | Lt => Some Ge | Ge => Some Lt | Gt => Some Le | Le => Some Gt | _ => None end.
Definition not_ (s : sugg) : sugg :=
  match s with
  | BinOp (OBin b) l r => match flip b with Some b' => BinOp (OBin b') l r | None => make_unop [TBang] s end
  | UnOp UNot i => i
  | _ => make_unop [TBang] s
  end.

(** Source expressions with their parentheses, and what [hir_from_snippet] (sugg.rs:128-193) makes of them.  In HIR parentheses are
    gone but the span of the inner expression includes them; the kind decides, and the sides of operators are taken from their own spans.
    Atoms and postfix parts are the kinds listed as [NonParen]; `if`, `match`, closures, `return` and ranges without an end are left out. *)
Inductive uop := Deref | Not | Neg | AddrOf (mut : bool).
Inductive cst :=
| CAtom (n : nat) | CPost (c : cst) (n : nat) | CUn (u : uop) (c : cst)
| CBin (op : assoc_op) (l r : cst) | CCast (c : cst) (ty : nat) | CParen (c : cst).
Definition prefix_toks (u : uop) : toks :=
  match u with Deref => [TBin Mul] | Not => [TBang] | Neg => [TBin Sub] | AddrOf m => TBin BitAnd :: if m then [TMut] else [] end.
Fixpoint snippet (c : cst) : toks :=
  match c with
  | CAtom n => [TAtom n]
  | CPost c n => snippet c ++ [TPost n]
  | CUn u c => prefix_toks u ++ snippet c
  | CBin op l r => snippet l ++ op_token op :: snippet r
  | CCast c n => snippet c ++ [TAs; TType n]
  | CParen c => parens (snippet c)
  end.
Fixpoint unparen (c : cst) : cst := match c with CParen c => unparen c | _ => c end.
Definition hir_from_snippet (c : cst) : sugg :=
  match unparen c with
  | CUn _ _ => MaybeParen (snippet c)
  | CAtom _ | CPost _ _ | CParen _ => NonParen (snippet c)
  | CBin op l r => BinOp op (snippet l) (snippet r)
  | CCast l n => BinOp OCast (snippet l) [TType n]
  end.
(** sugg.rs:101-126 [hir_with_context] within one syntax context; [same_type] is the comparison of the types of the operand and the result. *)
Fixpoint hir_ctx (same_type : cst -> bool) (whole c : cst) : sugg :=
  match c with
  | CUn Neg i => if same_type i then UnOp UNeg (hir_ctx same_type i i) else hir_from_snippet whole
  | CUn Not i => if same_type i then UnOp UNot (hir_ctx same_type i i) else hir_from_snippet whole
  | CParen c' => hir_ctx same_type whole c'
  | _ => hir_from_snippet whole
  end.
Definition hir_with_context (same_type : cst -> bool) (c : cst) : sugg := hir_ctx same_type c c.
