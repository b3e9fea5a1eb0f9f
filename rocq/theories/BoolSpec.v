(** Truth values of boolean expressions, and how the compiler reads text. *)
From Verif Require Import BoolModel.

(** What expressions mean: [values] are those of the closure parameters around.  Comparing operands of one
    type that implements `Ord` always has a result. *)
Record world := {
  atom : nat -> list nat -> bool;
  compare : nat -> nat -> list nat -> option comparison;
  option_ : nat -> list nat -> option nat;               (* a receiver of type Option *)
  result_ : nat -> list nat -> option nat;               (* a receiver of type Result: its Ok value; a receiver has only one of the two types, the other function says nothing of it *)
  other_method : mname -> nat -> list nat -> bool;       (* methods of other types *)
  other_method_f : mname -> nat -> (nat -> bool) -> list nat -> bool;
  (* a method cannot look into its closure *)
  other_method_f_ext : forall m r f g s, (forall x, f x = g x) -> other_method_f m r f s = other_method_f m r g s
}.
Definition cmp_holds (o : cop) (c : option comparison) : bool :=
  match o, c with
  | Eq, Some Datatypes.Eq | Lt, Some Datatypes.Lt | Gt, Some Datatypes.Gt
  | Le, (Some Datatypes.Lt | Some Datatypes.Eq) | Ge, (Some Datatypes.Gt | Some Datatypes.Eq) => true
  | Ne, (Some Datatypes.Lt | Some Datatypes.Gt | None) => true
  | _, _ => false
  end.
Definition meth (m : mname) (o r : option nat) : bool :=
  match m, o, r with is_some, Some _, _ | is_ok, _, Some _ | is_none, None, _ | is_err, _, None => true | _, _, _ => false end.
Definition meth_f (m : mname) (o : option nat) (f : nat -> bool) : bool :=
  match m, o with is_some_and, Some x | is_none_or, Some x => f x | is_none_or, None => true | _, _ => false end.
Fixpoint eval (w : world) (s : list nat) (e : bx) : bool :=
  match e with
  | XNot e => negb (eval w s e)
  | XAnd _ a b => eval w s a && eval w s b
  | XOr _ a b => eval w s a || eval w s b
  | XLit b => b
  | XCmp _ o l r => cmp_holds o (compare w (oid l) (oid r) s)
  | XMeth true m r => meth m (option_ w r s) (result_ w r s)
  | XMeth false m r => other_method w m r s
  | XMethF true m r body => meth_f m (option_ w r s) (fun x => eval w (x :: s) body)
  | XMethF false m r body => other_method_f w m r (fun x => eval w (x :: s) body) s
  | XAtom n => atom w n s
  end.
(** In every world: types with `Ord` are totally ordered; the two operands have one type. *)
Fixpoint comparisons (e : bx) : list (operand * operand) :=
  match e with
  | XNot e | XMethF _ _ _ e => comparisons e
  | XAnd _ a b | XOr _ a b => comparisons a ++ comparisons b
  | XCmp _ _ l r => [(l, r)]
  | _ => []
  end.
Definition lawful (w : world) (e : bx) : Prop :=
  forall l r s, In (l, r) (comparisons e) -> has_ord l = true -> oty l = oty r -> compare w (oid l) (oid r) s <> None.
Definition one_type (e : bx) : Prop := forall l r, In (l, r) (comparisons e) -> has_ord l = true -> oty l = oty r.

(** Leaves of the connectives, and the value for given values of the leaves. *)
Fixpoint leaves (e : bx) : list bx :=
  match e with
  | XNot e => leaves e
  | XAnd _ a b | XOr _ a b => leaves a ++ leaves b
  | XLit _ => []
  | _ => [e]
  end.
Fixpoint leval (L : bx -> bool) (e : bx) : bool :=
  match e with
  | XNot e => negb (leval L e)
  | XAnd _ a b => leval L a && leval L b
  | XOr _ a b => leval L a || leval L b
  | XLit b => b
  | _ => L e
  end.
(** Two leaves with the same value, two leaves with opposite values. *)
Definition same_leaf (a b : bx) : Prop := bx_eqb a b = true.
Definition opposite_leaf (a b : bx) : Prop :=
  exists p p' o l r l' r', a = XCmp p o l r /\ b = XCmp p' (negate o) l' r' /\ has_ord l = true /\ oid l = oid l' /\ oid r = oid r'.
(** Two occurrences of one operand have one type. *)
Definition operands_ok (e : bx) : Prop :=
  forall l r l' r', In (l, r) (comparisons e) -> In (l', r') (comparisons e) -> oid l = oid l' -> has_ord l = has_ord l'.
(** Values of leaves that do not contradict each other, as far as [C] is concerned. *)
Definition consistent (C : list bx) (L : bx -> bool) : Prop :=
  forall a b, In a C -> In b C -> (same_leaf a b -> L a = L b) /\ (opposite_leaf a b -> L b = negb (L a)).

(** Boolean functions. *)
Fixpoint qeval (v : nat -> bool) (b : qbool) : bool :=
  match b with
  | True_ => true
  | False_ => false
  | Term n => v n
  | Not b => negb (qeval v b)
  | And l => forallb (qeval v) l
  | Or l => existsb (qeval v) l
  end.

(** Reading: `!` binds tighter than comparisons, these tighter than `&&`, this tighter than `||`.  A `<`
    after the type of a cast begins generic arguments.  (`&&` and `||` are read as associating to the
    right; the truth value is the same.) *)
Inductive level := LUnary | LCompare | LAnd | LOr.
Fixpoint parse (fuel : nat) (lv : level) (t : list tok) : option (bx * list tok) :=
  match fuel with
  | O => None
  | S fuel =>
      match lv with
      | LUnary =>
          match t with
          | TNot :: t => match parse fuel LUnary t with Some (e, t) => Some (XNot e, t) | None => None end
          | TLp :: t => match parse fuel LOr t with Some (e, TRp :: t) => Some (e, t) | _ => None end
          | TLit b :: t => Some (XLit b, t)
          | TAtom n :: t => Some (XAtom n, t)
          | TMeth s m r :: t => Some (XMeth s m r, t)
          | TMethF s m r :: t => match parse fuel LOr t with Some (e, TRp :: t) => Some (XMethF s m r e, t) | _ => None end
          | _ => None
          end
      | LCompare =>
          match t with
          | TOperand l :: TCmp o :: TOperand r :: t =>
              if ends_in_type l && cop_eqb o Lt then None else Some (XCmp false o l r, t)
          | _ => parse fuel LUnary t
          end
      | LAnd =>
          match parse fuel LCompare t with
          | Some (a, TAnd :: t) => match parse fuel LAnd t with Some (b, t) => Some (XAnd false a b, t) | None => None end
          | x => x
          end
      | LOr =>
          match parse fuel LAnd t with
          | Some (a, TOr :: t) => match parse fuel LOr t with Some (b, t) => Some (XOr false a b, t) | None => None end
          | x => x
          end
      end
  end.
(** The whole text is read as [e]. *)
Definition reads_as (t : list tok) (e : bx) : Prop := exists fuel, parse fuel LOr t = Some (e, []).

(** Source text the compiler has accepted: operands of `!` and `&&` are in parentheses where needed, a cast
    before `<` is in parentheses, methods are called with the arguments they take. *)
Definition no_arg (m : mname) : bool := match m with is_some_and | is_none_or => false | _ => true end.
Definition paren_or_unary (e : bx) : Prop :=
  match e with XAnd par _ _ | XOr par _ _ | XCmp par _ _ _ => par = true | _ => True end.
Definition not_bare_or (e : bx) : Prop := match e with XOr par _ _ => par = true | _ => True end.
Fixpoint source_ok (e : bx) : Prop :=
  match e with
  | XNot e => source_ok e /\ paren_or_unary e
  | XAnd _ a b => source_ok a /\ source_ok b /\ not_bare_or a /\ not_bare_or b
  | XOr _ a b => source_ok a /\ source_ok b
  | XCmp _ o l r => (in_parens l = true -> ends_in_type l = false) /\ (o = Lt -> ends_in_type l = false)
  | XMeth s m _ => s = true -> no_arg m = true
  | XMethF s m _ body => source_ok body /\ (s = true -> no_arg m = false)
  | XLit _ | XAtom _ => True
  end.

(** No left operand such as `a + b as u64` whose text ends in a type although it is not itself a cast. *)
Definition casts_plain (e : bx) : Prop := forall l r, In (l, r) (comparisons e) -> is_cast l = false -> ends_in_type l = false.

(** What the external crate promises: every result is an equivalent function, a disjunction of conjunctions
    of terminals and negated terminals. *)
Definition literal (b : qbool) : Prop := match b with Term _ | Not (Term _) => True | _ => False end.
Definition product (b : qbool) : Prop := literal b \/ exists l, b = And l /\ l <> [] /\ Forall literal l.
Definition sum_of_products (b : qbool) : Prop :=
  b = True_ \/ b = False_ \/ product b \/ exists l, b = Or l /\ l <> [] /\ Forall product l.
Definition simplifies (simplify : qbool -> list qbool) : Prop :=
  forall b q, In q (simplify b) -> sum_of_products q /\ forall v, qeval v q = qeval v b.
