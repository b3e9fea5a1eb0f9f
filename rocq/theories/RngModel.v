(* Model of /repo/clippy_lints/src/loops/needless_range_loop.rs.  Loops end with an end; sequences are variables declared
   before the loop or elements of such, with an index that does not use the variable of the loop (v[i][k] is not
   modelled: no suggestion here). *)
From Coq Require Import List ZArith Bool PeanoNat.
Import ListNotations.
From Verif Require Import RngSpec.

Definition sq_dec : forall a b : sq, {a = b} + {a <> b}.
Proof. decide equality; try apply Nat.eq_dec. decide equality; [apply Z.eq_dec|apply Nat.eq_dec]. Defined.
(* SpanlessEq, see C72 *)
Definition expr_dec : forall a b : expr, {a = b} + {a <> b}.
Proof. decide equality; first [apply Nat.eq_dec | apply Z.eq_dec | apply sq_dec]. Defined.
Definition sq_name (s : sq) : name := match s with SArr v | SRow v _ => v end.

(* needless_range_loop.rs:231-257 what the VarVisitor notes *)
Inductive note := Indirect | Direct (s : sq) | Nonindex | Referenced (x : name) | Mut (v : name).
Section Visit.
Variable i : name.
(* is_local_used *)
Fixpoint uses (e : expr) : bool :=
  match e with
  | EVar x => Nat.eqb x i
  | EAdd a b | EOp _ a b => uses a || uses b
  | ECall _ a => uses a
  | EIdx s a => match s with SRow _ (KVar x) => Nat.eqb x i | _ => false end || uses a
  | _ => false
  end.
(* 390-400: a variable *)
Definition see (x : name) : list note := if Nat.eqb x i then [Nonindex] else [Referenced x].
Definition see_sq (s : sq) : list note :=
  match s with SArr v | SRow v (KLit _) => [Referenced v] | SRow v (KVar k) => Referenced v :: see k end.
(* 259-365 check, for a place that is changed or not; inner: what the walk into the index finds *)
Definition check_index (mutable : bool) (s : sq) (a : expr) (inner : list note) : list note :=
  match s with
  | SRow _ (KVar k) => if Nat.eqb k i then [Indirect] else
      if uses a then (if mutable then [Mut (sq_name s)] else []) ++ [match a with EVar _ => Direct s | _ => Indirect end] else see_sq s ++ inner
  | _ =>
      if uses a then (if mutable then [Mut (sq_name s)] else []) ++ [match a with EVar _ => Direct s | _ => Indirect end] else see_sq s ++ inner
  end.
(* 369-463 visit_expr *)
Fixpoint visit (e : expr) : list note :=
  match e with
  | EVar x => see x
  | EAdd a b | EOp _ a b => visit a ++ visit b
  | ECall _ a => visit a
  | EIdx s a => check_index false s a (visit a)
  | ELen v | ERows v => [Referenced v]
  | ELit _ | EItem => []
  end.
Fixpoint visit_stmt (s : stmt) : list note :=
  match s with
  | SSkip => []
  | SSeq a b => visit_stmt a ++ visit_stmt b
  | SExpr e => visit e
  | SAssign x e => see x ++ visit e
  | SStore s a e => check_index true s a (visit a) ++ visit e
  | SItem e => visit e
  | SIf c a b => visit c ++ visit_stmt a ++ visit_stmt b
  end.
End Visit.

Definition directs (l : list note) : list sq := nodup sq_dec (flat_map (fun n => match n with Direct s => [s] | _ => [] end) l).
Definition has (p : note -> bool) (l : list note) : bool := existsb p l.
Definition referenced (x : name) : note -> bool := fun n => match n with Referenced y => Nat.eqb x y | _ => false end.
Definition is_mut (x : name) : note -> bool := fun n => match n with Mut y => Nat.eqb x y | _ => false end.
(* clippy_utils contains_name *)
Fixpoint contains_name (v : name) (e : expr) : bool :=
  match e with
  | EVar x => Nat.eqb x v
  | EAdd a b | EOp _ a b => contains_name v a || contains_name v b
  | ECall _ a => contains_name v a
  | EIdx s a => Nat.eqb (sq_name s) v || match s with SRow _ (KVar x) => Nat.eqb x v | _ => false end || contains_name v a
  | ELen x | ERows x => Nat.eqb x v
  | ELit _ | EItem => false
  end.
(* 198-209 is_len_call *)
Definition is_len_call (e : expr) (v : name) : bool := match e with ELen x | ERows x => Nat.eqb x v | _ => false end.
(* 211-229 is_end_eq_array_len; n: the length in the type of the sequence, if it is an array *)
Definition is_end_eq_array_len (e : expr) (closed : bool) (n : option Z) : bool :=
  match e, n with ELit z, Some n => (n <=? if closed then z + 1 else z)%Z | _, _ => false end.

Record found := { item_of : sq; enumerate : bool; adaptors : list adaptor }.
(* 25-196 check *)
Definition check (array_len : sq -> option Z) (i : name) (start end_ : expr) (closed : bool) (body : stmt) : option found :=
  let l := visit_stmt i body in
  if has (fun n => match n with Indirect => true | _ => false end) l then None else
  match directs l with
  | [s] =>
      let v := sq_name s in
      if has (referenced v) l then None else
      let starts_at_zero := match start with ELit 0 => true | _ => false end in
      if negb starts_at_zero && has (is_mut v) l && contains_name v start then None else
      let skip := if starts_at_zero then [] else [Skip start] in
      let '(take_expr, plus) :=
        match end_ with
        | EAdd a b => if expr_dec start a then (b, true) else if expr_dec start b then (a, true) else (end_, false)
        | _ => (end_, false)
        end in
      let no_take := is_len_call end_ v || is_end_eq_array_len end_ closed (array_len s) in
      if negb no_take && has (is_mut v) l && contains_name v take_expr then None else
      let take := if no_take then [] else [if closed then TakeOneMore take_expr else Take take_expr] in
      Some {| item_of := s; enumerate := has (fun n => match n with Nonindex => true | _ => false end) l;
              adaptors := if plus then skip ++ take else take ++ skip |}
  | _ => None
  end.
(* The body with the item in place of the element: left to the user (151-193), who is told which one it is *)
Fixpoint with_item_e (i : name) (s : sq) (e : expr) : expr :=
  match e with
  | EAdd a b => EAdd (with_item_e i s a) (with_item_e i s b)
  | EOp o a b => EOp o (with_item_e i s a) (with_item_e i s b)
  | ECall f a => ECall f (with_item_e i s a)
  | EIdx t a => if sq_dec s t then if expr_dec a (EVar i) then EItem else EIdx t (with_item_e i s a) else EIdx t (with_item_e i s a)
  | e => e
  end.
Fixpoint with_item (i : name) (s : sq) (b : stmt) : stmt :=
  match b with
  | SSeq a b => SSeq (with_item i s a) (with_item i s b)
  | SExpr e => SExpr (with_item_e i s e)
  | SAssign x e => SAssign x (with_item_e i s e)
  | SStore t a e =>
      if sq_dec s t then if expr_dec a (EVar i) then SItem (with_item_e i s e) else SStore t (with_item_e i s a) (with_item_e i s e)
      else SStore t (with_item_e i s a) (with_item_e i s e)
  | SIf c a b => SIf (with_item_e i s c) (with_item i s a) (with_item i s b)
  | b => b
  end.
