(* Loops that push an item into a vector (/repo/clippy_lints/src/loops/same_item_push.rs).  Does not depend on SipModel.v. *)
From Coq Require Import List ZArith Bool PeanoNat.
Import ListNotations.

Definition name := nat.
Inductive expr :=
| ELit (z : Z)
| EConst (x : name)                (* a constant *)
| ELocal (x : name)                (* a variable *)
| EUse (v : name) (f : nat)        (* v.f(): some method of a vector, which may change it *)
| ECall (f : nat)
| EOther (f : nat)                 (* if, match, loop: anything *)
| EBlock (s : stmt) (tail : expr)
| EAnd (f : nat) (e : expr)        (* f() && e *)
| EBreak
with stmt :=
| SNil
| SSeq (a b : stmt)
| SPush (v : name) (item : expr)   (* v.push(item); *)
| SLet (e : expr)                  (* let _ = e; *)
| SSemi (e : expr).
Scheme expr_mut := Induction for expr Sort Prop with stmt_mut := Induction for stmt Sort Prop.
Combined Scheme expr_stmt_ind from expr_mut, stmt_mut.

Record state := { vecs : name -> list Z; vars : name -> Z; made : list nat }.
Definition with_vec (v : name) (l : list Z) (st : state) : state :=
  {| vecs := fun w => if Nat.eqb w v then l else vecs st w; vars := vars st; made := made st |}.
(* A binding that is not mutable, initialised by a literal or by a constant *)
Inductive init := ByLit (z : Z) | ByConst (x : name) | ByOther.
Record local := { mutable : bool; initialised : init }.

Section Run.
Variable consts : name -> Z.
Variable bools : nat -> list nat -> bool.                   (* what a call returns may depend on what was called before *)
Variable nums : nat -> list nat -> Z.
Variable methods : nat -> list Z -> list nat -> Z * list Z.
Variable others : nat -> state -> Z * bool * state.
Definition called (f : nat) (st : state) : state := {| vecs := vecs st; vars := vars st; made := f :: made st |}.
(* The value, whether the loop is left, and the state *)
Fixpoint eval (e : expr) (st : state) : Z * bool * state :=
  match e with
  | ELit z => (z, false, st)
  | EConst x => (consts x, false, st)
  | ELocal x => (vars st x, false, st)
  | EUse v f => let (r, l) := methods f (vecs st v) (made st) in (r, false, with_vec v l (called f st))
  | ECall f => (nums f (made st), false, called f st)
  | EOther f => others f st
  | EBlock s tail => match exec s st with (true, st) => (0%Z, true, st) | (false, st) => eval tail st end
  | EAnd f e => if bools f (made st) then eval e (called f st) else (0%Z, false, called f st)
  | EBreak => (0%Z, true, st)
  end
with exec (s : stmt) (st : state) : bool * state :=
  match s with
  | SNil => (false, st)
  | SSeq a b => match exec a st with (true, st) => (true, st) | (false, st) => exec b st end
  | SPush v item => match eval item st with (_, true, st) => (true, st) | (z, false, st) => (false, with_vec v (vecs st v ++ [z]) st) end
  | SLet e | SSemi e => match eval e st with (_, b, st) => (b, st) end
  end.
(* for _ in 0..n { body } *)
Fixpoint rounds (n : nat) (body : expr) (st : state) : state :=
  match n with O => st | S n => match eval body st with (_, true, st) => st | (_, false, st) => rounds n body st end end.
End Run.

(* Does a vector occur? *)
Fixpoint occurs_e (v : name) (e : expr) : bool :=
  match e with EUse w _ => Nat.eqb v w | EOther _ => true | EBlock s t => occurs_s v s || occurs_e v t | EAnd _ e => occurs_e v e | _ => false end
with occurs_s (v : name) (s : stmt) : bool :=
  match s with
  | SNil => false | SSeq a b => occurs_s v a || occurs_s v b | SPush w e => Nat.eqb v w || occurs_e v e
  | SLet e | SSemi e => occurs_e v e
  end.
(* In what a let statement binds, or at the end of a block? *)
Fixpoint hidden_e (v : name) (e : expr) : bool :=
  match e with EBlock s t => hidden_s v s || occurs_e v t | EAnd _ e => hidden_e v e | _ => false end
with hidden_s (v : name) (s : stmt) : bool :=
  match s with
  | SNil => false | SSeq a b => hidden_s v a || hidden_s v b | SPush w e => negb (Nat.eqb v w) && occurs_e v e
  | SLet e => occurs_e v e | SSemi e => hidden_e v e
  end.
(* Neither && nor break *)
Fixpoint straight_e (e : expr) : bool :=
  match e with EBlock s t => straight_s s && straight_e t | EAnd _ _ | EBreak | EOther _ => false | _ => true end
with straight_s (s : stmt) : bool :=
  match s with SNil => true | SSeq a b => straight_s a && straight_s b | SPush _ e | SLet e | SSemi e => straight_e e end.
