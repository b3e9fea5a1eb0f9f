(* Conditions that ask whether arithmetic overflows (/repo/clippy_lints/src/panicking_overflow_checks.rs).  Does not depend on PocModel.v. *)
From Coq Require Import List Bool ZArith.
Import ListNotations.
Open Scope Z_scope.

(* Expressions of one unsigned type, whose values are those below M *)
Inductive expr := EVar (x : nat) | ELit (z : Z) | EAdd (a b : expr) | ESub (a b : expr).
Inductive cond := CLt (a b : expr) | CGt (a b : expr) | CEq (a b : expr).
Definition fits (M z : Z) : option Z := if (0 <=? z) && (z <? M) then Some z else None.
(* With overflow checks, None is a panic *)
Fixpoint checked (M : Z) (s : nat -> Z) (e : expr) : option Z :=
  match e with
  | EVar x => Some (s x mod M)
  | ELit z => Some (z mod M)
  | EAdd a b => match checked M s a, checked M s b with Some x, Some y => fits M (x + y) | _, _ => None end
  | ESub a b => match checked M s a, checked M s b with Some x, Some y => fits M (x - y) | _, _ => None end
  end.
(* Without *)
Fixpoint wrapping (M : Z) (s : nat -> Z) (e : expr) : Z :=
  match e with
  | EVar x => s x mod M
  | ELit z => z mod M
  | EAdd a b => (wrapping M s a + wrapping M s b) mod M
  | ESub a b => (wrapping M s a - wrapping M s b) mod M
  end.
Definition checked_cond (M : Z) (s : nat -> Z) (c : cond) : option bool :=
  let both a b f := match checked M s a, checked M s b with Some x, Some y => Some (f x y) | _, _ => None end in
  match c with CLt a b => both a b Z.ltb | CGt a b => both a b Z.gtb | CEq a b => both a b Z.eqb end.
Definition wrapping_cond (M : Z) (s : nat -> Z) (c : cond) : bool :=
  match c with
  | CLt a b => wrapping M s a <? wrapping M s b
  | CGt a b => wrapping M s a >? wrapping M s b
  | CEq a b => wrapping M s a =? wrapping M s b
  end.
(* The operation e itself leaves the range *)
Definition overflows (M : Z) (s : nat -> Z) (e : expr) : Prop :=
  match e with
  | EAdd a b => M <= wrapping M s a + wrapping M s b
  | ESub a b => wrapping M s a < wrapping M s b
  | _ => False
  end.
(* c asks whether e overflows, as one does in C *)
Inductive asks : cond -> expr -> Prop :=
| AAddL a b : asks (CLt (EAdd a b) a) (EAdd a b)
| AAddR a b : asks (CLt (EAdd a b) b) (EAdd a b)
| AAddL' a b : asks (CGt a (EAdd a b)) (EAdd a b)
| AAddR' a b : asks (CGt b (EAdd a b)) (EAdd a b)
| ASub a b : asks (CLt a (ESub a b)) (ESub a b)
| ASub' a b : asks (CGt (ESub a b) a) (ESub a b).
