(* Model of LoopVisitor in /repo/clippy_lints/src/loops/infinite_loop.rs.  Functions that already return !, async blocks and
   coroutines are not modelled. *)
From Coq Require Import List Bool PeanoNat.
Import ListNotations.
From Verif Require Import InfSpec.

(* 143-149, 164-205 LoopVisitor: is_finite after the visit; lab: the label of the loop *)
Fixpoint visit (lab : option label) (inner : list label) (depth : nat) (s : stmt) : bool :=
  match s with
  | SBreak l _ => Nat.eqb depth 0 || match l, lab with Some x, Some y => Nat.eqb x y | _, _ => false end
  | SContinue l => match l with Some x => negb (existsb (Nat.eqb x) inner) | None => false end
  | SReturn => true
  | SLoop l b => visit lab (match l with Some x => x :: inner | None => inner end) (S depth) b
  | SNever _ => true
  | SSeq a b | SIf _ a b => visit lab inner depth a || visit lab inner depth b
  | SBlock _ b => visit lab inner depth b
  | SSkip | SCall _ => false
  end.
(* 14-65 check: an infinite loop is detected; 152-161 LoopVisitor::new *)
Definition check (l : option label) (b : stmt) : bool :=
  negb (visit l (match l with Some x => [x] | None => [] end) 0 b).
