(* Loops without a condition, with labels (/repo/clippy_lints/src/loops/infinite_loop.rs).  Does not depend on InfModel.v. *)
From Coq Require Import List Bool PeanoNat.
Import ListNotations.

Definition label := nat.
Inductive stmt :=
| SSkip | SSeq (a b : stmt) | SIf (c : nat) (a b : stmt)
| SCall (f : nat)                       (* a call that returns *)
| SNever (f : nat)                      (* a call of a function of type ! *)
| SLoop (l : option label) (b : stmt)   (* 'l: loop { b }; while and for are loops with a branch that breaks *)
| SBlock (l : label) (b : stmt)         (* 'l: { b } *)
| SBreak (l : option label) (v : stmt)  (* break 'l { v } *)
| SContinue (l : option label)
| SReturn.
(* What functions were called, in the end what a run is seen by *)
Definition trace := list nat.
Inductive outcome := Out | Norm (t : trace) | Brk (l : option label) (t : trace) | Cont (l : option label) (t : trace) | Gone (t : trace).
Definition is_label (l : option label) (m : label) : bool := match l with Some x => Nat.eqb x m | None => false end.

Section Run.
Variable cond : nat -> trace -> bool.
Fixpoint exec (fuel : nat) (s : stmt) (t : trace) : outcome :=
  match fuel with
  | O => Out
  | S fuel =>
      match s with
      | SSkip => Norm t
      | SSeq a b => match exec fuel a t with Norm t => exec fuel b t | r => r end
      | SIf c a b => if cond c t then exec fuel a t else exec fuel b t
      | SCall f => Norm (f :: t)
      | SNever f => Gone (f :: t)
      | SLoop l b =>
          match exec fuel b t with
          | Norm t | Cont None t => exec fuel (SLoop l b) t
          | Brk None t => Norm t
          | Brk (Some m) t => if is_label l m then Norm t else Brk (Some m) t
          | Cont (Some m) t => if is_label l m then exec fuel (SLoop l b) t else Cont (Some m) t
          | r => r
          end
      | SBlock l b => match exec fuel b t with Brk (Some m) t => if Nat.eqb m l then Norm t else Brk (Some m) t | r => r end
      | SBreak l v => match exec fuel v t with Norm t => Brk l t | r => r end
      | SContinue l => Cont l t
      | SReturn => Gone t
      end
  end.
End Run.

(* No jump *)
Fixpoint quiet (s : stmt) : bool :=
  match s with
  | SSkip | SCall _ => true
  | SSeq a b | SIf _ a b => quiet a && quiet b
  | SBlock _ b => quiet b
  | _ => false
  end.
(* Labels of breaks are labels within, and values of breaks do not jump *)
Fixpoint breaks_within (ls : list label) (s : stmt) : bool :=
  match s with
  | SSeq a b | SIf _ a b => breaks_within ls a && breaks_within ls b
  | SLoop l b => breaks_within (match l with Some x => x :: ls | None => ls end) b
  | SBlock l b => breaks_within (l :: ls) b
  | SBreak l v => match l with Some x => existsb (Nat.eqb x) ls | None => true end && quiet v
  | _ => true
  end.
