(* Slices that are indexed, and assertions about their lengths
   (/repo/clippy_lints/src/missing_asserts_for_indexing.rs).  Does not depend on AsrModel.v. *)
From Coq Require Import List Bool PeanoNat.
Import ListNotations.

Definition name := nat.
(* v[5], v[2..5], v[2..=5] *)
Inductive index := At (n : nat) | Upto (a b : nat) | Through (a b : nat).
(* v.len() < 5, <=, >, >=, == *)
Inductive cmp := Less | LessEq | More | MoreEq | Equal.
Inductive macro := Assert | AssertEq | DebugAssertEq.
Inductive stmt :=
| Index (v : name) (i : index)
| Check (v : name) (c : cmp) (n : nat) (m : macro)
| Set_ (v w : name)                         (* v = w *)
| If (c : nat) (a b : list stmt).
Definition holds (c : cmp) (len n : nat) : bool :=
  match c with Less => len <? n | LessEq => len <=? n | More => n <? len | MoreEq => n <=? len | Equal => len =? n end.
(* The bounds check of an index; that a range starts before it ends is another check *)
Definition in_bounds (len : nat) (i : index) : bool :=
  match i with At n => n <? len | Upto _ b => b <=? len | Through _ b => b <? len end.
Definition ordered (i : index) : bool := match i with At _ => true | Upto a b => a <=? b | Through a b => a <=? S b end.

Section Run.
Variable cond : nat -> bool.
(* The lengths; None: panic *)
Fixpoint run (s : stmt) (l : name -> nat) : option (name -> nat) :=
  match s with
  | Index v i => if in_bounds (l v) i && ordered i then Some l else None
  | Check v c n _ => if holds c (l v) n then Some l else None
  | Set_ v w => Some (fun x => if Nat.eqb x v then l w else l x)
  | If c a b =>
      (fix go (ss : list stmt) (l : name -> nat) := match ss with [] => Some l | s :: ss => match run s l with Some l => go ss l | None => None end end)
        (if cond c then a else b) l
  end.
Fixpoint runs (ss : list stmt) (l : name -> nat) : option (name -> nat) :=
  match ss with [] => Some l | s :: ss => match run s l with Some l => runs ss l | None => None end end.
End Run.

(* No branches, and no slice is assigned *)
Definition straight (ss : list stmt) : Prop := forall s, In s ss -> match s with Index _ _ | Check _ _ _ _ => True | _ => False end.
(* The length an index needs; an empty range from the start, v[..0], needs none *)
Definition needed (i : index) : nat := match i with At n => S n | Upto _ b => b | Through _ b => S b end.
(* The bounds checks of a slice in a text without branches *)
Fixpoint checks (v : name) (ss : list stmt) : list index :=
  match ss with
  | [] => []
  | Index w i :: ss => if Nat.eqb v w && (1 <=? needed i) then i :: checks v ss else checks v ss
  | _ :: ss => checks v ss
  end.
(* What checks the length of a slice first *)
Fixpoint first_about (v : name) (ss : list stmt) : option stmt :=
  match ss with
  | [] => None
  | Index w i :: ss => if Nat.eqb v w && (1 <=? needed i) then Some (Index w i) else first_about v ss
  | Check w c n m :: ss => if Nat.eqb v w then Some (Check w c n m) else first_about v ss
  | _ :: ss => first_about v ss
  end.
(* v[..=0] *)
Definition through_zero (i : index) : bool := match i with Through _ 0 => true | _ => false end.
