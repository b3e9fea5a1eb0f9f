(* Model of /repo/clippy_lints/src/loops/manual_slice_fill.rs.  That the elements are Clone, the slice is a slice and the version of Rust has
   fill (55-64, 83-85, 99-103) is not modelled. *)
From Coq Require Import List Bool PeanoNat.
Import ListNotations.
From Verif Require Import MsfSpec.

(* switch_to_eager_eval: neither panics nor calls *)
Fixpoint switch_to_eager_eval (v : value) : bool :=
  match v with VVar _ | VLit _ | VLen _ => true | VPair a b => switch_to_eager_eval a && switch_to_eager_eval b | VIndex _ _ | VCall _ => false end.
Fixpoint is_local_used (v : value) (x : ident) : bool :=
  match v with
  | VVar y => Nat.eqb x y
  | VLit _ | VLen _ => false
  | VPair a b => is_local_used a x || is_local_used b x
  | VIndex _ i => is_local_used i x
  | VCall a => is_local_used a x
  end.
(* 20-107 check: the slice and the value of the suggested fill *)
Definition check (l : loop) : option (ident * value) :=
  match l with
  (* 28-67; the index is not compared with the variable of the loop *)
  | LRange _ start inclusive r s i v =>
      if negb inclusive && Nat.eqb start 0 && Nat.eqb r s && switch_to_eager_eval v && negb (is_local_used v i) then Some (s, v) else None
  (* 68-106 *)
  | LIter p s q v => if Nat.eqb q p && switch_to_eager_eval v && negb (is_local_used v q) then Some (s, v) else None
  end.
