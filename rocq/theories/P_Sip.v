(* C138: loops that push the same item *)
From Coq Require Import List ZArith Bool PeanoNat.
Import ListNotations.
From Verif Require Import SipSpec SipModel SipProofs.

(* v.resize(len, z), where len is not less than the length *)
Definition resized (l : list Z) (len : nat) (z : Z) : list Z := l ++ repeat z (len - length l).

(* Each time round appends the value that the item has before the loop, and nothing else happens to the vector.  Partial: where the vector
   does not occur in let statements or at the end of blocks. *)
Theorem same_item_partial : forall consts bools nums methods others locals body v item,
  check locals body = Some (v, item) -> hidden_e v body = false ->
  forall n st, exists k, k <= n /\
    vecs (rounds consts bools nums methods others n body st) v = vecs st v ++ repeat (fst (fst (eval consts bools nums methods others item st))) k.
Proof.
  intros consts bools nums methods others locals body v item C H n st.
  destruct (rounds_push consts bools nums methods others locals body v item C H n st) as (k & K1 & _ & K3). exists k. auto.
Qed.
Print Assumptions same_item_partial.
(* The vector is as after resizing it as suggested.  Partial: also, where the body has neither && nor break. *)
Theorem same_item_resize_partial : forall consts bools nums methods others locals body v item,
  check locals body = Some (v, item) -> hidden_e v body = false -> straight_e body = true ->
  forall n st, vecs (rounds consts bools nums methods others n body st) v =
    resized (vecs st v) (length (vecs st v) + n) (fst (fst (eval consts bools nums methods others item st))).
Proof.
  intros consts bools nums methods others locals body v item C H S n st.
  destruct (rounds_push consts bools nums methods others locals body v item C H n st) as (k & K1 & K2 & K3). rewrite K3, (K2 S).
  unfold resized. do 2 f_equal. rewrite Nat.add_comm. symmetry. apply Nat.add_sub.
Qed.
Print Assumptions same_item_resize_partial.

Definition start : state := {| vecs := fun v => [Z.of_nat v]; vars := fun x => Z.of_nat (10 + x); made := [] |}.
Definition locals0 : name -> local := fun x => {| mutable := Nat.eqb x 2; initialised := match x with 1 => ByOther | _ => ByLit (Z.of_nat (10 + x)) end |}.
Definition bools0 : nat -> list nat -> bool := fun _ t => negb (Nat.eqb (length t) 0).
Definition nums0 : nat -> list nat -> Z := fun f t => Z.of_nat (f + length t).
Definition clear0 : nat -> list Z -> list nat -> Z * list Z := fun _ _ _ => (0%Z, []).
Definition others0 : nat -> state -> Z * bool * state := fun _ st => (0%Z, false, st).
(* { f(); w.clear(); let _ = g(); v.push(x); } *)
Definition body0 : expr := EBlock (SSeq (SSemi (ECall 1)) (SSeq (SSemi (EUse 7 1)) (SSeq (SLet (ECall 2)) (SPush 5 (ELocal 3))))) (ELit 0%Z).
Example C138_nontrivial :
  check locals0 body0 = Some (5, ELocal 3) /\ hidden_e 5 body0 = false /\ straight_e body0 = true /\
  vecs (rounds (fun _ => 0%Z) bools0 nums0 clear0 others0 3 body0 start) 5 = [5%Z; 13%Z; 13%Z; 13%Z] /\
  vecs (rounds (fun _ => 0%Z) bools0 nums0 clear0 others0 3 body0 start) 7 = [] /\
  (* variables that are mutable or not initialised by a literal, calls, two pushes, other uses of the vector, branches *)
  check locals0 (EBlock (SPush 5 (ELocal 2)) (ELit 0%Z)) = None /\
  check locals0 (EBlock (SPush 5 (ELocal 1)) (ELit 0%Z)) = None /\
  check locals0 (EBlock (SPush 5 (ECall 1)) (ELit 0%Z)) = None /\
  check locals0 (EBlock (SSeq (SPush 5 (ELit 1%Z)) (SPush 5 (ELit 1%Z))) (ELit 0%Z)) = None /\
  check locals0 (EBlock (SSeq (SPush 5 (ELit 1%Z)) (SSemi (EUse 5 1))) (ELit 0%Z)) = None /\
  check locals0 (EBlock (SSeq (SPush 5 (ELit 1%Z)) (SSemi (EOther 1))) (ELit 0%Z)) = None /\
  check locals0 (EBlock (SSeq (SPush 5 (EConst 1)) (SSemi (EUse 4 1))) (ELit 0%Z)) = Some (5, EConst 1).
Proof. repeat split. Qed.

(* for _ in 0..2 { v.push(1); let _ = v.clear(); } is reported *)
Theorem same_item_let_refuted : exists consts bools nums methods others locals body v item n st,
  check locals body = Some (v, item) /\ straight_e body = true /\
  forall k, vecs (rounds consts bools nums methods others n body st) v <> vecs st v ++ repeat (fst (fst (eval consts bools nums methods others item st))) k.
Proof.
  exists (fun _ => 0%Z), bools0, nums0, clear0, others0, locals0, (EBlock (SSeq (SPush 5 (ELit 1%Z)) (SLet (EUse 5 1))) (ELit 0%Z)), 5, (ELit 1%Z), 2, start.
  split; [reflexivity|]. split; [reflexivity|]. intros k. cbn. discriminate.
Qed.
Print Assumptions same_item_let_refuted.
(* for _ in 0..2 { v.push(1); v.clear() } is reported, without a semicolon at the end *)
Theorem same_item_tail_refuted : exists consts bools nums methods others locals body v item n st,
  check locals body = Some (v, item) /\ straight_e body = true /\
  forall k, vecs (rounds consts bools nums methods others n body st) v <> vecs st v ++ repeat (fst (fst (eval consts bools nums methods others item st))) k.
Proof.
  exists (fun _ => 0%Z), bools0, nums0, clear0, others0, locals0, (EBlock (SPush 5 (ELit 1%Z)) (EUse 5 1)), 5, (ELit 1%Z), 2, start.
  split; [reflexivity|]. split; [reflexivity|]. intros k. cbn. discriminate.
Qed.
Print Assumptions same_item_tail_refuted.
(* for _ in 0..2 { f() && { v.push(1); true }; } is reported, though f() may be false *)
Theorem same_item_lazy_refuted : exists consts bools nums methods others locals body v item n st,
  check locals body = Some (v, item) /\ hidden_e v body = false /\
  vecs (rounds consts bools nums methods others n body st) v <>
    resized (vecs st v) (length (vecs st v) + n) (fst (fst (eval consts bools nums methods others item st))).
Proof.
  exists (fun _ => 0%Z), bools0, nums0, clear0, others0, locals0,
    (EBlock (SSemi (EAnd 1 (EBlock (SPush 5 (ELit 1%Z)) (ELit 1%Z)))) (ELit 0%Z)), 5, (ELit 1%Z), 2, start.
  split; [reflexivity|]. split; [reflexivity|]. cbn. discriminate.
Qed.
Print Assumptions same_item_lazy_refuted.
