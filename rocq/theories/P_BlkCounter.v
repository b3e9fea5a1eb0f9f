(** C125: the counter of a `for` loop, counted by the iterator instead. *)
From Verif Require Import BlkSpec BlkSpec2 BlkEnv BlkModel BlkProofs7 BlkProofs9.

Definition U_ := XVal VUnit.
Definition I_ (z : Z) := XVal (VInt z).
Definition C_ (f : nat) := XCall f U_ U_.

(** `let mut i = 0; for x in v { .. i += 1; }`: the increment goes, and `i` is bound by `for (i, x) in (0..).zip(v)`.  The value of `i` after the loop is
    not looked at.  Partial: the initial value is a literal; within the loop `i` does not stand on its own after the increment, and is not changed
    where control may pass it by unseen, in a labelled block or on the right of `&&`. *)
Theorem explicit_counter_loop_partial : forall i init b e', explicit_counter_loop (XLet (PVar i) init b) = Some e' -> rust b -> literal init -> counter i b ->
  same (XLet (PVar i) init b) e'.
Proof. exact explicit_counter_loop_ok. Qed.
(** let mut i = 1; let k = f(); i = 5; for x in v { f(x, i); if f() { return } let y = x else { break }; i += 1; if f() { continue } f() } *)
Definition counted : ex :=
  XSeq (C_ 7) (XLet (PVar 3) (C_ 8) (XSeq (XAsg 0 (I_ 5))
    (XSeq (XFor None (PVar 2) (XVar 1) (XSeq (XCall 4 (XVar 2) (XBin OAdd (XVar 0) (I_ 1))) (XSeq (XWhen (XTest (C_ 5) (XRet U_)))
        (XLetElse (P1 1 (PVar 5)) (C_ 9) (XBrk None U_) (XSeq (XAsgOp OAdd 0 (I_ 1)) (XSeq (XWhen (XTest (C_ 6) (XCnt None))) (C_ 3)))))))
    (XVar 3)))).
Example C125_nontrivial : rust counted /\ counter 0 counted /\ explicit_counter_loop (XLet (PVar 0) (I_ 1) counted) =
  Some (XLet (PVar 0) (I_ 1) (XSeq (C_ 7) (XLet (PVar 3) (C_ 8) (XSeq (XAsg 0 (I_ 5))
    (XSeq (XFor None (P2 2 (PVar 0) (PVar 2)) (XEnum (I_ 5) (XVar 1)) (XSeq (XCall 4 (XVar 2) (XBin OAdd (XVar 0) (I_ 1))) (XSeq (XWhen (XTest (C_ 5) (XRet U_)))
        (XLetElse (P1 1 (PVar 5)) (C_ 9) (XBrk None U_) (XSeq U_ (XSeq (XWhen (XTest (C_ 6) (XCnt None))) (C_ 3)))))))
    (XVar 3)))))).
Proof.
  split; [reflexivity|]. split; [|reflexivity]. cbn. split; [intros _; now exists 5%Z|]. split; [reflexivity|]. repeat split.
Qed.
Definition v12 : st := ((fun y : nat => if y =? 1 then VVec [VInt 1; VInt 2] else VUnit), @nil ev).
Definition yes (h : list ev) : option val := Some (VBool true).
Ltac show e w := exists e; eexists; split; [reflexivity|]; split; [reflexivity|]; intros H; specialize (H w 5 v12);
  vm_compute in H; destruct H as [_ [H _]]; [discriminate|discriminate H].
(** `for x in v { f(i); 'a: { if c() { break 'a } i += 1 } }`: the increment is passed by. *)
Theorem explicit_counter_loop_label_refuted : exists e e', rust e /\ explicit_counter_loop e = Some e' /\ ~ same_ok e e'.
Proof.
  show (XLet (PVar 0) (I_ 1) (XSeq (XFor None (PVar 2) (XVar 1) (XSeq (XCall 4 (XVar 2) (XVar 0)) (XBlk 9 (XSeq (XWhen (XTest (C_ 5) (XBrk (Some 9) U_))) (XAsgOp OAdd 0 (I_ 1)))))) U_)) yes.
Qed.
(** `for x in v { f(i); c() && { i += 1; true }; }`. *)
Theorem explicit_counter_loop_and_refuted : exists e e', rust e /\ explicit_counter_loop e = Some e' /\ ~ same_ok e e'.
Proof.
  show (XLet (PVar 0) (I_ 1) (XSeq (XFor None (PVar 2) (XVar 1) (XSeq (XCall 4 (XVar 2) (XVar 0)) (XSeq (XAnd (XVal (VBool false)) (XBrace (XSeq (XAsgOp OAdd 0 (I_ 1)) (XVal (VBool true))))) U_))) U_)) yes.
Qed.
(** `for x in v { i += 1; let y = i; f(y) }`. *)
Theorem explicit_counter_loop_alone_refuted : exists e e', rust e /\ explicit_counter_loop e = Some e' /\ ~ same_ok e e'.
Proof.
  show (XLet (PVar 0) (I_ 1) (XSeq (XFor None (PVar 2) (XVar 1) (XSeq (XAsgOp OAdd 0 (I_ 1)) (XLet (PVar 3) (XVar 0) (XCall 4 (XVar 3) U_)))) U_)) yes.
Qed.
(** `let mut i = g(); for x in v { i += 1 }`: `g()` is called twice. *)
Theorem explicit_counter_loop_start_refuted : exists e e', rust e /\ explicit_counter_loop e = Some e' /\ ~ same_ok e e'.
Proof.
  show (XLet (PVar 0) (C_ 3) (XSeq (XFor None (PVar 2) (XVar 1) (XAsgOp OAdd 0 (I_ 1))) U_)) (fun h : list ev => Some (VInt 4)).
Qed.
Print Assumptions explicit_counter_loop_partial.
Print Assumptions explicit_counter_loop_label_refuted.
Print Assumptions explicit_counter_loop_and_refuted.
Print Assumptions explicit_counter_loop_alone_refuted.
Print Assumptions explicit_counter_loop_start_refuted.
