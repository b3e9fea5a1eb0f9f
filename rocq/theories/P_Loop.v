(** C26: `never_loop`. *)
From Verif Require Import LoopModel LoopSpec LoopProofs.

(** A reported loop's body neither reaches its end nor continues the loop, whatever its tests decide.
    Missing: jumps in the positions the analysis does not look at (see [ok] in LoopSpec.v). *)
Theorem never_loop_sound_partial main b : ok_blk main [] b -> never_loop main b = true -> ~ out_blk b Done /\ ~ out_blk b (Cont main).
Proof. apply never_loop_sound. Qed.
Print Assumptions never_loop_sound_partial.
(** Every execution of a reported loop that ends enters the body exactly once. *)
Theorem never_loop_once_partial main b n o : ok_blk main [] b -> never_loop main b = true -> iterates main (out_blk b) n o -> n = 1.
Proof. apply never_loop_once. Qed.
Print Assumptions never_loop_once_partial.

Definition e_ (k : kind) : ex := N false false k.
Definition n_ (k : kind) : ex := N true false k.
Definition leaf := e_ KLeaf.
Definition brk (i : nat) := n_ (KBreak i ONone).
Definition cont (i : nat) := n_ (KContinue i).

Ltac now_out := cbn; unfold andthen; intuition (try congruence).

(** `'l: loop { c && { continue 'l }; break }` is reported and continues. *)
Definition body_and : blk := BCons (e_ (KShort leaf (cont 0))) (BCons (brk 0) BNil).
Theorem never_loop_and_refuted : exists main b, never_loop main b = true /\ out_blk b (Cont main).
Proof. exists 0, body_and. split; [vm_compute; reflexivity|]. now_out. Qed.
Print Assumptions never_loop_and_refuted.
(** `loop { match x { _ if { continue } => {}, _ => break } ... }`: a jump in a guard. *)
Definition body_guard : blk := BCons (e_ (KMatch leaf (ACons (OSome (cont 0)) (brk 0) (ACons ONone (brk 0) ANil)))) BNil.
Theorem never_loop_guard_refuted : exists main b, never_loop main b = true /\ out_blk b (Cont main).
Proof. exists 0, body_guard. split; [vm_compute; reflexivity|]. now_out. Qed.
Print Assumptions never_loop_guard_refuted.
(** `loop { a[{ break }] = { continue }; }`: the right side is evaluated first. *)
Definition body_assign : blk := BCons (e_ (KAssign (e_ (KSeq (ECons leaf (ECons (brk 0) ENil)))) (cont 0))) BNil.
Theorem never_loop_assign_refuted : exists main b, never_loop main b = true /\ out_blk b (Cont main).
Proof. exists 0, body_assign. split; [vm_compute; reflexivity|]. now_out. Qed.
Print Assumptions never_loop_assign_refuted.
(** `loop { 'a: { c && { break 'a }; return } }`: the end of the block is reached by the jump; the loop
    runs any number of times. *)
Definition body_label : blk := BCons (e_ (KBlock 1 (BCons (e_ (KShort leaf (brk 1))) (BCons (n_ (KRet ONone)) BNil)))) BNil.
Theorem never_loop_label_refuted : exists main b, never_loop main b = true /\ out_blk b Done /\ forall n, iterates main (out_blk b) (S n) Return.
Proof.
  exists 0, body_label. split; [vm_compute; reflexivity|]. assert (D : out_blk body_label Done) by now_out. split; [exact D|].
  induction n as [|n IH].
  - apply It_leave; try discriminate. now_out.
  - eapply It_again; [exact D|auto|exact IH].
Qed.
Print Assumptions never_loop_label_refuted.

(** `loop { 'a: { if c { break 'a } ; return } if d { return } else { break } }` is reported, although the
    labelled block completes; with `continue` in place of `break` it is not. *)
Example C26_nontrivial :
  let body (last : ex) := BCons (e_ (KBlock 1 (BCons (e_ (KIf leaf (brk 1) ONone)) (BCons (n_ (KRet ONone)) BNil))))
                          (BCons (e_ (KIf leaf (n_ (KRet ONone)) (OSome last))) BNil) in
  never_loop 0 (body (brk 0)) = true /\ ok_blk 0 [] (body (brk 0)) /\ out_blk (body (brk 0)) (Brk 0) /\ out_blk (body (brk 0)) Return
  /\ never_loop 0 (body (cont 0)) = false /\ never_loop 0 (body leaf) = false
  (* a loop inside: `loop { loop { if c { break } } return }` *)
  /\ never_loop 0 (BCons (e_ (KLoop 2 (BCons (e_ (KIf leaf (brk 2) ONone)) BNil))) (BCons (n_ (KRet ONone)) BNil)) = true
  (* let else: `loop { let p = x else { continue }; return }` *)
  /\ never_loop 0 (BLetElse leaf (BCons (cont 0) BNil) (BCons (n_ (KRet ONone)) BNil)) = false
  (* `panic!()` has type `!`; `todo!()` may stand for anything *)
  /\ never_loop 0 (BCons (n_ (KSeq ENil)) BNil) = true /\ never_loop 0 (BCons (N true true (KSeq ENil)) BNil) = false.
Proof. cbv zeta. repeat split; try (vm_compute; reflexivity); try now_out. Qed.
