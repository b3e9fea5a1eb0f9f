(* C143: expressions that both read and write a variable. *)
From Coq Require Import List Bool PeanoNat.
Import ListNotations.
From Verif Require Import MrwSpec MrwModel MrwProofs.

(* An expression that is not reported gives the same value and the same variables in whatever order its operands are evaluated, where the operands of
   no expression both write to a variable, and no variable that is written is read behind &. *)
Theorem mixed_read_write_partial :
  forall op e st n1 st1 n2 st2,
  reports e = false -> ~ both_write e -> (forall x, In x (ref_reads e) -> ~ In x (writes e)) ->
  eval op e st n1 st1 -> eval op e st n2 st2 ->
  n1 = n2 /\ forall x, st1 x = st2 x.
Proof.
  intros op e st n1 st1 n2 st2 R BW RR E1 E2.
  assert (FI : fine e) by (apply (reports_fine (writes e)); auto).
  destruct (fine_settled op e FI (fun _ => False)) with (s1 := st) (s2 := st) (n1 := n1) (n2 := n2) (t1 := st1) (t2 := st2) as [N B]; auto.
  - intros x [].
  - intros x _. reflexivity.
Qed.
Print Assumptions mixed_read_write_partial.
(* It is the same also for stores that differ in variables that the expression does not mention *)
Theorem mixed_read_write_apart_partial :
  forall op e (F : nat -> Prop) st st' n1 st1 n2 st2,
  reports e = false -> ~ both_write e -> (forall x, In x (ref_reads e) -> ~ In x (writes e)) ->
  (forall x, F x -> ~ In x (all_reads e) /\ ~ In x (writes e)) -> (forall x, ~ F x -> st x = st' x) ->
  eval op e st n1 st1 -> eval op e st' n2 st2 ->
  n1 = n2 /\ forall x, ~ F x -> st1 x = st2 x.
Proof.
  intros op e F st st' n1 st1 n2 st2 R BW RR CL B E1 E2.
  assert (FI : fine e) by (apply (reports_fine (writes e)); auto).
  exact (fine_settled op e FI F CL st st' n1 n2 st1 st2 B E1 E2).
Qed.
Print Assumptions mixed_read_write_apart_partial.

Definition plus (f a b : nat) : nat := a + b.
(* What is missing.  ({ x = 1; 0 } + { x = 2; 0 }): both operands write, and none reads *)
Theorem mixed_write_write_refuted :
  exists e st n st1 st2 x, reports e = false /\ ref_reads e = [] /\ eval plus e st n st1 /\ eval plus e st n st2 /\ st1 x <> st2 x.
Proof.
  exists (EOp 0 (ESeq (EAssign 0 (ELit 1)) (ELit 0)) (ESeq (EAssign 0 (ELit 2)) (ELit 0))), (fun _ => 0), (plus 0 0 0),
    (set 0 2 (set 0 1 (fun _ => 0))), (set 0 1 (set 0 2 (fun _ => 0))), 0.
  split; [reflexivity|]. split; [reflexivity|].
  split; [eapply (EvOpLeft plus 0); repeat econstructor|]. split; [eapply (EvOpRight plus 0); repeat econstructor|]. cbn. discriminate.
Qed.
Print Assumptions mixed_write_write_refuted.
(* *&{ x } + { x = 1; 0 }: the read is behind & *)
Theorem mixed_read_ref_refuted :
  exists e st n1 n2 st', reports e = false /\ ~ both_write e /\ eval plus e st n1 st' /\ eval plus e st n2 st' /\ n1 <> n2.
Proof.
  exists (EOp 0 (ERef (EVar 0)) (ESeq (EAssign 0 (ELit 1)) (ELit 0))), (fun _ => 0), (plus 0 0 0), (plus 0 1 0), (set 0 1 (fun _ => 0)).
  split; [reflexivity|]. split; [cbn; intros [[x [[] _]]|[[]|[[]|[]]]]|].
  split.
  - eapply (EvOpLeft plus 0 _ _ _ 0 (fun _ => 0) 0 _); [apply EvRef; exact (EvVar plus 0 (fun _ => 0))|]. repeat econstructor.
  - split; [|discriminate]. eapply (EvOpRight plus 0 _ _ _ 1 (set 0 1 (fun _ => 0)) 0 _); [repeat econstructor|]. apply EvRef. exact (EvVar plus 0 (set 0 1 (fun _ => 0))).
Qed.
Print Assumptions mixed_read_ref_refuted.

(* { y = y + z; y } + { while x { x = 0; w += 1 }; x && z } *)
Definition ex : expr :=
  EOp 0 (ESeq (EAssign 1 (EOp 0 (EVar 1) (EVar 2))) (EVar 1))
        (ESeq (EWhile (EVar 0) (ESeq (EAssign 0 (ELit 0)) (EAddAssign 3 (ELit 1)))) (EAnd (EVar 0) (EVar 2))).
Example C143_nontrivial :
  reports ex = false /\ ~ both_write ex /\ ref_reads ex = [] /\ writes ex = [1; 0; 3] /\
  (exists st', eval plus ex (fun _ => 5) 10 st' /\ st' 3 = 6) /\
  (* x + { x = 1; 0 }, x += { x = 1; 0 }, (x += 1) + { x }; x = { x = 1; 0 }, { x = 1; x }, x && { x = 1; 0 } *)
  reports (EOp 0 (EVar 0) (ESeq (EAssign 0 (ELit 1)) (ELit 0))) = true /\
  reports (EAddAssign 0 (ESeq (EAssign 0 (ELit 1)) (ELit 0))) = true /\
  reports (EOp 0 (EAddAssign 0 (ELit 1)) (EVar 0)) = true /\
  reports (EAssign 0 (ESeq (EAssign 0 (ELit 1)) (ELit 0))) = false /\
  reports (ESeq (EAssign 0 (ELit 1)) (EVar 0)) = false /\
  reports (EAnd (EVar 0) (ESeq (EAssign 0 (ELit 1)) (ELit 0))) = false /\
  (* the order matters *)
  (exists st', eval plus (EOp 0 (EVar 0) (ESeq (EAssign 0 (ELit 1)) (ELit 0))) (fun _ => 0) 0 st') /\
  (exists st', eval plus (EOp 0 (EVar 0) (ESeq (EAssign 0 (ELit 1)) (ELit 0))) (fun _ => 0) 1 st').
Proof.
  split; [reflexivity|]. split.
  { cbn. intros H. repeat match goal with
    | H : _ \/ _ |- _ => destruct H | H : exists _, _ |- _ => destruct H | H : _ /\ _ |- _ => destruct H | H : False |- _ => destruct H end; subst; discriminate. }
  split; [reflexivity|]. split; [reflexivity|]. split.
  { eexists. split.
    - eapply (EvOpLeft plus 0 _ _ _ 10 _ 0 _).
      + eapply EvSeq; [apply EvAssign; eapply (EvOpLeft plus 0 _ _ _ 5 _ 5 _); [exact (EvVar plus 1 (fun _ => 5))|exact (EvVar plus 2 (fun _ => 5))]|].
        exact (EvVar plus 1 (set 1 (plus 0 5 5) (fun _ => 5))).
      + eapply EvSeq.
        * eapply EvWhileYes with (k := 4); [exact (EvVar plus 0 (set 1 (plus 0 5 5) (fun _ => 5)))|eapply EvSeq; [apply EvAssign, EvLit|apply EvAddAfter, EvLit]|].
          apply EvWhileNo. match goal with |- eval _ _ ?s _ _ => exact (EvVar plus 0 s) end.
        * apply EvAndNo. match goal with |- eval _ _ ?s _ _ => exact (EvVar plus 0 s) end.
    - reflexivity. }
  repeat (split; [reflexivity|]). split.
  - eexists. eapply (EvOpLeft plus 0 _ _ _ 0 (fun _ => 0) 0 _); [exact (EvVar plus 0 (fun _ => 0))|repeat econstructor].
  - eexists. eapply (EvOpRight plus 0 _ _ _ 1 (set 0 1 (fun _ => 0)) 0 _); [repeat econstructor|exact (EvVar plus 0 (set 0 1 (fun _ => 0)))].
Qed.
