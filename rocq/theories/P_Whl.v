(* C136: loops whose condition does not change *)
From Coq Require Import List ZArith Bool PeanoNat.
Import ListNotations.
From Verif Require Import WhlSpec WhlModel WhlProofs.
Local Open Scope Z_scope.

(* The loop is as `if c { loop { .. } }`.  Partial: without overloaded operators in the condition, see below. *)
Theorem while_immutable_rewrite_partial : forall op consts calls leaves writes c b h,
  check c b = Some h -> overloaded c = false ->
  forall fuel st, exec op consts calls leaves writes (S (S fuel)) (SIf c (SLoop b) SSkip) st =
                  exec op consts calls leaves writes (S fuel) (SWhile c b) st.
Proof.
  intros op consts calls leaves writes c b h C O fuel st.
  destruct (Z.eq_dec (fst (eval op consts calls leaves writes c st)) 0) as [E|N].
  - cbn [exec]. destruct (eval op consts calls leaves writes c st) as [v s1]. cbn in E. subst v. reflexivity.
  - destruct (while_loop op consts calls leaves writes c b h C O st N (S fuel) st (fun _ _ => eq_refl)) as (A & _ & B).
    rewrite B. change (exec op consts calls leaves writes (S (S fuel)) (SIf c (SLoop b) SSkip) st) with
      (let (v, st) := eval op consts calls leaves writes c st in
       if v =? 0 then exec op consts calls leaves writes (S fuel) SSkip st else exec op consts calls leaves writes (S fuel) (SLoop b) st).
    destruct (eval op consts calls leaves writes c st) as [v s1]. cbn in A, N. subst s1.
    destruct (Z.eqb_spec v 0); [contradiction|reflexivity].
Qed.
(* It never runs, or never ends, if it has no break or return, and continues no loop around it *)
Theorem while_immutable_endless_partial : forall op consts calls leaves writes c b,
  check c b = Some false -> overloaded c = false -> continues_outer 1 b = false ->
  forall st, (forall fuel, exec op consts calls leaves writes (S fuel) (SWhile c b) st = Norm st) \/
             (forall fuel, exec op consts calls leaves writes fuel (SWhile c b) st = Out).
Proof.
  intros op consts calls leaves writes c b C O K st.
  assert (H : has_break_or_return b = false).
  { unfold check in C. destruct (collect c) as [[ids defs]|]; [|discriminate]. destruct (_ && _ && _) in C; [|discriminate]. congruence. }
  destruct (Z.eq_dec (fst (eval op consts calls leaves writes c st)) 0) as [E|N].
  - left. intros fuel. cbn [exec].
    assert (A : snd (eval op consts calls leaves writes c st) = st).
    { unfold check in C. destruct (collect c) as [[ids defs]|] eqn:CC; [|discriminate].
      destruct (disjoint ids (mutated b) && disjoint ids (mutated_e c) && negb (existsb (fun m => m) defs)) eqn:D; [|discriminate].
      apply andb_true_iff in D. destruct D as [D M]. apply andb_true_iff in D. destruct D as [_ D2]. apply negb_true_iff in M.
      apply (collect_pure op consts calls leaves writes c ids defs CC O (fun x J => disjoint_not _ _ x D2 J) M st st (fun _ _ => eq_refl)). }
    destruct (eval op consts calls leaves writes c st) as [v s1]. cbn in A, E. subst. reflexivity.
  - right. intros fuel. destruct (while_loop op consts calls leaves writes c b false C O st N fuel st (fun _ _ => eq_refl)) as (_ & _ & ->).
    apply loop_out; assumption.
Qed.
Print Assumptions while_immutable_rewrite_partial.
Print Assumptions while_immutable_endless_partial.

Definition op0 (o : nat) (a b : Z) : Z := match o with O => a + b | _ => if a <? b then 1 else 0 end.
Definition state0 : state := {| vars := fun x => Z.of_nat x; muts := fun _ => 0; made := [] |}.
(* while x1 < x2 { x3 = x3 + f(x1); if x3 < 5 { break } } *)
Definition cond0 : expr := EOp 1 (EVar 1%nat) (EVar 2%nat).
Definition body0 : stmt := SSeq (SAssign 3%nat (EOp 0 (EVar 3%nat) (ECall 7 (EVar 1%nat)))) (SIf (EOp 1 (ELit 5) (EVar 3%nat)) (SBreak 0) SSkip).
Example C136_nontrivial :
  check cond0 body0 = Some true /\ overloaded cond0 = false /\
  match exec op0 (fun _ => 0) (fun _ _ _ => 1) (fun _ _ _ m => m) (fun _ _ _ => 0) 20 (SWhile cond0 body0) state0 with
  | Norm st => vars st 3%nat = 6 /\ length (made st) = 3%nat | _ => False end.
Proof. split; [reflexivity|]. split; [reflexivity|]. vm_compute. auto. Qed.
Example C136_endless :
  check cond0 (SExpr (ECallMut 7 3%nat (EVar 1%nat))) = Some false /\
  check cond0 (SExpr (ECallMut 7 2%nat (EVar 1%nat))) = None /\ check (EOp 1 (EStaticMut 1%nat) (EVar 2%nat)) SSkip = None /\
  check (EOp 1 (EAssign 1%nat (ELit 0)) (EVar 2%nat)) SSkip = None /\ check (ECall 1 (EVar 2%nat)) SSkip = None.
Proof. repeat split. Qed.

(* while x1 == x2 where == is overloaded and may change its mind: reported, though the loop runs and ends *)
Theorem while_immutable_overloaded_refuted : exists op consts calls leaves writes c b st fuel st',
  check c b = Some false /\ continues_outer 1 b = false /\
  exec op consts calls leaves writes fuel (SWhile c b) st = Norm st' /\ (length (made st') > 2)%nat /\
  (forall f, exec op consts calls leaves writes f (SIf c (SLoop b) SSkip) st = Out).
Proof.
  exists (fun _ _ _ => 0), (fun _ => 0), (fun _ _ t => if (length t <? 3)%nat then 1 else 0), (fun _ _ _ m => m), (fun _ _ _ => 0),
    (EOver 1 (EVar 1%nat) (EVar 2%nat)), SSkip, state0, 9%nat. eexists.
  split; [reflexivity|]. split; [reflexivity|]. split; [vm_compute; reflexivity|]. split; [vm_compute; repeat constructor|].
  intros [|f]; [reflexivity|]. cbn -[exec]. apply loop_out; reflexivity.
Qed.
Print Assumptions while_immutable_overloaded_refuted.
(* 'a: loop { while x1 < x2 { continue 'a } }: reported without the help, though the inner loop ends *)
Theorem while_immutable_continue_refuted : exists op consts calls leaves writes c b st fuel,
  check c b = Some false /\ overloaded c = false /\
  exec op consts calls leaves writes fuel (SWhile c b) st = Cont 0 st /\ fst (eval op consts calls leaves writes c st) <> 0.
Proof.
  exists op0, (fun _ => 0), (fun _ _ _ => 1), (fun _ _ _ m => m), (fun _ _ _ => 0), cond0, (SContinue 1), state0, 3%nat.
  split; [reflexivity|]. split; [reflexivity|]. split; [reflexivity|vm_compute; discriminate].
Qed.
Print Assumptions while_immutable_continue_refuted.
