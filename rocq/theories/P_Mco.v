(* C146: divisions behind a check of the divisor *)
From Coq Require Import List Bool PeanoNat Lia.
Import ListNotations.
From Verif Require Import McoSpec McoModel McoProofs.

(* The branch that runs, of if d c 0 or if 0 c d, where d has the value v *)
Definition taken (c : cmp) (zero_left : bool) (v : nat) (e e' : expr) : expr :=
  if (if zero_left then holds c 0 v else holds c v 0) then e else e'.

Lemma taken_nonzero c z v e e' b : divisor_from_condition c z = Some b ->
  v <> 0 /\ taken c z v e e' = match b with Then => e | Else => e' end \/ v = 0 /\ taken c z v e e' = match b with Then => e' | Else => e end.
Proof.
  unfold divisor_from_condition, taken. intros D. destruct v; [right|left]; (split; [lia|]); destruct c, z; try discriminate; injection D as <-; reflexivity.
Qed.

(* A division that is reported divides by the value that was checked, which is not zero: so checked_div is Some of the quotient; missing:
   variables of the divisor that are assigned. *)
Theorem manual_checked_partial :
  forall op c z d e e' n s vd ld td v l t w,
  (forall x, reads x d = true -> assigns x e = false /\ assigns x e' = false) -> times n e + times n e' <= 1 ->
  In n (reported c z d e e') ->
  run op d s vd ld td -> run op (taken c z vd e e') s v l t -> In (n, w) l -> w = vd /\ w <> 0.
Proof.
  intros op c z d e e' n s vd ld td v l t w A T R D H I. unfold reported in R.
  destruct (divisor_from_condition c z) as [b|] eqn:DC; [|contradiction].
  destruct (eq_expr d d) eqn:P; [|contradiction]. cbn in R. unfold eq_expr in P. destruct (expr_eq_dec d d); [|discriminate].
  destruct (visit d _ []) as [f|] eqn:V; [|contradiction].
  destruct (visit_by_d _ _ _ _ _ V R) as [[]|[T1 T2]].
  destruct (taken_nonzero c z vd e e' b DC) as [[N E]|[N E]]; rewrite E in H.
  - assert (w = vd); [|subst; auto].
    eapply (same_divisor op d n); [exact H|exact P| |apply T2; destruct b; lia|exact D|reflexivity|exact I].
    intros x X. destruct (A x X). destruct b; assumption.
  - exfalso. eapply (never_there op n); [exact H| |exact I]. destruct b; lia.
Qed.
Print Assumptions manual_checked_partial.
(* The first division by a variable that is reported, even where the variable is assigned; missing: divisions in loops, and whose dividend
   assigns the variable. *)
Theorem manual_checked_first_partial :
  forall op c z x e e' n r s v l t w,
  once x n e = true -> once x n e' = true -> times n e + times n e' <= 1 ->
  reported c z (EVar x) e e' = n :: r ->
  run op (taken c z (s x) e e') s v l t -> In (n, w) l -> w = s x /\ w <> 0.
Proof.
  intros op c z x e e' n r s v l t w O O' T R H I. unfold reported in R.
  destruct (divisor_from_condition c z) as [b|] eqn:DC; [|discriminate].
  rewrite eq_var in R. cbn [negb] in R. destruct (visit (EVar x) _ []) as [f|] eqn:V; [|discriminate]. subst f.
  pose proof (first_there _ _ _ _ V) as T1.
  destruct (taken_nonzero c z (s x) e e' b DC) as [[N E]|[N E]]; rewrite E in H.
  - assert (w = s x); [|subst; auto]. eapply (first_divisor op x n); [exact H| | |exact V|exact I]; destruct b; auto; lia.
  - exfalso. eapply (never_there op n); [exact H| |exact I]. destruct b; lia.
Qed.
Print Assumptions manual_checked_first_partial.
(* if 0 < a + b { loop { c / (a + b) } }, and if b == 0 { } else { c / b; b = 0 } *)
Example C146_nontrivial :
  let d := EOp 0 (EVar 1) (EVar 2) in
  let e := ELoop (EAssign 3 (EDiv 9 (EVar 3) d)) in
  let e' := ESeq (EDiv 9 (EVar 3) (EVar 2)) (EAssign 2 (ELit 0)) in
  reported Lt true d e (ELit 0) = [9] /\ (forall x, reads x d = true -> assigns x e = false) /\
  reported Eq false (EVar 2) (ELit 0) e' = [9] /\ once 2 9 e' = true /\ times 9 e' = 1 /\
  exists v l t, run (fun _ => Nat.add) (taken Eq false 5 (ELit 0) e') (fun _ => 5) v l t /\ In (9, 5) l.
Proof.
  cbv zeta. split; [vm_compute; reflexivity|]. split.
  { intros x. cbn. destruct (Nat.eqb_spec x 3); [subst; discriminate|reflexivity]. }
  split; [vm_compute; reflexivity|]. split; [reflexivity|]. split; [reflexivity|].
  do 3 eexists. split.
  - unfold taken. cbn [holds Nat.eqb]. eapply RSeq; [eapply RDiv; apply RVar|]. eapply RAssign. apply RLit.
  - cbn. left. reflexivity.
Qed.

Definition checked (c : cmp) (z : bool) (d e e' : expr) : Prop :=
  forall op n s vd ld td v l t w, In n (reported c z d e e') -> run op d s vd ld td -> run op (taken c z vd e e') s v l t -> In (n, w) l -> w <> 0.
(* if b != 0 { c / b; b = 0; c / b } *)
Theorem manual_checked_second_refuted :
  exists x e e', (forall n, times n e + times n e' <= 1 /\ once x n e = true /\ once x n e' = true) /\ ~ checked Ne false (EVar x) e e'.
Proof.
  exists 2, (ESeq (EDiv 8 (EVar 3) (EVar 2)) (ESeq (EAssign 2 (ELit 0)) (EDiv 9 (EVar 3) (EVar 2)))), (ELit 0). split.
  { intros n. cbn. destruct (Nat.eqb_spec n 8), (Nat.eqb_spec n 9); subst; try discriminate; cbn; auto. }
  intros H. refine (H (fun _ => Nat.add) 9 (fun _ => 5) 5 _ _ _ _ _ 0 _ _ _ _ eq_refl).
  - vm_compute. auto.
  - apply (RVar _ 2 (fun _ => 5)).
  - unfold taken. cbn [holds Nat.eqb negb]. eapply RSeq; [eapply RDiv; apply RVar|].
    eapply RSeq; [eapply RAssign; apply RLit|]. eapply RDiv; apply RVar.
  - cbn. auto.
Qed.
Print Assumptions manual_checked_second_refuted.
(* if a + b != 0 { a = 0; c / (a + b) }: only uses of the whole divisor are looked for *)
Theorem manual_checked_assigned_refuted :
  exists d e e', (forall n x, times n e + times n e' <= 1 /\ once x n e = true /\ once x n e' = true) /\ ~ checked Ne false d e e'.
Proof.
  exists (EOp 0 (EVar 1) (EVar 2)), (ESeq (EAssign 1 (ELit 0)) (EDiv 9 (EVar 3) (EOp 0 (EVar 1) (EVar 2)))), (ELit 0). split.
  { intros n x. cbn. destruct (Nat.eqb_spec n 9); subst; cbn; auto. }
  intros H. refine (H (fun _ => Nat.add) 9 (fun x => if Nat.eqb x 1 then 5 else 0) 5 _ _ _ _ _ 0 _ _ _ _ eq_refl).
  - vm_compute. auto.
  - eapply (ROp (fun _ => Nat.add) 0 (EVar 1) (EVar 2) (fun x => if Nat.eqb x 1 then 5 else 0) (fun x => if Nat.eqb x 1 then 5 else 0) (fun x => if Nat.eqb x 1 then 5 else 0) 5 0 [] []); [apply (RVar _ 1 (fun x => if Nat.eqb x 1 then 5 else 0))|apply (RVar _ 2 (fun x => if Nat.eqb x 1 then 5 else 0))].
  - unfold taken. cbn [holds Nat.eqb negb]. eapply RSeq; [eapply RAssign; apply RLit|].
    eapply RDiv; [apply RVar|]. eapply ROp; apply RVar.
  - cbn. auto.
Qed.
Print Assumptions manual_checked_assigned_refuted.
(* if b != 0 { { b = 0; c } / b }: what is divided is not looked at *)
Theorem manual_checked_dividend_refuted :
  exists x e e', (forall n, times n e + times n e' <= 1) /\ ~ checked Ne false (EVar x) e e'.
Proof.
  exists 2, (EDiv 9 (ESeq (EAssign 2 (ELit 0)) (EVar 3)) (EVar 2)), (ELit 0). split.
  { intros n. cbn. destruct (Nat.eqb_spec n 9); subst; cbn; auto. }
  intros H. refine (H (fun _ => Nat.add) 9 (fun _ => 5) 5 _ _ _ _ _ 0 _ _ _ _ eq_refl).
  - vm_compute. auto.
  - apply (RVar _ 2 (fun _ => 5)).
  - unfold taken. cbn [holds Nat.eqb negb]. eapply RDiv; [|apply RVar]. eapply RSeq; [eapply RAssign; apply RLit|]. apply RVar.
  - cbn. auto.
Qed.
Print Assumptions manual_checked_dividend_refuted.
