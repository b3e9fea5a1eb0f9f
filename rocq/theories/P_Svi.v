(* C147: vectors that are filled with zeros *)
From Coq Require Import List Bool PeanoNat Lia.
Import ListNotations.
From Verif Require Import SviSpec SviModel.

Lemma upd_eq {A} (f : nat -> A) x a : upd f x a x = a.
Proof. unfold upd. rewrite Nat.eqb_refl. reflexivity. Qed.
Lemma upd_upd {A} (f : nat -> A) x a b y : upd (upd f x a) x b y = upd f x b y.
Proof. unfold upd. destruct (Nat.eqb x y); reflexivity. Qed.
Lemma plain_value v z : plain v z = true -> forall s l c, value z s = (fst (value z s), s) /\ value z (with_vec s v l c) = (fst (value z s), with_vec s v l c).
Proof.
  induction z; cbn [plain value]; intros P s l c; try discriminate; auto.
  - apply andb_true_iff in P. destruct P as [P1 P2]. destruct (IHz1 P1 s l c) as [A1 A2], (IHz2 P2 s l c) as [B1 B2].
    rewrite A1, A2, B1, B2. cbn. auto.
  - split; [reflexivity|]. cbn. unfold upd. apply negb_true_iff in P. rewrite P. reflexivity.
Qed.
Lemma resized_nil n fill : resized [] n fill = repeat fill n.
Proof. unfold resized. rewrite firstn_nil, Nat.sub_0_r. reflexivity. Qed.

(* What is suggested leaves the same behind; missing: allocations that only one arm of a match makes, and sizes that ask the vector itself or
   a capacity, or have side effects *)
Theorem slow_init_partial :
  forall room v a b c s,
  suggested (SInit v a) b = Some c ->
  match b with SResize _ z _ | SExtend _ _ z => plain v z = true | _ => True end ->
  same (exec room c s) (exec room b (exec room (SInit v a) s)).
Proof.
  intros room v a b c s H P. cbn [suggested] in H. destruct (as_vec_initializer a) as [i|] eqn:A; [|discriminate].
  destruct (search_slow v i b) as [z|] eqn:S; [|discriminate]. injection H as <-.
  assert (E : exists len, (b = SResize v len 0 \/ b = SExtend v 0 len) /\ matching i len = Some z).
  { destruct b; cbn in S; try discriminate.
    - destruct (Nat.eqb_spec v0 v); [|discriminate]. destruct (Nat.eqb_spec fill 0); [|discriminate]. subst. eauto.
    - destruct (Nat.eqb_spec v0 v); [|discriminate]. destruct (Nat.eqb_spec elem 0); [|discriminate]. subst. eauto. }
  destruct E as (len & B & M).
  assert (Pl : plain v len = true) by (destruct B; subst; assumption). clear P S.
  assert (len = z /\ exists n, exec room (SInit v a) s = with_vec s v [] n) as [-> [n E]].
  { destruct a; cbn in A; try discriminate; injection A as <-; cbn in M.
    - injection M as <-. cbn. eauto.
    - unfold eq_expr in M. destruct (size_eq_dec len z0).
      + injection M as <-. subst. split; [reflexivity|]. cbn. destruct (plain_value v z0 Pl s [] 0) as [-> _]. eauto.
      + destruct len; cbn in M, Pl; discriminate. }
  rewrite E. destruct (plain_value v z Pl s [] n) as [V1 V2].
  destruct B; subst; cbn [exec allocated]; rewrite V1, V2; cbn [with_vec vecs nums calls same]; rewrite upd_eq, ?resized_nil; cbn [app];
    (split; [|split]); cbn; auto; intros w; rewrite upd_upd; reflexivity.
Qed.
Print Assumptions slow_init_partial.
(* v = Vec::with_capacity(x + w.len()); v.resize(x + w.len(), 0) *)
Example C147_nontrivial :
  let z := ZAdd (ZVar 3) (ZLen 2) in
  suggested (SInit 1 (ACap z)) (SResize 1 z 0) = Some (SInit 1 (AZeros z)) /\ plain 1 z = true /\
  suggested (SInit 1 ANew) (SExtend 1 0 z) = Some (SInit 1 (AZeros z)) /\ suggested (SInit 1 (ACap z)) (SResize 1 z 7) = None /\
  suggested (SInit 1 (ACap z)) (SResize 1 (ZVar 3) 0) = None.
Proof. repeat split. Qed.

Definition kept (a b : stm) : Prop := forall room, (forall n, n <= room n) -> forall c s, suggested a b = Some c -> same (exec room c s) (exec room b (exec room a s)).
Definition start : store := {| vecs := fun _ => [7; 7]; caps := fun _ => 5; nums := fun _ => 1; calls := 0 |}.
(* The capacity of any vector is taken for the size: let mut v = Vec::with_capacity(1); v.resize(w.capacity(), 0) *)
Theorem slow_init_other_capacity_refuted : exists v w n, v <> w /\ ~ kept (SInit v (ACap (ZLit n))) (SResize v (ZCap w) 0).
Proof.
  exists 1, 2, 1. split; [discriminate|]. intros H. destruct (H (fun n => n) (fun n => le_n n) _ start eq_refl) as [E _].
  specialize (E 1). vm_compute in E. discriminate.
Qed.
Print Assumptions slow_init_other_capacity_refuted.
(* A vector may have more room than it was asked for: let mut v = Vec::with_capacity(1); v.resize(v.capacity(), 0) *)
Theorem slow_init_capacity_refuted : exists v n, ~ kept (SInit v (ACap (ZLit n))) (SResize v (ZCap v) 0).
Proof.
  exists 1, 1. intros H. destruct (H (fun n => n + 3) (fun n => Nat.le_add_r n 3) _ start eq_refl) as [E _].
  specialize (E 1). vm_compute in E. discriminate.
Qed.
Print Assumptions slow_init_capacity_refuted.
(* v = Vec::new(); v.resize(v.len() + 1, 0) *)
Theorem slow_init_self_refuted : exists v, ~ kept (SInit v ANew) (SResize v (ZAdd (ZLen v) (ZLit 1)) 0).
Proof.
  exists 1. intros H. destruct (H (fun n => n) (fun n => le_n n) _ start eq_refl) as [E _]. specialize (E 1). vm_compute in E. discriminate.
Qed.
Print Assumptions slow_init_self_refuted.
(* let mut v = Vec::with_capacity(next()); v.resize(next(), 0) *)
Theorem slow_init_call_refuted : exists v, ~ kept (SInit v (ACap ZCall)) (SResize v ZCall 0).
Proof.
  exists 1. intros H. destruct (H (fun n => n) (fun n => le_n n) _ start eq_refl) as [E _]. specialize (E 1). vm_compute in E. discriminate.
Qed.
Print Assumptions slow_init_call_refuted.
(* match x { 0 => v = Vec::new(), _ => () } v.extend(repeat(0).take(1)) *)
Theorem slow_init_match_refuted : exists v x, ~ kept (SMatch x (SInit v ANew) SOther) (SExtend v 0 (ZLit 1)).
Proof.
  exists 1, 3. intros H. destruct (H (fun n => n) (fun n => le_n n) _ start eq_refl) as [E _]. specialize (E 1). vm_compute in E. discriminate.
Qed.
Print Assumptions slow_init_match_refuted.
