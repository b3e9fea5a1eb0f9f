(* C149: vectors that are made and pushed to *)
From Coq Require Import List Bool PeanoNat Lia.
Import ListNotations.
From Verif Require Import VipSpec VipModel VipProofs.

Lemma value_same i : forall s u, same s u -> fst (value i s) = fst (value i u) /\ same (snd (value i s)) (snd (value i u)).
Proof.
  induction i; intros s u S; cbn; try (split; [|assumption]); try (destruct S as (A & B & C); rewrite ?A, ?B, ?C; reflexivity).
  - destruct (IHi1 s u S) as [A B]. destruct (value i1 s) as [m s1], (value i1 u) as [m' u1]. cbn in A, B. subst.
    destruct (IHi2 s1 u1 B) as [C D]. destruct (value i2 s1) as [n s2], (value i2 u1) as [n' u2]. cbn in *. subst. auto.
  - destruct S as (A & B & C). rewrite C. split; [reflexivity|]. split; [exact A|]. split; [exact B|]. reflexivity.
Qed.
Lemma values_same l : forall s u, same s u -> fst (values l s) = fst (values l u) /\ same (snd (values l s)) (snd (values l u)).
Proof.
  induction l as [|i l IH]; intros s u S; cbn; [auto|].
  destruct (value_same i s u S) as [A B]. destruct (value i s) as [m s1], (value i u) as [m' u1]. cbn in A, B. subst.
  destruct (IH s1 u1 B) as [C D]. destruct (values l s1) as [n s2], (values l u1) as [n' u2]. cbn in *. subst. auto.
Qed.
Lemma with_same s u v l : same s u -> same (with_vec s v l) (with_vec u v l).
Proof. intros (A & B & C). split; [|auto]. intros w. cbn. unfold upd. destruct (Nat.eqb v w); auto. Qed.
Lemma made_same v a s u : same s u -> same (made v a s) (made v a u).
Proof.
  intros S. destruct a; cbn; try (apply with_same; assumption).
  - destruct (value_same i s u S) as [A B]. destruct (value i s), (value i u). cbn in *. apply with_same. assumption.
  - destruct (values_same l s u S) as [A B]. destruct (values l s), (values l u). cbn in *. subst. apply with_same. assumption.
Qed.
Lemma exec_same l : forall s u, same s u -> same (exec l s) (exec l u).
Proof.
  induction l as [|t l IH]; intros s u S; cbn; [assumption|]. apply IH. destruct t; cbn.
  - apply made_same. assumption.
  - destruct S as (A & B & C). rewrite B. destruct (Nat.eqb (vars u x) 0); [apply made_same|]; repeat split; auto.
  - destruct (value_same i s u S) as [A B]. destruct (value i s), (value i u). cbn in *. subst. pose proof B as (B1 & _). rewrite B1. apply with_same. assumption.
  - destruct (value_same i s u S) as [A B]. destruct (value i s), (value i u). cbn in *. subst. destruct B as (B1 & B2 & B3).
    split; [exact B1|]. split; [|exact B3]. intros y. cbn. unfold upd. destruct (Nat.eqb x y); auto.
Qed.

(* What is reported is a vector that is made empty, and the pushes that follow at once, one at least and no fewer than it has room for *)
Theorem init_then_push_reports :
  forall extended l r, In r (check_stmts extended None 0 l) ->
  exists pre t post, l = pre ++ t :: map (SPush (r_local r)) (r_items r) ++ post /\ length pre = r_start r /\ r_items r <> [] /\
  match r_direct r, t with
  | true, SLet v a | false, SMatch _ v a => v = r_local r /\ (a = INew \/ exists n, a = IConst n /\ n <= length (r_items r))
  | _, _ => False
  end.
Proof. intros extended l r I. exact (check_located extended l None [] r Logic.I I). Qed.
Print Assumptions init_then_push_reports.
(* vec![..] of what is pushed leaves the same behind; missing: vectors that only one arm of a match makes, and items that ask the vector *)
Theorem init_then_push_partial :
  forall extended l r s,
  In r (check_stmts extended None 0 l) -> r_direct r = true -> forallb (apart (r_local r)) (r_items r) = true ->
  same (exec (firstn (r_start r) l ++ SLet (r_local r) (IVec (r_items r)) :: skipn (r_start r + S (length (r_items r))) l) s) (exec l s).
Proof.
  intros extended l r s I D A. destruct (init_then_push_reports extended l r I) as (pre & t & post & E & L & _ & K).
  rewrite D in K. destruct t as [v a| | |]; try contradiction. destruct K as [-> K].
  assert (F : firstn (r_start r) l = pre) by (subst l; rewrite <- L, firstn_app, Nat.sub_diag, firstn_O, app_nil_r; apply firstn_all2; lia).
  assert (G : skipn (r_start r + S (length (r_items r))) l = post).
  { subst l. rewrite <- L. rewrite skipn_app. rewrite skipn_all2 by lia. replace (length pre + S (length (r_items r)) - length pre) with (S (length (r_items r))) by lia.
    cbn [app skipn]. rewrite skipn_app, map_length, Nat.sub_diag. rewrite skipn_all2 by (rewrite map_length; lia). reflexivity. }
  rewrite F, G. clear F G. subst l. unfold exec at 1 2. rewrite !fold_left_app. cbn [fold_left]. rewrite fold_left_app. apply exec_same.
  match goal with |- context [fold_left ?f pre s] => set (u := fold_left f pre s) end. clearbody u.
  assert (M : made (r_local r) a u = with_vec u (r_local r) []) by (destruct K as [->|(n & -> & _)]; reflexivity).
  cbn [exec1]. rewrite M. cbn [made].
  pose proof (pushes (r_local r) (r_items r) A (with_vec u (r_local r) []) u []) as P. cbn zeta in P.
  destruct (values (r_items r) u) as [vs u']. cbn [fst snd] in P. destruct P as (P1 & P2 & P3 & P4).
  - intros w W. cbn. unfold upd. destruct (Nat.eqb_spec (r_local r) w); congruence.
  - reflexivity.
  - reflexivity.
  - cbn. unfold upd. rewrite Nat.eqb_refl. reflexivity.
  - unfold exec in *. split; [|split].
    + intros w. cbn. unfold upd. destruct (Nat.eqb_spec (r_local r) w); [subst; rewrite P1; reflexivity|]. rewrite P2 by congruence. reflexivity.
    + intros x. rewrite P3. reflexivity.
    + rewrite P4. reflexivity.
Qed.
Print Assumptions init_then_push_partial.
(* x = 1; let mut v = Vec::with_capacity(2); v.push(x); v.push(next()); x = v.len() *)
Example C149_nontrivial :
  let l := [SSet 5 (ILit 1); SLet 1 (IConst 2); SPush 1 (IVar 5); SPush 1 ICall; SSet 5 (ILen 1)] in
  check_stmts (fun _ => false) None 0 l = [{| r_local := 1; r_direct := true; r_start := 1; r_items := [IVar 5; ICall] |}] /\
  forallb (apart 1) [IVar 5; ICall] = true /\
  check_stmts (fun _ => true) None 0 l = [] /\ check_stmts (fun _ => false) None 0 [SLet 1 (IConst 2); SPush 1 (IVar 5)] = [].
Proof. repeat split. Qed.

(* v = Vec::new(); v.push(v.len()) *)
Theorem init_then_push_self_refuted :
  exists l r s, In r (check_stmts (fun _ => false) None 0 l) /\ r_direct r = true /\
  ~ same (exec (firstn (r_start r) l ++ SLet (r_local r) (IVec (r_items r)) :: skipn (r_start r + S (length (r_items r))) l) s) (exec l s).
Proof.
  exists [SLet 1 INew; SPush 1 (ILen 1)], {| r_local := 1; r_direct := true; r_start := 0; r_items := [ILen 1] |},
    {| vecs := fun _ => [7; 7]; vars := fun _ => 1; calls := 0 |}.
  split; [left; reflexivity|]. split; [reflexivity|]. intros [H _]. specialize (H 1). vm_compute in H. discriminate.
Qed.
Print Assumptions init_then_push_self_refuted.
(* match x { 0 => v = Vec::new(), _ => () } v.push(1) *)
Theorem init_then_push_match_refuted :
  exists l r s, In r (check_stmts (fun _ => false) None 0 l) /\ forallb (apart (r_local r)) (r_items r) = true /\
  ~ same (exec (firstn (r_start r) l ++ SLet (r_local r) (IVec (r_items r)) :: skipn (r_start r + S (length (r_items r))) l) s) (exec l s).
Proof.
  exists [SMatch 5 1 INew; SPush 1 (ILit 1)], {| r_local := 1; r_direct := false; r_start := 0; r_items := [ILit 1] |},
    {| vecs := fun _ => [7; 7]; vars := fun _ => 1; calls := 0 |}.
  split; [left; reflexivity|]. split; [reflexivity|]. intros [H _]. specialize (H 1). vm_compute in H. discriminate.
Qed.
Print Assumptions init_then_push_match_refuted.
