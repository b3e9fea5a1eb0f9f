(* Proofs about VipModel.v *)
From Coq Require Import List Bool PeanoNat Lia.
Import ListNotations.
From Verif Require Import VipSpec VipModel.

(* Where a report is: the statements before, the one that makes the vector, and the pushes *)
Definition located (l : list stm) (r : report) : Prop :=
  exists pre t post, l = pre ++ t :: map (SPush (r_local r)) (r_items r) ++ post /\ length pre = r_start r /\ r_items r <> [] /\
  match r_direct r, t with true, SLet v a | false, SMatch _ v a => v = r_local r /\ (a = INew \/ exists n, a = IConst n /\ n <= length (r_items r)) | _, _ => False end.
Definition inv (pre : list stm) (s : searcher) : Prop :=
  exists p t, pre = p ++ t :: map (SPush (local_id s)) (pushed s) /\ length p = start s /\
  match direct s, t with true, SLet v a | false, SMatch _ v a => v = local_id s /\ a = kind s /\ get_vec_init_kind a = Some a | _, _ => False end.
Section S.
Variable extended : nat -> bool.
Lemma display_located pre s post r : inv pre s -> In r (display_err extended s) -> located (pre ++ post) r.
Proof.
  intros (p & t & E & L & K) I. unfold display_err in I. destruct (Nat.eqb_spec (length (pushed s)) 0) as [Z|Z]; [contradiction|].
  assert (R : r = {| r_local := local_id s; r_direct := direct s; r_start := start s; r_items := pushed s |} /\
              (kind s = INew \/ (exists n, kind s = IConst n /\ n <= length (pushed s)) \/ exists l, kind s = IVec l)).
  { destruct (kind s) as [|n|i|l].
    - destruct (extended (local_id s) && _); [contradiction|]. destruct I as [<-|[]]. auto.
    - destruct (Nat.ltb_spec (length (pushed s)) n); [contradiction|]. destruct (extended (local_id s) && _); [contradiction|]. destruct I as [<-|[]]. split; [reflexivity|]. right. left. exists n. auto.
    - contradiction.
    - destruct (extended (local_id s) && _); [contradiction|]. destruct I as [<-|[]]. split; [reflexivity|]. right. right. eauto. }
  destruct R as [-> Kd]. exists p, t, post. cbn. split; [subst pre; rewrite <- app_assoc; reflexivity|]. split; [assumption|].
  split; [intros X; rewrite X in Z; apply Z; reflexivity|].
  destruct (direct s), t; try contradiction; destruct K as (K1 & K2 & K3); (split; [assumption|]); rewrite K2 in *;
    (destruct Kd as [->|[(n & -> & N)|(l & X)]]; [left; reflexivity|right; eauto|rewrite X in K3; discriminate]).
Qed.
Lemma begin_inv pre n t s : length pre = n -> begin n t = Some s -> inv (pre ++ [t]) s.
Proof.
  intros N B. destruct t; cbn in B; try discriminate; destruct (get_vec_init_kind a) eqn:G; try discriminate; injection B as <-;
    exists pre; eexists; (split; [reflexivity|]); (split; [assumption|]); cbn; (split; [reflexivity|]);
    destruct a; cbn in G; try discriminate; injection G as <-; auto.
Qed.
Lemma check_located l : forall o pre r, match o with Some s => inv pre s | None => True end ->
  In r (check_stmts extended o (length pre) l) -> located (pre ++ l) r.
Proof.
  induction l as [|t l IH]; intros o pre r O I; cbn [check_stmts] in I.
  - destruct o as [s|]; [|contradiction]. eapply display_located; eauto.
  - assert (B : In r (check_stmts extended (begin (length pre) t) (S (length pre)) l) -> located (pre ++ t :: l) r).
    { intros J. replace (pre ++ t :: l) with ((pre ++ [t]) ++ l) by (rewrite <- app_assoc; reflexivity).
      replace (S (length pre)) with (length (pre ++ [t])) in J by (rewrite app_length; cbn; lia).
      eapply IH; [|exact J]. destruct (begin (length pre) t) eqn:G; [|exact Logic.I]. eapply begin_inv; eauto. }
    destruct o as [s|]; [|auto].
    destruct (match t with SPush v i => if Nat.eqb v (local_id s) then Some i else None | _ => None end) as [i|] eqn:P.
    + destruct t; try discriminate. destruct (Nat.eqb_spec v (local_id s)); [|discriminate]. injection P as ->. subst v.
      replace (pre ++ SPush (local_id s) i :: l) with ((pre ++ [SPush (local_id s) i]) ++ l) by (rewrite <- app_assoc; reflexivity).
      replace (S (length pre)) with (length (pre ++ [SPush (local_id s) i])) in I by (rewrite app_length; cbn; lia).
      eapply IH; [|exact I]. destruct O as (p & t & E & L & K). exists p, t. cbn. split; [|split; assumption].
      rewrite E, map_app, <- app_assoc. reflexivity.
    + apply in_app_iff in I. destruct I as [I|I]; [|auto]. eapply display_located; eauto.
Qed.
End S.

Lemma with_value v i : apart v i = true -> forall s u, (forall w, w <> v -> vecs s w = vecs u w) -> vars s = vars u -> calls s = calls u ->
  fst (value i s) = fst (value i u) /\ vecs (snd (value i u)) = vecs u /\ vecs (snd (value i s)) = vecs s /\
  vars (snd (value i s)) = vars (snd (value i u)) /\ calls (snd (value i s)) = calls (snd (value i u)).
Proof.
  induction i; cbn [apart value fst snd]; intros A s u V X C; cbn; try (rewrite ?X, ?C; auto; fail).
  - apply andb_true_iff in A. destruct A as [A1 A2]. destruct (IHi1 A1 s u V X C) as (B1 & B2 & B3 & B4 & B5).
    destruct (value i1 s) as [m s1], (value i1 u) as [m' u1]. cbn in B1, B2, B3, B4, B5.
    destruct (IHi2 A2 s1 u1) as (C1 & C2 & C3 & C4 & C5); [intros w W; rewrite B2, B3; auto|assumption|assumption|].
    destruct (value i2 s1) as [n s2], (value i2 u1) as [n' u2]. cbn in *. subst. repeat split; congruence.
  - apply negb_true_iff in A. apply Nat.eqb_neq in A. rewrite V by congruence. auto.
Qed.
Lemma pushes v l : forallb (apart v) l = true -> forall s u k, (forall w, w <> v -> vecs s w = vecs u w) -> vars s = vars u -> calls s = calls u ->
  vecs s v = k -> let r := values l u in
  let e := exec (map (SPush v) l) s in vecs e v = k ++ fst r /\ (forall w, w <> v -> vecs e w = vecs (snd r) w) /\ vars e = vars (snd r) /\ calls e = calls (snd r).
Proof.
  induction l as [|i l IH]; cbn [forallb map values exec fold_left]; intros A s u k V X C K.
  - cbn. rewrite app_nil_r. auto.
  - apply andb_true_iff in A. destruct A as [A1 A2]. cbn zeta. cbn [exec1].
    destruct (with_value v i A1 s u V X C) as (B1 & B2 & B3 & B4 & B5). destruct (value i s) as [n s1], (value i u) as [n' u1]. cbn in B1, B2, B3, B4, B5. subst n'.
    specialize (IH A2 (with_vec s1 v (vecs s1 v ++ [n])) u1 (k ++ [n])). cbn zeta in IH.
    destruct (values l u1) as [r u2]. cbn [fst snd] in *.
    destruct IH as (D1 & D2 & D3 & D4).
    + intros w W. cbn. unfold upd. destruct (Nat.eqb_spec v w); [congruence|]. rewrite B2, B3. auto.
    + cbn. assumption.
    + cbn. assumption.
    + cbn. unfold upd. rewrite Nat.eqb_refl, B3, K. reflexivity.
    + unfold exec in *. rewrite D1, <- app_assoc. auto.
Qed.
