From Coq Require Import List Bool PeanoNat Lia.
Import ListNotations.
From Verif Require Import WliSpec WliModel.

(* ---- places ---- *)
Lemma prefixb_spec a : forall b, prefixb a b = true <-> prefix a b.
Proof.
  induction a as [|x a IH]; intros [|y b]; cbn.
  - split; [exists []; reflexivity|reflexivity].
  - split; [exists (y :: b); reflexivity|reflexivity].
  - split; [discriminate|intros [r E]; discriminate].
  - destruct (step_dec x y) as [->|N]; [rewrite IH|]; split.
    + intros [r ->]. exists r. reflexivity.
    + intros [r E]. inversion E. exists r. reflexivity.
    + discriminate.
    + intros [r E]. inversion E. congruence.
Qed.
Lemma relatedb_spec p q : relatedb p q = true <-> related p q.
Proof. unfold relatedb, related. rewrite andb_true_iff, orb_true_iff, Nat.eqb_eq, !prefixb_spec. tauto. Qed.
Lemma place_eqb_spec p q : place_eqb p q = true <-> p = q.
Proof.
  unfold place_eqb. destruct p as [x a], q as [y b]. cbn [fst snd]. rewrite andb_true_iff, Nat.eqb_eq.
  destruct (list_eq_dec step_dec a b) as [E|N]; split.
  - intros [-> _]. rewrite E. reflexivity.
  - intros H. inversion H. split; reflexivity.
  - intros [_ H]. discriminate H.
  - intros H. inversion H. contradiction.
Qed.
Lemma place_eqb_refl p : place_eqb p p = true.
Proof. apply place_eqb_spec. reflexivity. Qed.
Lemma below_spec a : forall b r, below a b = Some r -> b = a ++ r.
Proof.
  induction a as [|x a IH]; intros [|y b] r; cbn; try congruence. destruct (step_dec x y); [|discriminate]. intros H. rewrite (IH _ _ H). congruence.
Qed.
Lemma prefix_common a b c : prefix a c -> prefix b c -> prefix a b \/ prefix b a.
Proof.
  revert b c. induction a as [|x a IH]; intros b c [r E] [r' E'].
  - left. exists b. reflexivity.
  - destruct b as [|y b]; [right; exists (x :: a); reflexivity|]. subst c. cbn in E'. inversion E'. subst y.
    destruct (IH b (a ++ r)) as [[u U]|[u U]]; [exists r; reflexivity|exists r'; assumption| |].
    + left. exists u. cbn. congruence.
    + right. exists u. cbn. congruence.
Qed.
Lemma prefix_trans a b c : prefix a b -> prefix b c -> prefix a c.
Proof. intros [r ->] [u ->]. exists (r ++ u). rewrite app_assoc. reflexivity. Qed.

(* ---- the fields of expressions ---- *)
Fixpoint chain (p : pexpr) : option (name * list field) :=
  match p with PVar x => Some (x, []) | PField q f => match chain q with Some (x, l) => Some (x, f :: l) | None => None end | _ => None end.
Lemma same_field_chain e : forall x l, chain e = Some (x, l) -> is_expr_same_field e l x = true.
Proof.
  induction e; intros x' l H; cbn in H; try discriminate.
  - inversion H. cbn. apply Nat.eqb_refl.
  - destruct (chain e) as [[x l']|] eqn:C; [|discriminate]. inversion H; subst. cbn. rewrite Nat.eqb_refl. apply IHe. reflexivity.
Qed.
Lemma parent_chain f base x gb : chain base = Some (x, gb) -> forall a, parent_field f base (a ++ f :: gb) x = true.
Proof.
  intros C a. induction a as [|h a IH]; cbn.
  - rewrite Nat.eqb_refl, (same_field_chain _ _ _ C). reflexivity.
  - rewrite IH. apply orb_true_r.
Qed.
Lemma child_chain base : forall x gb a fs, chain base = Some (x, gb) -> gb = a ++ fs -> child_field base fs x = true.
Proof.
  induction base; intros x' gb a fs C E; cbn in C; try discriminate.
  - inversion C; subst. destruct a, fs; try discriminate. cbn. apply Nat.eqb_refl.
  - destruct (chain base) as [[x l]|] eqn:Cb; [|discriminate]. injection C as <- <-. destruct a as [|h a].
    + cbn in E. subst fs. cbn [child_field]. rewrite (same_field_chain (PField base f) x (f :: l)); [reflexivity|]. cbn. rewrite Cb. reflexivity.
    + cbn in E. injection E as -> ->. cbn [child_field]. rewrite (IHbase x (a ++ fs) a fs eq_refl eq_refl). apply orb_true_r.
Qed.
Lemma same_chain c x l fs : chain c = Some (x, l) -> (exists a, fs = a ++ l) \/ (exists a, l = a ++ fs) ->
  is_expr_same_child_or_parent_field c fs x = true.
Proof.
  intros C H. destruct c; cbn in C; try discriminate.
  - inversion C. cbn. apply Nat.eqb_refl.
  - destruct (chain c) as [[x' gb]|] eqn:Cb; [|discriminate]. inversion C; subst x' l. cbn [is_expr_same_child_or_parent_field].
    apply orb_true_iff. destruct H as [[a ->]|[a E]].
    + left. destruct a as [|h a]; cbn.
      * rewrite Nat.eqb_refl, (same_field_chain _ _ _ Cb). reflexivity.
      * rewrite (parent_chain f c x gb Cb a). apply orb_true_r.
    + destruct a as [|h a].
      * left. cbn in E. subst fs. rewrite Nat.eqb_refl, (same_field_chain _ _ _ Cb). reflexivity.
      * right. cbn in E. inversion E. subst. apply (child_chain c x _ a fs Cb eq_refl).
Qed.
Definition static_path (l : list field) : list step := map Fld (rev l).
Lemma map_fld_inj : forall a b, map Fld a = map Fld b -> a = b.
Proof. induction a as [|x a IH]; intros [|y b]; cbn; intros H; inversion H; [reflexivity|]. rewrite (IH b); auto. Qed.
Lemma prefix_static a b : prefix (static_path a) (static_path b) -> exists c, b = c ++ a.
Proof.
  unfold static_path. intros [r E]. assert (E2 : exists r', r = map Fld r' /\ rev b = rev a ++ r').
  { revert E. generalize (rev a), (rev b). intros a' b'. revert b'. induction a' as [|x a' IH]; intros b' E; cbn in E.
    - exists b'. auto.
    - destruct b' as [|y b']; [discriminate|]. cbn in E. inversion E. destruct (IH b' H1) as (r' & -> & Eb). exists r'. split; [reflexivity|]. cbn. congruence. }
  destruct E2 as (r' & _ & Eb). exists (rev r'). rewrite <- (rev_involutive b), Eb, rev_app_distr, rev_involutive. reflexivity.
Qed.
Lemma resolve_chain n c : forall x l, chain c = Some (x, l) -> resolve n c = (x, static_path l).
Proof.
  induction c; intros x' l H; cbn in H; try discriminate.
  - inversion H. reflexivity.
  - destruct (chain c) as [[x k]|] eqn:C; [|discriminate]. inversion H; subst. cbn. rewrite (IHc _ _ eq_refl). cbn.
    unfold static_path. cbn. rewrite map_app. reflexivity.
Qed.
Lemma unrelated_chain n c fs x : chain c <> None -> is_expr_same_child_or_parent_field c fs x = false -> ~ related (resolve n c) (x, static_path fs).
Proof.
  intros N H [E R]. destruct (chain c) as [[x' l]|] eqn:C; [|congruence]. rewrite (resolve_chain n c _ _ C) in *. cbn in E, R. subst x'.
  rewrite (same_chain c x l fs C) in H; [discriminate|].
  destruct R as [R|R]; apply prefix_static in R; [left|right]; exact R.
Qed.
Lemma related_extend p x s : ~ related p s -> forall q, fst q = fst p -> prefix (snd p) (snd q) -> fst s = x -> ~ related q s.
Proof.
  intros N q E P _ [F R]. apply N. split; [congruence|]. destruct R as [R|R].
  - left. exact (prefix_trans _ _ _ P R).
  - destruct (prefix_common _ _ _ P R); auto.
Qed.
Lemma root_resolve n p : fst (resolve n p) = root p.
Proof. induction p; cbn; auto. Qed.
(* A place that is not found to be the iterator is unrelated to it *)
Lemma visit_unrelated n it : forall p,
  (visit_place it p = false -> ~ related (resolve n p) (path it, static_path (fields it))) /\
  (skipped it p = false -> chain p = None -> ~ related (resolve n p) (path it, static_path (fields it))).
Proof.
  set (s := (path it, static_path (fields it))).
  assert (X : forall p q, ~ related (resolve n p) s -> fst (resolve n q) = fst (resolve n p) -> prefix (snd (resolve n p)) (snd (resolve n q)) -> ~ related (resolve n q) s)
    by (intros p q H1 H2 H3; eapply related_extend; eauto).
  assert (Pr : forall (a b : list step), prefix a (a ++ b)) by (intros a b; exists b; reflexivity).
  assert (Rf : forall a : list step, prefix a a) by (intros a; exists []; rewrite app_nil_r; reflexivity).
  induction p as [x|p [IH1 IH2] f|p [IH1 IH2] i|o p [IH1 IH2]|p [IH1 IH2]].
  - split; [|discriminate]. cbn [visit_place]. rewrite orb_false_r. intros H. apply unrelated_chain; [discriminate|exact H].
  - split.
    + cbn [visit_place]. intros H. apply orb_false_iff in H. destruct H as [H1 H2].
      destruct (chain p) as [[x l]|] eqn:C.
      * apply unrelated_chain; [cbn; rewrite C; discriminate|exact H1].
      * apply (X p); [apply IH2; auto|reflexivity|apply Pr].
    + cbn [skipped chain]. intros H C. apply (X p); [apply IH2; [exact H|]|reflexivity|apply Pr].
      destruct (chain p) as [[]|]; [discriminate|reflexivity].
  - split; cbn [visit_place skipped]; intros H; apply orb_false_iff in H; destruct H as [_ H]; intros; (apply (X p); [apply IH1, H|reflexivity|apply Pr]).
  - split; cbn [visit_place skipped]; intros H; apply orb_false_iff in H; destruct H as [_ H]; intros; (apply (X p); [apply IH1, H|reflexivity|apply Rf]).
  - split; cbn [visit_place skipped]; intros H; apply orb_false_iff in H; destruct H as [_ H]; intros; (apply (X p); [apply IH1, H|reflexivity|apply Rf]).
Qed.
(* The iterator is at or within the place that is noted *)
Lemma parse_prefix n p : forall fs m, path (try_parse p fs m) = root p /\
  exists r, static_path (fields (try_parse p fs m)) ++ r = snd (resolve n p) ++ static_path fs.
Proof.
  induction p; intros fs m; cbn [try_parse root resolve fst snd].
  - split; [reflexivity|]. exists []. cbn. apply app_nil_r.
  - destruct (IHp (fs ++ [f]) m) as [A [r B]]. split; [exact A|]. exists r. rewrite B. unfold static_path. rewrite rev_app_distr. cbn.
    rewrite <- app_assoc. reflexivity.
  - destruct (IHp [] false) as [A [r B]]. split; [exact A|]. exists (r ++ Idx (n i) :: static_path fs). rewrite app_assoc, B. cbn. rewrite app_nil_r, <- app_assoc. reflexivity.
  - destruct overloaded.
    + destruct (IHp [] false) as [A [r B]]. split; [exact A|]. exists (r ++ static_path fs). rewrite app_assoc, B. cbn. rewrite app_nil_r. reflexivity.
    + apply IHp.
  - apply IHp.
Qed.
Lemma iter_prefix n p : path (try_parse_iter_expr p) = root p /\ prefix (static_path (fields (try_parse_iter_expr p))) (snd (resolve n p)).
Proof. destruct (parse_prefix n p [] true) as [A [r B]]. split; [exact A|]. exists r. unfold try_parse_iter_expr. rewrite B. cbn. rewrite app_nil_r. reflexivity. Qed.
(* Not related to what is noted: not related to the iterator *)
Lemma unrelated_within q x s p : ~ related q (x, s) -> fst p = x -> prefix s (snd p) -> ~ related q p.
Proof.
  intros N E P [F R]. apply N. split; [cbn; congruence|]. cbn. destruct R as [R|R].
  - destruct (prefix_common _ _ _ P R); auto.
  - right. exact (prefix_trans _ _ _ P R).
Qed.
Lemma visit_away n n' p q : visit_place (try_parse_iter_expr p) q = false -> ~ related (resolve n q) (resolve n' p).
Proof.
  intros H. destruct (iter_prefix n' p) as [A B]. eapply unrelated_within; [apply (proj1 (visit_unrelated n _ q) H)| |exact B].
  rewrite root_resolve. symmetry. exact A.
Qed.
Lemma not_root_away n n' p q : root q <> root p -> ~ related (resolve n q) (resolve n' p).
Proof. intros N [E _]. rewrite !root_resolve in E. contradiction. Qed.
Lemma root_is_false x p : root_is x p = false -> root p <> x.
Proof. induction p; cbn; auto. intros H. apply Nat.eqb_neq, H. Qed.
