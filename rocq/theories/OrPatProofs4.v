From Coq Require Import Lia.
From Verif Require Export OrPatProofs3.

(** ** Parentheses do not matter for what is matched *)
Section Map.
  Context (w : world) (g : pat -> pat).
  Lemma mlist_map ps : Forall (fun p => forall vs, m w (g p) vs = m w p vs) ps -> forall vs, mlist w (map g ps) vs = mlist w ps vs.
  Proof.
    induction 1 as [|p ps H F IH]; intros vs; [reflexivity|]. cbn [map mlist]. rewrite H. apply flat_map_ext. intros x. now rewrite IH.
  Qed.
  Lemma mor_map ps : Forall (fun p => forall vs, m w (g p) vs = m w p vs) ps -> forall vs, m w (POr (map g ps)) vs = m w (POr ps) vs.
  Proof. intros F vs. induction F as [|p ps H F IH]; [reflexivity|]. cbn [m map flat_map] in *. now rewrite H, IH. Qed.
  Lemma mfields_map n v fps : Forall (fun f => forall vs, m w (g (snd f)) vs = m w (snd f) vs) fps ->
    mfields w n v (map (fun f => (fst f, g (snd f))) fps) = mfields w n v fps.
  Proof.
    induction 1 as [|f fps H F IH]; [reflexivity|]. cbn [map]. rewrite !mfields_cons. cbn [snd]. change (field_name (fst f, g (snd f))) with (field_name f).
    destruct (field w n (field_name f) v); [|reflexivity]. rewrite H. apply flat_map_ext. intros e. now rewrite IH.
  Qed.
End Map.
Lemma m_un w u p v r : m w (PUn u p) (v :: r) = map (fun e => (e, r)) match inner w u v with Some v => full w (m w p [v]) | None => [] end.
Proof. reflexivity. Qed.
Lemma m_id w md x p v r : m w (PIdent md x (Some p)) (v :: r) = map (fun e => (e, r)) (map (cons (x, md, v)) (full w (m w p [v]))).
Proof. reflexivity. Qed.
Lemma m_no_parens w p : forall vs, m w (no_parens p) vs = m w p vs.
Proof.
  induction p as [| |b n|md x|md x p IH|u p IH|k ps IH|n fps rs IH|ps IH|p IH] using pat_ind2; intros vs; try reflexivity.
  - destruct vs as [|v r]; [reflexivity|]. cbn [no_parens]. now rewrite !m_id, IH.
  - destruct vs as [|v r]; [reflexivity|]. cbn [no_parens]. rewrite !m_un. destruct (inner w u v); [now rewrite IH|reflexivity].
  - destruct vs as [|v r]; [reflexivity|]. cbn [no_parens]. rewrite !m_prod. destruct (parts w k v); [|reflexivity]. now rewrite mlist_map.
  - destruct vs as [|v r]; [reflexivity|]. cbn [no_parens]. rewrite !m_struct. destruct (of_path w n v); [|reflexivity]. now rewrite mfields_map.
  - cbn [no_parens]. now apply mor_map.
  - cbn [no_parens]. exact (IH vs).
Qed.
Lemma m_wrap w b p vs : m w (wrap_if b p) vs = m w p vs. Proof. now destruct b. Qed.
Lemma m_insert_parens w p : forall vs, m w (insert_parens p) vs = m w p vs.
Proof.
  induction p as [| |b n|md x|md x p IH|u p IH|k ps IH|n fps rs IH|ps IH|p IH] using pat_ind2; intros vs; try reflexivity.
  - destruct vs as [|v r]; [reflexivity|]. cbn [insert_parens]. now rewrite !m_id, m_wrap, IH.
  - destruct vs as [|v r]; [destruct u; reflexivity|]. destruct u; cbn [insert_parens]; rewrite !m_un; destruct (inner w _ v); rewrite ?m_wrap, ?IH; reflexivity.
  - destruct vs as [|v r]; [reflexivity|]. cbn [insert_parens]. rewrite !m_prod. destruct (parts w k v); [|reflexivity]. now rewrite mlist_map.
  - destruct vs as [|v r]; [reflexivity|]. cbn [insert_parens]. rewrite !m_struct. destruct (of_path w n v); [|reflexivity]. now rewrite mfields_map.
  - cbn [insert_parens]. now apply mor_map.
  - cbn [insert_parens]. exact (IH vs).
Qed.
Lemma m_remove w p vs : m w (remove_all_parens p) vs = m w p vs.
Proof. destruct p; try apply m_no_parens. exact (m_no_parens w p vs). Qed.
Lemma once_no_parens p : fields_once p -> fields_once (no_parens p).
Proof.
  induction p as [| |b n|md x|md x p IH|u p IH|k ps IH|n fps rs IH|ps IH|p IH] using pat_ind2; auto; cbn [no_parens].
  - rewrite !fo_prod, !Forall_forall in *. intros H q I. apply in_map_iff in I as (p & <- & I). auto.
  - rewrite !fo_struct, map_map. cbn. rewrite !Forall_forall in *. intros (N & H). split; [exact N|]. intros f I. apply in_map_iff in I as (g & <- & I). cbn. auto.
  - rewrite !fo_or, !Forall_forall in *. intros H q I. apply in_map_iff in I as (p & <- & I). auto.
Qed.
Lemma free_no_parens p : or_free p -> or_free (no_parens p).
Proof.
  induction p as [| |b n|md x|md x p IH|u p IH|k ps IH|n fps rs IH|ps IH|p IH] using pat_ind2; auto; cbn [no_parens].
  - rewrite !of_prod, !Forall_forall in *. intros H q I. apply in_map_iff in I as (p & <- & I). auto.
  - rewrite !of_struct. rewrite !Forall_forall in *. intros H f I. apply in_map_iff in I as (g & <- & I). cbn. auto.
Qed.
Lemma flat_no_parens p : flat p -> flat (no_parens p).
Proof.
  induction p as [| |b n|md x|md x p IH|u p IH|k ps IH|n fps rs IH|ps IH|p IH] using pat_ind2; auto; cbn [no_parens].
  - rewrite !fl_prod, !Forall_forall in *. intros H q I. apply in_map_iff in I as (p & <- & I). auto.
  - rewrite !fl_struct. rewrite !Forall_forall in *. intros H f I. apply in_map_iff in I as (g & <- & I). cbn. auto.
  - rewrite !fl_or, !Forall_forall in *. intros H q I. apply in_map_iff in I as (p & <- & I). apply free_no_parens. auto.
Qed.
Lemma suggestion_spec w p q : unnested_or_patterns p = Some q -> fields_once p ->
  (forall vs, subl w (m w q vs) (m w p vs)) /\ (flat p -> forall vs, subl w (m w p vs) (m w q vs)).
Proof.
  unfold unnested_or_patterns. destruct (leaf_kind p); [discriminate|]. destruct (visit _ (remove_all_parens p)) as [[p2 [|]]|] eqn:V; try discriminate. intros [= <-] F.
  assert (F' : fields_once (remove_all_parens p)) by (destruct p; now apply once_no_parens).
  destruct (visit_spec w _ _ _ _ V F') as (_ & A & B). split.
  - intros vs. rewrite m_insert_parens, <- (m_remove w p). apply A.
  - intros L vs. rewrite m_insert_parens, <- (m_remove w p). apply B. destruct p; now apply flat_no_parens.
Qed.

(** ** Writing *)
Lemma only_insert p : only (insert_parens p) = insert_parens (only p).
Proof.
  induction p as [| |b n|md x|md x p IH|u p IH|k ps IH|n fps rs IH|ps IH|p IH] using pat_ind2; auto.
  - destruct u; reflexivity.
  - destruct ps as [|q [|q2 ps]]; try reflexivity. inversion IH; subst. assumption.
Qed.
Lemma insert_or p : bare_or (insert_parens p) <-> bare_or p.
Proof. unfold bare_or. rewrite only_insert. destruct (only p) as [| | |md x [t|]|[]| | | |]; cbn; tauto. Qed.
Lemma insert_range p : bare_range (insert_parens p) <-> bare_range p.
Proof. unfold bare_range. rewrite only_insert. destruct (only p) as [| | |md x [t|]|[]| | | |]; cbn; tauto. Qed.
Lemma insert_mut p : bare_mut (insert_parens p) <-> bare_mut p.
Proof. unfold bare_mut. rewrite only_insert. destruct (only p) as [| | |md x [t|]|[]| | | |]; cbn; tauto. Qed.
Lemma many_or p : well_placed p -> bare_or p -> many (insert_parens p) = true.
Proof.
  unfold bare_or. destruct p as [| | |md x [t|]|[]| | |ps|]; cbn [only]; try (intros _ []). intros (L & W).
  destruct ps as [|a [|b ps]]; [now destruct L| |reflexivity]. destruct W as ((O & _) & _). destruct a; cbn; try discriminate; tauto.
Qed.
Lemma mut_iff p : only p = p -> bare_mut p -> mut_ident (insert_parens p) = true.
Proof. unfold bare_mut. intros ->. destruct p as [| | |[|[|]] x [t|]| | | | |]; cbn; tauto. Qed.
Lemma insert_writable p : well_placed p -> writable (insert_parens p).
Proof.
  induction p as [| |b n|md x|md x p IH|u p IH|k ps IH|n fps rs IH|ps IH|p IH] using pat_ind2; auto; intros W.
  - cbn [insert_parens]. specialize (IH W). pose proof (many_or p W) as M. destruct (many (insert_parens p)) eqn:E; cbn; [auto|].
    split; [exact IH|]. rewrite insert_or. intros B. apply M in B. discriminate.
  - destruct u; [exact (IH W)| | |]; destruct W as (W & R & U); cbn [insert_parens]; specialize (IH W); pose proof (many_or p W) as M; pose proof (fun B => mut_iff p (U eq_refl B) B) as N || clear U;
      destruct (many (insert_parens p)) eqn:E; cbn [orb andb un_eqb wrap_if writable]; try (split; [exact IH|]; split; [intros []|]; split; [intros []|intros _ []]).
    + split; [exact IH|]. rewrite insert_or, insert_range. repeat split; auto; [|discriminate]. intros B. apply M in B. discriminate.
    + destruct (mut_ident (insert_parens p)) eqn:D; cbn [wrap_if writable]; [split; [exact IH|]; split; [intros []|]; split; [intros []|intros _ []]|].
      split; [exact IH|]. rewrite insert_or, insert_range, insert_mut. split; [intros B; apply M in B; discriminate|]. split; [exact R|]. intros _ B. apply N in B. discriminate.
    + split; [exact IH|]. rewrite insert_or, insert_range. repeat split; auto; [|discriminate]. intros B. apply M in B. discriminate.
  - cbn in W |- *. induction IH as [|p ps H F IHps]; [exact I|]. cbn. destruct W as (W & W'). split; [|exact (IHps W')]. destruct W as [->|W]; [now left|]. right. exact (H W).
  - cbn in W |- *. induction IH as [|f fps H F IHps]; [exact I|]. cbn. destruct W as (W & S & W'). split; [exact (H W)|]. split; [|exact (IHps W')]. intros E. destruct (S E) as (md & ->). exists md. reflexivity.
  - cbn in W |- *. destruct W as (_ & W). induction IH as [|p ps H F IHps]; [exact I|]. cbn. destruct W as ((_ & W) & W'). split; [exact (H W)|exact (IHps W')].
Qed.

(** ** More fuel makes no difference *)
Lemma traverse_mono f g ps r : (forall q r, f q = Some r -> g q = Some r) -> traverse f ps = Some r -> traverse g ps = Some r.
Proof.
  intros H. revert r. induction ps as [|p ps IH]; intros r E; [exact E|].
  change (match f p, traverse f ps with Some (p, a), Some (l, b) => Some (p :: l, a || b) | _, _ => None end = Some r) in E.
  change (match g p, traverse g ps with Some (p, a), Some (l, b) => Some (p :: l, a || b) | _, _ => None end = Some r).
  destruct (f p) as [[p' a]|] eqn:P; [|discriminate]. destruct (traverse f ps) as [[l b]|]; [|discriminate]. now rewrite (H _ _ P), (IH _ eq_refl).
Qed.
Lemma walk_mono f g p r : (forall q r, f q = Some r -> g q = Some r) -> walk f p = Some r -> walk g p = Some r.
Proof.
  intros H. destruct p as [| |b m|md x [t|]|u t|k ps|m fps b|ps|t]; cbn [walk]; auto;
    try (destruct (f t) as [[t' a]|] eqn:T; [|discriminate]; now rewrite (H _ _ T));
    match goal with |- context [traverse f ?l] => destruct (traverse f l) as [[l' a]|] eqn:T; [|discriminate]; now rewrite (traverse_mono f g l _ H T) end.
Qed.
Lemma visit_mono n : forall k p r, n <= k -> visit n p = Some r -> visit k p = Some r.
Proof.
  induction n as [|n IH]; intros k p r L E; [discriminate|]. destruct k as [|k]; [lia|]. cbn [visit] in *.
  assert (H : forall q r, visit n q = Some r -> visit k q = Some r) by (intros q s; apply IH; lia).
  destruct (walk (visit n) p) as [[q a]|] eqn:W; [|discriminate]. rewrite (walk_mono _ _ _ _ H W). destruct q; try exact E.
  destruct (focus_loop (length (collapse ps)) (collapse ps)) as [alts2 c2]. destruct (existsb is_or ps || c2); [|exact E].
  destruct (walk (visit n) (POr alts2)) as [[r' b]|] eqn:W2; [|discriminate]. now rewrite (walk_mono _ _ _ _ H W2).
Qed.

(** ** What is found *)
Lemma nd_prod k ps : no_deref (PProd k ps) <-> Forall no_deref ps.
Proof. cbn. induction ps as [|p ps IH]; [split; auto|]. split; [intros (A & B); constructor; tauto|inversion 1; tauto]. Qed.
Lemma nd_or ps : no_deref (POr ps) <-> Forall no_deref ps. Proof. exact (nd_prod KTuple ps). Qed.
Lemma nd_struct n fps r : no_deref (PStruct n fps r) <-> Forall (fun f => no_deref (snd f)) fps.
Proof. cbn. induction fps as [|p ps IH]; [split; auto|]. split; [intros (A & B); constructor; tauto|inversion 1; tauto]. Qed.
Lemma un_eqb_refl u : un_eqb u u = true. Proof. now destruct u. Qed.
Lemma kind_eqb_refl k : kind_eqb k k = true. Proof. now apply kind_eqb_eq. Qed.
Lemma eq_pat_refl p : no_deref p -> eq_pat (no_parens p) (no_parens p) = true.
Proof.
  induction p as [| |b n|md x|md x p IH|u p IH|k ps IH|n fps rs IH|ps IH|p IH] using pat_ind2; intros D; cbn [no_parens eq_pat unparen]; auto.
  - now rewrite eqb_reflx, Nat.eqb_refl.
  - now rewrite !Nat.eqb_refl.
  - rewrite !Nat.eqb_refl. exact (IH D).
  - rewrite un_eqb_refl. destruct u; [destruct D| | |]; exact (IH D).
  - rewrite kind_eqb_refl. apply nd_prod in D. apply over_forall2. clear k. induction D; inversion IH; subst; constructor; auto.
  - rewrite eqb_reflx, !Nat.eqb_refl. apply nd_struct in D. rewrite Forall_forall in IH, D. apply forallb_forall. intros f I. apply existsb_exists. exists f. split; [exact I|].
    rewrite Nat.eqb_refl. apply in_map_iff in I as (g & <- & I). cbn. auto.
  - rewrite Nat.eqb_refl. apply nd_or in D. rewrite Forall_forall in IH, D. apply forallb_forall. intros q I. apply existsb_exists. exists q. split; [exact I|].
    apply in_map_iff in I as (g & <- & I). auto.
Qed.
Lemma drain_some f alts k t : In k alts -> f k = Some t -> exists a tail rest, drain f alts = (a :: tail, rest).
Proof.
  intros I E. destruct (drain f alts) as [tail rest] eqn:D. destruct (drain_spec f alts tail rest D) as (_ & B & C & _).
  destruct tail as [|a tail]; [|eauto]. exfalso. destruct (C k I) as [J|(t' & _ & [])]. clear -D J E. revert rest D J. induction alts as [|x alts IH]; intros rest D J; [injection D as <-; destruct J|].
  cbn [drain] in D. destruct (drain f alts) as [tl rs]. destruct (f x) as [y|] eqn:X; [discriminate|]. injection D as -> <-. destruct J as [<-|J]; [congruence|]. exact (IH rs eq_refl J).
Qed.
Lemma transform_found k pre a b post rest : In (PProd k (pre ++ b :: post)) rest -> is_rest a = is_rest b -> Forall (fun p => eq_pat p p = true) pre -> Forall (fun p => eq_pat p p = true) post ->
  transform (PProd k (pre ++ a :: post)) rest <> None.
Proof.
  intros I R P Q. cbn [transform]. enough (exists r, prod_loop k [] (pre ++ a :: post) rest = Some r) as ([ps' rs] & ->) by discriminate.
  assert (M : match_prod k pre a post (PProd k (pre ++ b :: post)) = Some b).
  { cbn [match_prod]. rewrite kind_eqb_refl, app_length. cbn [length]. rewrite Nat.eqb_refl. cbn [andb].
    rewrite skipn_app, skipn_all, Nat.sub_diag. cbn [app skipn]. rewrite firstn_app, firstn_all, Nat.sub_diag, app_nil_r, R, eqb_reflx. cbn [andb].
    assert (forall l, Forall (fun p => eq_pat p p = true) l -> over eq_pat l l = true) as O by (intros l F; apply over_forall2; induction F; constructor; auto).
    now rewrite (O pre P), (O post Q). }
  assert (G : forall pre2 done, In (PProd k (done ++ pre2 ++ b :: post)) rest -> match_prod k (done ++ pre2) a post (PProd k (done ++ pre2 ++ b :: post)) = Some b ->
    exists r, prod_loop k done (pre2 ++ a :: post) rest = Some r).
  { intros pre2. induction pre2 as [|x pre2 IH]; intros dn I' M'.
    - rewrite app_nil_r in M'. cbn [app prod_loop] in *. destruct (drain_some _ _ _ _ I' M') as (c & tail & rs & ->). eauto.
    - cbn [app prod_loop]. destruct (drain (match_prod k dn x (pre2 ++ a :: post)) rest) as [[|c tail] rs]; [|eauto]. apply IH; rewrite <- !app_assoc; assumption. }
  exact (G pre [] I M).
Qed.
Lemma focus_found front mid back p q n : (forall rest, In q rest -> transform p rest <> None) -> length front < n ->
  forall alts, alts = front ++ p :: mid ++ q :: back -> snd (focus_loop n alts) = true.
Proof.
  intros H. revert n. induction front as [|x front IH]; intros n L alts ->; (destruct n as [|n]; [cbn in L; lia|]); cbn [app focus_loop].
  - destruct (transform p (mid ++ q :: back)) as [[f' r']|] eqn:T; [|exfalso; eapply H; [|exact T]; apply in_app_iff; right; now left].
    destruct (focus_loop n r'). reflexivity.
  - destruct (transform x _) as [[f' r']|]; [destruct (focus_loop n r'); reflexivity|]. cbn in L. specialize (IH n ltac:(lia) _ eq_refl).
    destruct (focus_loop n (front ++ p :: mid ++ q :: back)). exact IH.
Qed.
Lemma reported k pre a b post front mid back : unparen a <> PRest -> unparen b <> PRest -> Forall no_deref pre -> Forall no_deref post ->
  unnested_or_patterns (POr (front ++ PProd k (pre ++ a :: post) :: mid ++ PProd k (pre ++ b :: post) :: back)) <> None.
Proof.
  intros Ra Rb Dp Dq. unfold unnested_or_patterns. cbn [leaf_kind remove_all_parens].
  set (p := no_parens _). destruct (visit_total (size p) p (Nat.le_refl _)) as (p' & c & V & _). rewrite V. destruct c; [discriminate|]. exfalso.
  assert (R : forall x, unparen x <> PRest -> is_rest (no_parens x) = false).
  { intros x. induction x as [| |? ?|? ?|? ? ? IH|? ? IH|? ? IH|? ? ? IH|? IH|? IH] using pat_ind2; auto. intros N. now destruct N. }
  pose proof (visit_same _ _ _ V) as ->. unfold p in V. clear p. revert V. generalize (size (no_parens (POr (front ++ PProd k (pre ++ a :: post) :: mid ++ PProd k (pre ++ b :: post) :: back)))).
  intros n. destruct n as [|n]; [discriminate|]. cbn [no_parens]. rewrite !map_app. cbn [map no_parens]. rewrite !map_app. cbn [map no_parens]. rewrite !map_app. cbn [map].
  set (alts := _ ++ _). cbn [visit]. destruct (walk (visit n) (POr alts)) as [[q c]|] eqn:W; [|discriminate]. destruct q as [| | | | | | |alts1|]; 
    try (cbn [walk] in W; destruct (traverse (visit n) alts) as [[]|]; discriminate W).
  destruct (focus_loop (length (collapse alts1)) (collapse alts1)) as [alts2 c2] eqn:FL. destruct (existsb is_or alts1 || c2) eqn:C; [destruct (walk (visit n) (POr alts2)) as [[]|]; discriminate|].
  intros [= _ ->]. apply orb_false_elim in C as (C1 & ->). pose proof (walk_same _ _ _ _ W (visit_same n) eq_refl) as E. injection E as ->. rewrite (collapse_id _ C1) in FL.
  pose proof (focus_found (map no_parens front) (map no_parens mid) (map no_parens back) (PProd k (map no_parens pre ++ no_parens a :: map no_parens post))
    (PProd k (map no_parens pre ++ no_parens b :: map no_parens post)) (length alts)) as FF.
  specialize (FF (fun rest I => transform_found k _ _ _ _ rest I (eq_trans (R a Ra) (eq_sym (R b Rb)))
    (proj2 (Forall_map _ _ _) (Forall_impl _ eq_pat_refl Dp)) (proj2 (Forall_map _ _ _) (Forall_impl _ eq_pat_refl Dq)))).
  specialize (FF ltac:(unfold alts; rewrite app_length; cbn; lia) alts eq_refl). rewrite FL in FF. discriminate.
Qed.
