(** Patterns that match a common value are found to overlap. *)
From Verif Require Export ArmsSpec.

Section Overlap.
  Variable t : types.
  Definition inside (s e : Z) (i : bool) (z : Z) : Prop := (s <= z)%Z /\ if i then (z <= e)%Z else (z < e)%Z.
  Inductive nm : npat -> val -> Prop :=
  | nm_wild v : nm NWild v
  | nm_or ps p v : In p ps -> nm p v -> nm (NOr ps) v
  | nm_struct k fs vs : braces t k = true -> (forall x p, In (x, p) fs -> exists v, field x vs = Some v /\ nm p v) -> nm (NStruct (Some (t_name t k)) fs) (VAdt k vs)
  | nm_variant k n ps vs : t_shape t k = Tuple n -> t_enum t k = true -> Forall2 nm ps (map snd vs) -> nm (NTuple (Some (t_name t k)) ps) (VAdt k vs)
  | nm_tuple_struct k n ps vs : t_shape t k = Tuple n -> t_enum t k = false -> Forall2 nm ps (map snd vs) -> nm (NTuple None ps) (VAdt k vs)
  | nm_tuple ps vs : Forall2 nm ps vs -> nm (NTuple None ps) (VTup vs)
  | nm_path k vs : t_shape t k = Unit -> nm (NPath (Some (t_name t k))) (VAdt k vs)
  | nm_str s : nm (NStr s) (VStr s)
  | nm_bytes s : nm (NBytes s) (VSlice (map VInt s))
  | nm_int z : nm (NInt z) (VInt z)
  | nm_bool b : nm (NBool b) (VBool b)
  | nm_range s e i z : inside s e i z -> nm (NRange s e i) (VInt z)
  | nm_exact ps vs : Forall2 nm ps vs -> nm (NSlice ps None) (VSlice vs)
  | nm_slice front back a m b : Forall2 nm front a -> Forall2 nm back b -> nm (NSlice front (Some back)) (VSlice (a ++ m ++ b)).

  Lemma matching_named n : forall l r p q, In (p, q) (matching_fields n l r) -> exists x, In (x, p) l /\ In (x, q) r.
  Proof.
    induction n as [|n IH]; intros l r p q J; [destruct J|]. destruct l as [|[x p'] l]; [destruct J|]. destruct r as [|[y q'] r]; [destruct J|]. cbn in J.
    destruct (Nat.compare_spec x y).
    - subst y. destruct J as [J|J]; [injection J as <- <-; exists x; cbn; auto|]. destruct (IH _ _ _ _ J) as (z & ? & ?). exists z. cbn. auto.
    - destruct (IH _ _ _ _ J) as (z & ? & ?). exists z. cbn in *. auto.
    - destruct (IH _ _ _ _ J) as (z & ? & ?). exists z. cbn in *. auto.
  Qed.
  Lemma f2_length {A B} (R : A -> B -> Prop) l r : Forall2 R l r -> length l = length r.
  Proof. induction 1; cbn; congruence. Qed.
  Lemma zipped (f : npat -> npat -> bool) l : forall r vs, (forall p q v, nm p v -> nm q v -> f p q = true) -> Forall2 nm l vs -> forall us, Forall2 nm r us ->
    (forall i, i < length l -> i < length r -> nth_error vs i = nth_error us i) -> all2 f (combine l r) = true.
  Proof.
    induction l as [|p l IH]; intros r vs H F us F' E; [reflexivity|]. inversion F as [|? v ? vs' P F1]; subst. destruct r as [|q r]; [reflexivity|]. inversion F' as [|? u ? us' Q F2]; subst.
    pose proof (E 0 ltac:(cbn; lia) ltac:(cbn; lia)) as Z. injection Z as ->. cbn. rewrite (H p q u P Q). apply (IH r vs' H F1 us' F2). intros i A B. apply (E (S i)); cbn; lia.
  Qed.
  Lemma zipped_same f l r vs : (forall p q v, nm p v -> nm q v -> f p q = true) -> Forall2 nm l vs -> Forall2 nm r vs -> all2 f (combine l r) = true.
  Proof. intros H A B. apply (zipped f l r vs H A vs B). reflexivity. Qed.
  Lemma f2_firstn {A B} (R : A -> B -> Prop) l r n : Forall2 R l r -> Forall2 R (firstn n l) (firstn n r).
  Proof. intros F. revert n. induction F; intros [|n]; cbn; constructor; auto. Qed.
  Lemma f2_skipn {A B} (R : A -> B -> Prop) l r n : Forall2 R l r -> Forall2 R (skipn n l) (skipn n r).
  Proof. intros F. revert n. induction F; intros [|n]; cbn; try constructor; auto. Qed.
  Lemma f2_rev {A B} (R : A -> B -> Prop) l r : Forall2 R l r -> Forall2 R (rev l) (rev r).
  Proof. induction 1; cbn; [constructor|]. apply Forall2_app; auto. Qed.
  Lemma all2_app f a b : all2 f a = true -> all2 f b = true -> all2 f (a ++ b) = true.
  Proof. unfold all2. rewrite forallb_app. intros -> ->. reflexivity. Qed.
  Lemma res_refl a : res_eqb a a = true.
  Proof. destruct a; cbn; auto using Nat.eqb_refl. Qed.
  Lemma map_int_inj a b : map VInt a = map VInt b -> a = b.
  Proof. revert b. induction a as [|x a IH]; intros [|y b] E; try discriminate E; [reflexivity|]. injection E as -> E. rewrite (IH b E). reflexivity. Qed.
  Lemma mixed (f : npat -> npat -> bool) ps vs front back a m b : (forall p q v, nm p v -> nm q v -> f p q = true) ->
    Forall2 nm ps vs -> Forall2 nm front a -> Forall2 nm back b -> vs = a ++ m ++ b ->
    (if length ps <? length front + length back then false else all2 f (combine (firstn (length front) ps) front ++ combine (last_n (length back) ps) back)) = true.
  Proof.
    intros H F A B ->. pose proof (f2_length _ _ _ F) as L. pose proof (f2_length _ _ _ A) as LA. pose proof (f2_length _ _ _ B) as LB. rewrite !app_length in L.
    destruct (Nat.ltb_spec (length ps) (length front + length back)); [lia|]. apply all2_app.
    - apply (zipped_same f _ _ a H); [|exact A]. apply (f2_firstn _ _ _ (length front)) in F. rewrite LA in F at 2. rewrite firstn_app, firstn_all, Nat.sub_diag in F. cbn in F. rewrite app_nil_r in F. exact F.
    - apply (zipped_same f _ _ b H); [|exact B]. unfold last_n. apply (f2_skipn _ _ _ (length ps - length back)) in F. rewrite app_assoc, skipn_app in F. rewrite (skipn_all2 (a ++ m)) in F by (rewrite app_length; lia).
      replace (length ps - length back - length (a ++ m)) with 0 in F by (rewrite app_length; lia). exact F.
  Qed.
  Lemma overlaps_sound n : forall p q v, nm p v -> nm q v -> overlaps n p q = true.
  Proof.
    induction n as [|n IH]; intros p q v P Q; [reflexivity|].
    assert (OR : forall v p, nm p v -> forall qs, (exists q, In q qs /\ nm q v) -> existsb (fun q => overlaps n q p) qs = true)
      by (intros v0 p0 P0 qs (q0 & J0 & Q0); apply existsb_exists; exists q0; split; [exact J0|]; exact (IH _ _ _ Q0 P0)).
    pose proof P as P0. destruct P as [v|ps p v J P|k fs vs SH P|k c ps vs SH EN P|k c ps vs SH EN P|ps vs P|k vs SH|s|s|z|b|s e i z IN|ps vs P|front back a m b PA PB].
    1: reflexivity.
    1: { destruct Q; cbn; try reflexivity; apply existsb_exists; exists p; split; auto; eapply IH; eauto; econstructor; eauto. }
    - inversion Q; subst; cbn; try reflexivity; try (unfold braces in SH; match goal with E : t_shape _ _ = _ |- _ => rewrite E in SH end; congruence).
      + eapply OR; [exact P0|eauto].
      + rewrite Nat.eqb_refl. cbn. apply forallb_forall. intros [l r] J. destruct (matching_named _ _ _ _ _ J) as (x & Jl & Jr). destruct (P _ _ Jl) as (u & F & U). destruct (H3 _ _ Jr) as (u' & F' & U').
        rewrite F in F'. injection F' as <-. cbn. exact (IH _ _ _ U U').
      + apply Nat.eqb_refl.
    - inversion Q; subst; cbn; try reflexivity; try congruence; try apply Nat.eqb_refl; try (match goal with B : braces _ _ = true |- _ => unfold braces in B; rewrite SH in B; congruence end).
      + eapply OR; [exact P0|eauto].
      + rewrite Nat.eqb_refl. cbn. apply (zipped_same _ _ _ _ IH P). assumption.
    - inversion Q; subst; cbn; try reflexivity; try congruence; try apply Nat.eqb_refl; try (match goal with B : braces _ _ = true |- _ => unfold braces in B; rewrite SH in B; congruence end).
      + eapply OR; [exact P0|eauto].
      + apply (zipped_same _ _ _ _ IH P). assumption.
    - inversion Q; subst; cbn; try reflexivity; try congruence; try apply Nat.eqb_refl; try (match goal with B : braces _ _ = true |- _ => unfold braces in B; rewrite SH in B; congruence end).
      + eapply OR; [exact P0|eauto].
      + apply (zipped_same _ _ _ _ IH P). assumption.
    - inversion Q; subst; cbn; try reflexivity; try congruence; try apply Nat.eqb_refl; try (match goal with B : braces _ _ = true |- _ => unfold braces in B; rewrite SH in B; congruence end).
      + eapply OR; [exact P0|eauto].
    - inversion Q; subst; cbn; try reflexivity; [eapply OR; [exact P0|eauto]|apply Nat.eqb_refl].
    - inversion Q; subst; cbn; try reflexivity; [eapply OR; [exact P0|eauto]|]. match goal with H : map VInt _ = map VInt _ |- _ => apply map_int_inj in H; subst end. unfold bytes_eqb. destruct (list_eq_dec _ _ _); congruence.
    - inversion Q; subst; cbn; try reflexivity; [eapply OR; [exact P0|eauto]|apply Z.eqb_refl|]. match goal with H : inside _ _ _ _ |- _ => destruct H as [A B] end. unfold contains. apply andb_true_intro. split; [apply Z.leb_le, A|]. destruct i; [apply Z.leb_le|apply Z.ltb_lt]; exact B.
    - inversion Q; subst; cbn; try reflexivity; [eapply OR; [exact P0|eauto]|apply Bool.eqb_reflx].
    - destruct IN as [A B]. inversion Q; subst; cbn; try reflexivity.
      + eapply OR; [exact P0|eauto].
      + unfold contains. apply andb_true_intro. split; [apply Z.leb_le, A|]. destruct i; [apply Z.leb_le|apply Z.ltb_lt]; exact B.
      + match goal with H : inside _ _ _ _ |- _ => destruct H as [C D] end. unfold ranges_overlap. apply andb_true_intro. split; [destruct i; [apply Z.leb_le|apply Z.ltb_lt]; lia|]. destruct i0; [apply Z.leb_le|apply Z.ltb_lt]; lia.
    - inversion Q; subst; cbn; try reflexivity.
      + eapply OR; [exact P0|eauto].
      + match goal with H : Forall2 _ ?x vs |- context [length ?x] => first [constr_eq x ps; fail 1|rewrite (f2_length _ _ _ P), (f2_length _ _ _ H), Nat.eqb_refl] end. apply (zipped_same _ _ _ _ IH P). assumption.
      + eapply mixed; eauto.
    - inversion Q; subst; cbn; try reflexivity.
      + eapply OR; [exact P0|eauto].
      + eapply mixed; eauto.
      + match goal with H : Forall2 _ _ ?x, H' : Forall2 _ _ ?y, E : ?x ++ _ ++ ?y = _ |- _ => rename H into QA; rename H' into QB; rename E into H0 end. apply all2_app.
        * apply (zipped _ _ _ _ IH PA _ QA). rewrite (f2_length _ _ _ PA), (f2_length _ _ _ QA). intros i A B. rewrite <- (nth_error_app1 a (m ++ b) A), <- H0. apply nth_error_app1, B.
        * apply f2_rev in PB. apply f2_rev in QB. apply (zipped _ _ _ _ IH PB _ QB). rewrite (f2_length _ _ _ PB), (f2_length _ _ _ QB). intros i A B.
          apply (f_equal (@rev val)) in H0. rewrite !rev_app_distr, <- !app_assoc in H0. rewrite <- (nth_error_app1 (rev b) (rev m ++ rev a) A), <- H0. apply nth_error_app1, B.
  Qed.
End Overlap.
