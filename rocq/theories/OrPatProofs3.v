From Coq Require Import Lia.
From Verif Require Export OrPatProofs2.

Lemma prod_loop_spec k ps rest ps' rest' : forall pre, prod_loop k pre ps rest = Some (ps', rest') ->
  exists pre2 t post tail, pre ++ ps = pre2 ++ t :: post /\ ps' = pre2 ++ extend t tail :: post /\ drain (match_prod k pre2 t post) rest = (tail, rest').
Proof.
  induction ps as [|t post IH]; intros pre E; [discriminate|]. cbn [prod_loop] in E. destruct (drain (match_prod k pre t post) rest) as [[|a tail] rs] eqn:D.
  - destruct (IH _ E) as (pre2 & t2 & post2 & tail & A & B & C). rewrite <- app_assoc in A. eauto 8.
  - injection E as <- <-. exists pre, t, post, (a :: tail). auto.
Qed.
Lemma struct_loop_spec n fps b rest fps' rest' : forall pre, struct_loop n pre fps b rest = Some (fps', rest') ->
  exists pre2 f post tail, pre ++ fps = pre2 ++ f :: post /\ fps' = pre2 ++ (fst f, extend (snd f) tail) :: post /\ drain (match_struct n pre2 f post b) rest = (tail, rest').
Proof.
  induction fps as [|f post IH]; intros pre E; [discriminate|]. cbn [struct_loop] in E. destruct (drain (match_struct n pre f post b) rest) as [[|a tail] rs] eqn:D.
  - destruct (IH _ E) as (pre2 & t2 & post2 & tail & A & B & C). rewrite <- app_assoc in A. eauto 8.
  - injection E as <- <-. exists pre, f, post, (a :: tail). auto.
Qed.
Lemma transform_ctx focus rest focus' rest' : transform focus rest = Some (focus', rest') ->
  exists K f t tail, focus = K t /\ focus' = K (extend t tail) /\ drain f rest = (tail, rest') /\ ctx K f t rest.
Proof.
  destruct focus as [| |b n|md x [t|]|u t|k ps|n fps b|ps|p]; try discriminate; cbn [transform].
  - destruct (drain (match_ident md x) rest) as [[|a tail] rs] eqn:D; [discriminate|]. intros [= <- <-].
    exists (fun p => PIdent md x (Some p)), (match_ident md x), t, (a :: tail). auto using ctx_ident.
  - destruct (un_eqb u URef); [discriminate|]. destruct (drain (match_un u) rest) as [[|a tail] rs] eqn:D; [discriminate|]. intros [= <- <-].
    exists (PUn u), (match_un u), t, (a :: tail). auto using ctx_un.
  - destruct (prod_loop k [] ps rest) as [[ps' rs]|] eqn:P; [|discriminate]. intros [= <- <-]. apply prod_loop_spec in P as (pre & t & post & tail & A & -> & D). cbn in A. subst ps.
    exists (fun p => PProd k (pre ++ p :: post)), (match_prod k pre t post), t, tail. auto using ctx_prod.
  - destruct (struct_loop n [] fps b rest) as [[ps' rs]|] eqn:P; [|discriminate]. intros [= <- <-]. apply struct_loop_spec in P as (pre & f & post & tail & A & -> & D). cbn in A. subst fps.
    exists (fun p => PStruct n (pre ++ (fst f, p) :: post) b), (match_struct n pre f post b), (snd f), tail.
    split; [now destruct f|]. split; [reflexivity|]. split; [exact D|apply ctx_struct].
Qed.
Definition sum_size (ps : list pat) : nat := list_sum (map size ps).
Lemma sum_size_cons p ps : sum_size (p :: ps) = size p + sum_size ps. Proof. reflexivity. Qed.
Lemma focus_loop_spec w n : forall alts alts' c, focus_loop n alts = (alts', c) -> Forall fields_once alts ->
  le w (POr alts') (POr alts) /\ Forall fields_once alts' /\ sum_size alts' <= sum_size alts /\ (c = false -> alts' = alts) /\
  (Forall or_free alts -> le w (POr alts) (POr alts') /\ Forall flat alts').
Proof.
  assert (Z : forall alts, le w (POr alts) (POr alts) /\ Forall fields_once alts -> Forall fields_once alts ->
    le w (POr alts) (POr alts) /\ Forall fields_once alts /\ sum_size alts <= sum_size alts /\ (false = false -> alts = alts) /\
    (Forall or_free alts -> le w (POr alts) (POr alts) /\ Forall flat alts)).
  { intros alts _ F. split; [apply le_refl|]. repeat split; auto; [apply le_refl|]. eapply Forall_impl; [apply or_free_flat|assumption]. }
  induction n as [|n IH]; intros alts alts' c E F; [cbn in E; injection E as <- <-; apply Z; auto; split; [apply le_refl|auto]|].
  destruct alts as [|focus rest]; [cbn in E; injection E as <- <-; apply Z; auto; split; [apply le_refl|auto]|]. cbn [focus_loop] in E.
  inversion F as [|? ? F1 F2]; subst. destruct (transform focus rest) as [[focus' rest']|] eqn:T.
  - destruct (focus_loop n rest') as [rest'' c'] eqn:L. injection E as <- <-. apply transform_ctx in T as (K & f & t & tail & -> & -> & D & C).
    destruct (ctx_merge K f t rest tail rest' w C D F1 F2) as (M1 & M2 & M3 & M4 & M5 & M6 & M7). destruct (IH _ _ _ L M4) as (I1 & I2 & I3 & I4 & I5).
    split; [|split; [now constructor|split; [|split; [discriminate|]]]].
    + eapply le_trans; [|exact M1]. apply le_or_l. intros p [<-|I]; [eapply le_or_r; [now left|apply le_refl]|].
      eapply le_trans; [eapply le_or_r; [exact I|apply le_refl]|]. eapply le_trans; [exact I1|]. apply le_or_l. intros q Iq. eapply le_or_r; [right; exact Iq|apply le_refl].
    + rewrite !sum_size_cons. unfold sum_size in *. lia.
    + intros O. inversion O as [|? ? O1 O2]; subst. destruct (M5 O1 O2) as (M8 & M9). destruct (I5 M9) as (I6 & I7). split; [|now constructor].
      eapply le_trans; [exact (M2 O1)|]. apply le_or_l. intros p [<-|I]; [eapply le_or_r; [now left|apply le_refl]|].
      eapply le_trans; [eapply le_or_r; [exact I|apply le_refl]|]. eapply le_trans; [exact I6|]. apply le_or_l. intros q Iq. eapply le_or_r; [right; exact Iq|apply le_refl].
  - destruct (focus_loop n rest) as [rest'' c'] eqn:L. injection E as <- <-. destruct (IH _ _ _ L F2) as (I1 & I2 & I3 & I4 & I5).
    split; [|split; [now constructor|split; [|split; [intros ->; now rewrite I4|]]]].
    + apply le_or_l. intros p [<-|I]; [eapply le_or_r; [now left|apply le_refl]|].
      eapply le_trans; [eapply le_or_r; [exact I|apply le_refl]|]. eapply le_trans; [exact I1|]. apply le_or_l. intros q Iq. eapply le_or_r; [right; exact Iq|apply le_refl].
    + rewrite !sum_size_cons. lia.
    + intros O. inversion O as [|? ? O1 O2]; subst. destruct (I5 O2) as (I6 & I7). split; [|constructor; [now apply or_free_flat|exact I7]].
      apply le_or_l. intros p [<-|I]; [eapply le_or_r; [now left|apply le_refl]|].
      eapply le_trans; [eapply le_or_r; [exact I|apply le_refl]|]. eapply le_trans; [exact I6|]. apply le_or_l. intros q Iq. eapply le_or_r; [right; exact Iq|apply le_refl].
Qed.

(** ** Collapsing *)
Lemma flatten_spec w p : le w (POr (flatten p)) p /\ le w p (POr (flatten p)) /\ (fields_once p -> Forall fields_once (flatten p)) /\ sum_size (flatten p) <= size p.
Proof.
  assert (Z : forall p, le w (POr [p]) p /\ le w p (POr [p]) /\ (fields_once p -> Forall fields_once [p]) /\ sum_size [p] <= size p).
  { intros q. split; [apply le_or_l; intros ? [<-|[]]; apply le_refl|]. split; [eapply le_or_r; [now left|apply le_refl]|]. split; [auto|]. unfold sum_size. cbn [map]. rewrite list_sum_cons. change (list_sum []) with 0. lia. }
  induction p as [| |b n|md x|md x p IH|u p IH|k ps IH|n fps rs IH|ps IH|p IH] using pat_ind2; try apply Z.
  cbn [flatten]. rewrite Forall_forall in IH. split; [|split; [|split]].
  - apply le_or_l. intros q I. apply in_flat_map in I as (p & Ip & I). eapply le_or_r; [exact Ip|]. destruct (IH p Ip) as (A & _).
    eapply le_trans; [eapply le_or_r; [exact I|apply le_refl]|exact A].
  - apply le_or_l. intros p Ip. destruct (IH p Ip) as (_ & A & _). eapply le_trans; [exact A|]. apply le_or_l. intros q I. eapply le_or_r; [apply in_flat_map; eauto|apply le_refl].
  - rewrite fo_or, !Forall_forall. intros H q I. apply in_flat_map in I as (p & Ip & I). destruct (IH p Ip) as (_ & _ & A & _). specialize (A (H p Ip)). rewrite Forall_forall in A. auto.
  - rewrite size_or. enough (sum_size (flat_map flatten ps) <= list_sum (map size ps)) by lia. clear Z. induction ps as [|p ps IHps]; [cbn; lia|]. cbn [flat_map map].
    unfold sum_size in *. rewrite map_app, list_sum_app, list_sum_cons. destruct (IH p (or_introl eq_refl)) as (_ & _ & _ & A). assert (list_sum (map size (flat_map flatten ps)) <= list_sum (map size ps)) by (apply IHps; intros q Iq; apply IH; now right). lia.
Qed.
Lemma collapse_flatten alts : collapse alts = flatten (POr alts). Proof. reflexivity. Qed.
Lemma sum_collapse alts : sum_size (collapse alts) <= sum_size alts.
Proof.
  induction alts as [|p ps IH]; [cbn; lia|]. unfold collapse in *. cbn [flat_map]. unfold sum_size in *. rewrite map_app, list_sum_app. cbn [map]. rewrite list_sum_cons.
  destruct (flatten_spec {| val := nat; leaf := fun _ _ _ => false; inner := fun _ _ => None; parts := fun _ _ => None; of_path := fun _ _ => false; field := fun _ _ _ => None |} p) as (_ & _ & _ & A). unfold sum_size in A. lia.
Qed.
Lemma collapse_id alts : existsb is_or alts = false -> collapse alts = alts.
Proof.
  unfold collapse. induction alts as [|p ps IH]; [reflexivity|]. cbn [existsb flat_map]. intros H. apply orb_false_elim in H as (A & B). rewrite (IH B). destruct p; try reflexivity. discriminate.
Qed.
Lemma or_free_no_or alts : Forall or_free alts -> existsb is_or alts = false.
Proof. induction 1 as [|p ps H F IH]; [reflexivity|]. cbn. rewrite IH. destruct p; try reflexivity. destruct H. Qed.

(** ** Walking *)
Lemma traverse_spec f ps : forall ps' c, traverse f ps = Some (ps', c) -> Forall2 (fun p p' => exists c', f p = Some (p', c') /\ (c = false -> c' = false)) ps ps'.
Proof.
  induction ps as [|p ps IH]; cbn; intros ps' c E; [injection E as <- <-; constructor|].
  destruct (f p) as [[p' a]|] eqn:P; [|discriminate]. destruct (traverse f ps) as [[l b]|] eqn:T; [|discriminate]. injection E as <- <-. constructor.
  - exists a. split; [exact P|]. intros H. now apply orb_false_elim in H.
  - eapply Forall2_mono; [exact (IH _ _ eq_refl)|]. intros x y _ _ (c' & A & B). exists c'. split; [exact A|]. intros H. apply B. now apply orb_false_elim in H.
Qed.
Lemma combine_names (fps : list (nat * bool * pat)) : forall ps, length fps = length ps -> map field_name (combine (map fst fps) ps) = map field_name fps.
Proof. induction fps as [|f fps IH]; intros [|p ps] L; try discriminate; [reflexivity|]. cbn. f_equal. apply IH. now injection L. Qed.
Lemma combine_forall2 (R : pat -> pat -> Prop) (fps : list (nat * bool * pat)) : forall ps, Forall2 R (map field_pat fps) ps ->
  Forall2 (fun f g => fst f = fst g /\ R (snd f) (snd g)) fps (combine (map fst fps) ps).
Proof. induction fps as [|f fps IH]; intros ps F; inversion F; subst; cbn; constructor; auto. Qed.
Lemma Forall2_Forall {A B} (R : A -> B -> Prop) (P : A -> Prop) (Q : B -> Prop) l r : Forall2 R l r -> (forall x y, R x y -> P x -> Q y) -> Forall P l -> Forall Q r.
Proof. intros F2 M. induction F2; intros F; inversion F; subst; constructor; eauto. Qed.
Lemma Forall2_len {A B} (R : A -> B -> Prop) l r : Forall2 R l r -> length l = length r. Proof. induction 1; cbn; congruence. Qed.
(** What holds of the results of [f] on the children holds of [walk f]. *)
Lemma walk_spec w f p p' c : walk f p = Some (p', c) -> (forall q q' c, f q = Some (q', c) -> fields_once q -> fields_once q' /\ le w q' q /\ (flat q -> le w q q')) -> fields_once p ->
  fields_once p' /\ le w p' p /\ ((match p with POr ps => Forall flat ps | _ => flat p end) -> le w p p').
Proof.
  intros E H F. destruct p as [| |b n|md x [t|]|u t|k ps|n fps b|ps|t]; cbn [walk] in E;
    try (injection E as <- <-; split; [exact F|split; [apply le_refl|intros; apply le_refl]]).
  - destruct (f t) as [[t' a]|] eqn:T; [|discriminate]. injection E as <- <-. destruct (H _ _ _ T F) as (A & B & C). split; [exact A|]. split; [now apply le_ident|]. intros L. now apply le_ident, C.
  - destruct (f t) as [[t' a]|] eqn:T; [|discriminate]. injection E as <- <-. destruct (H _ _ _ T F) as (A & B & C). split; [exact A|]. split; [now apply le_un|]. intros L. now apply le_un, C.
  - destruct (traverse f ps) as [[ps' a]|] eqn:T; [|discriminate]. injection E as <- <-. apply traverse_spec in T. apply fo_prod in F. split; [|split].
    + apply fo_prod. eapply Forall2_Forall; [exact T| |exact F]. intros q q' (c' & Q & _) G. now destruct (H _ _ _ Q G).
    + apply le_prod. apply Forall2_flip' in T. eapply Forall2_mono; [exact T|]. intros q' q _ I (c' & Q & _). rewrite Forall_forall in F. now destruct (H _ _ _ Q (F q I)) as (_ & B & _).
    + rewrite fl_prod, Forall_forall. intros L. apply le_prod. eapply Forall2_mono; [exact T|]. intros q q' I _ (c' & Q & _). rewrite Forall_forall in F. destruct (H _ _ _ Q (F q I)) as (_ & _ & B). exact (B (L q I)).
  - destruct (traverse f (map field_pat fps)) as [[ps' a]|] eqn:T; [|discriminate]. injection E as <- <-. apply traverse_spec in T. apply fo_struct in F as (N & F). 
    assert (LN : length fps = length ps') by (pose proof (Forall2_len _ _ _ T) as LN; now rewrite map_length in LN).
    apply combine_forall2 in T. split; [|split].
    + apply fo_struct. rewrite combine_names by exact LN. split; [exact N|]. eapply Forall2_Forall; [exact T| |exact F]. intros q q' (_ & c' & Q & _) G. now destruct (H _ _ _ Q G).
    + apply le_struct_fields. intros v. apply le_mfields. apply Forall2_flip' in T. eapply Forall2_mono; [exact T|]. intros q' q _ I (Nm & c' & Q & _). rewrite Forall_forall in F.
      split; [unfold field_name; now rewrite Nm|]. now destruct (H _ _ _ Q (F q I)) as (_ & B & _).
    + rewrite fl_struct, Forall_forall. intros L. apply le_struct_fields. intros v. apply le_mfields. eapply Forall2_mono; [exact T|]. intros q q' I _ (Nm & c' & Q & _). rewrite Forall_forall in F.
      split; [unfold field_name; now rewrite Nm|]. destruct (H _ _ _ Q (F q I)) as (_ & _ & B). exact (B (L q I)).
  - destruct (traverse f ps) as [[ps' a]|] eqn:T; [|discriminate]. injection E as <- <-. apply traverse_spec in T. apply fo_or in F. split; [|split].
    + apply fo_or. eapply Forall2_Forall; [exact T| |exact F]. intros q q' (c' & Q & _) G. now destruct (H _ _ _ Q G).
    + apply le_or2. apply Forall2_flip' in T. eapply Forall2_mono; [exact T|]. intros q' q _ I (c' & Q & _). rewrite Forall_forall in F. now destruct (H _ _ _ Q (F q I)) as (_ & B & _).
    + rewrite Forall_forall. intros L. apply le_or2. eapply Forall2_mono; [exact T|]. intros q q' I _ (c' & Q & _). rewrite Forall_forall in F. destruct (H _ _ _ Q (F q I)) as (_ & _ & B). exact (B (L q I)).
  - destruct (f t) as [[t' a]|] eqn:T; [|discriminate]. injection E as <- <-. destruct (H _ _ _ T F) as (A & B & C). split; [exact A|]. split; [now apply le_paren|]. intros L. now apply le_paren, C.
Qed.
Lemma walk_same f p p' c : walk f p = Some (p', c) -> (forall q q', f q = Some (q', false) -> q' = q) -> c = false -> p' = p.
Proof.
  intros E H ->. assert (M : forall ps ps', Forall2 (fun q q' => exists c', f q = Some (q', c') /\ (false = false -> c' = false)) ps ps' -> ps' = ps).
  { induction 1 as [|q q' qs qs' (c' & Q & C) F IH]; [reflexivity|]. rewrite IH. f_equal. apply H. now rewrite <- (C eq_refl). }
  destruct p as [| |b n|md x [t|]|u t|k ps|n fps b|ps|t]; cbn [walk] in E; try now injection E as <-.
  - destruct (f t) as [[t' a]|] eqn:T; [|discriminate]. injection E as <- ->. now rewrite (H _ _ T).
  - destruct (f t) as [[t' a]|] eqn:T; [|discriminate]. injection E as <- ->. now rewrite (H _ _ T).
  - destruct (traverse f ps) as [[ps' a]|] eqn:T; [|discriminate]. injection E as <- ->. apply traverse_spec in T. now rewrite (M _ _ T).
  - destruct (traverse f (map field_pat fps)) as [[ps' a]|] eqn:T; [|discriminate]. injection E as <- ->. apply traverse_spec in T. rewrite (M _ _ T). f_equal.
    clear. induction fps as [|[g q] fps IH]; [reflexivity|]. cbn. now rewrite IH.
  - destruct (traverse f ps) as [[ps' a]|] eqn:T; [|discriminate]. injection E as <- ->. apply traverse_spec in T. now rewrite (M _ _ T).
  - destruct (f t) as [[t' a]|] eqn:T; [|discriminate]. injection E as <- ->. now rewrite (H _ _ T).
Qed.
(** Nothing is done to a pattern without alternatives. *)
Lemma walk_or_free f p p' c : walk f p = Some (p', c) -> (forall q q' c, f q = Some (q', c) -> or_free q -> q' = q /\ c = false) -> or_free p \/ (exists ps, p = POr ps /\ Forall or_free ps) -> p' = p /\ c = false.
Proof.
  intros E H O. assert (M : forall ps ps' c, traverse f ps = Some (ps', c) -> Forall or_free ps -> ps' = ps /\ c = false).
  { induction ps as [|q qs IH]; cbn; intros ps' c0 T F; [injection T as <- <-; auto|]. inversion F as [|? ? F1 F2]; subst.
    destruct (f q) as [[q' a]|] eqn:Q; [|discriminate]. destruct (traverse f qs) as [[l b]|] eqn:R; [|discriminate]. injection T as <- <-.
    destruct (H _ _ _ Q F1) as (-> & ->). destruct (IH _ _ eq_refl F2) as (-> & ->). auto. }
  destruct O as [O|(ps & -> & O)].
  - destruct p as [| |b n|md x [t|]|u t|k ps|n fps b|ps|t]; cbn [walk] in E; try (injection E as <- <-; now auto).
    + destruct (f t) as [[t' a]|] eqn:T; [|discriminate]. injection E as <- <-. destruct (H _ _ _ T O) as (-> & ->). auto.
    + destruct (f t) as [[t' a]|] eqn:T; [|discriminate]. injection E as <- <-. destruct (H _ _ _ T O) as (-> & ->). auto.
    + destruct (traverse f ps) as [[ps' a]|] eqn:T; [|discriminate]. injection E as <- <-. apply of_prod in O. destruct (M _ _ _ T O) as (-> & ->). auto.
    + destruct (traverse f (map field_pat fps)) as [[ps' a]|] eqn:T; [|discriminate]. injection E as <- <-. apply of_struct in O.
      destruct (M _ _ _ T) as (-> & ->); [apply Forall_forall; intros q I; apply in_map_iff in I as (g & <- & I); rewrite Forall_forall in O; exact (O g I)|].
      split; [|reflexivity]. f_equal. clear. induction fps as [|[g q] fps IH]; [reflexivity|]. cbn. now rewrite IH.
    + destruct O.
    + destruct (f t) as [[t' a]|] eqn:T; [|discriminate]. injection E as <- <-. destruct (H _ _ _ T O) as (-> & ->). auto.
  - cbn [walk] in E. destruct (traverse f ps) as [[ps' a]|] eqn:T; [|discriminate]. injection E as <- <-. destruct (M _ _ _ T O) as (-> & ->). auto.
Qed.
Lemma visit_or_free n : forall p p' c, visit n p = Some (p', c) -> or_free p -> p' = p /\ c = false.
Proof.
  induction n as [|n IH]; intros p p' c E O; [discriminate|]. cbn [visit] in E. destruct (walk (visit n) p) as [[q a]|] eqn:W; [|discriminate].
  destruct (walk_or_free _ _ _ _ W IH (or_introl O)) as (-> & ->). destruct p; try (injection E as <- <-; now auto). destruct O.
Qed.
Lemma visit_same n : forall p p', visit n p = Some (p', false) -> p' = p.
Proof.
  induction n as [|n IH]; intros p p' E; [discriminate|]. cbn [visit] in E. destruct (walk (visit n) p) as [[q a]|] eqn:W; [|discriminate].
  assert (G : forall q', q = q' -> a = false -> q' = p) by (intros q' <- A; exact (walk_same _ _ _ _ W IH A)).
  destruct q as [| | | | | | |alts|]; try (injection E as <- ->; now apply G).
  destruct (focus_loop (length (collapse alts)) (collapse alts)) as [alts2 c2] eqn:L. destruct (existsb is_or alts || c2) eqn:C.
  - destruct (walk (visit n) (POr alts2)) as [[r b]|]; [|discriminate]. injection E as _ E. discriminate.
  - injection E as <- ->. apply orb_false_elim in C as (C1 & ->). rewrite (collapse_id _ C1) in L. apply G; [|reflexivity]. f_equal.
    clear -L. revert L. generalize (length alts). intros k. revert alts alts2. induction k as [|k IH]; intros alts alts2 L; [cbn in L; now injection L|].
    destruct alts as [|focus rest]; [now injection L|]. cbn [focus_loop] in L. destruct (transform focus rest) as [[f' r']|]; [destruct (focus_loop k r'); discriminate|].
    destruct (focus_loop k rest) as [r2 c2] eqn:R. injection L as <- ->. f_equal. exact (IH _ _ R).
Qed.
Lemma visit_spec w n : forall p p' c, visit n p = Some (p', c) -> fields_once p -> fields_once p' /\ le w p' p /\ (flat p -> le w p p').
Proof.
  induction n as [|n IH]; intros p p' c E F; [discriminate|]. cbn [visit] in E. destruct (walk (visit n) p) as [[q a]|] eqn:W; [|discriminate].
  destruct (walk_spec w _ _ _ _ W IH F) as (F1 & L1 & R1).
  assert (G : (forall ps, q <> POr ps) -> q = p' -> fields_once p' /\ le w p' p /\ (flat p -> le w p p')).
  { intros NO <-. split; [exact F1|]. split; [exact L1|]. destruct p as [| |b m|md x [t|]|u t|k ps|m fps b|ps|t]; try exact R1.
    exfalso. cbn [walk] in W. destruct (traverse (visit n) ps) as [[ps' a']|]; [|discriminate]. injection W as <- _. now apply (NO ps'). }
  destruct q as [| | | | | | |alts|]; try (injection E as <- <-; apply G; [discriminate|reflexivity]). clear G.
  assert (exists ps, p = POr ps) as (ps & ->).
  { destruct p as [| |b m|md x [t|]|u t|k ps|m fps b|ps|t]; cbn [walk] in W; try discriminate W; try (destruct (visit n t) as [[]|]; discriminate W); eauto.
    - destruct (traverse (visit n) ps) as [[]|]; discriminate W.
    - destruct (traverse (visit n) (map field_pat fps)) as [[]|]; discriminate W. }
  apply fo_or in F1. assert (FC : Forall fields_once (collapse alts)).
  { rewrite collapse_flatten. destruct (flatten_spec w (POr alts)) as (_ & _ & A & _). apply A. now apply fo_or. }
  destruct (focus_loop (length (collapse alts)) (collapse alts)) as [alts2 c2] eqn:FL. destruct (focus_loop_spec w _ _ _ _ FL FC) as (S1 & S2 & S3 & S4 & S5).
  destruct (flatten_spec w (POr alts)) as (C1 & C2 & _ & _).
  assert (T1 : le w (POr alts2) (POr ps)) by (eapply le_trans; [exact S1|]; rewrite collapse_flatten; eapply le_trans; [exact C1|exact L1]).
  assert (T2 : flat (POr ps) -> le w (POr ps) (POr alts2) /\ Forall flat alts2).
  { intros O. apply fl_or in O. destruct (walk_or_free _ _ _ _ W (visit_or_free n) (or_intror (ex_intro _ ps (conj eq_refl O)))) as (A & _). injection A as ->.
    rewrite (collapse_id _ (or_free_no_or _ O)) in S5. apply (S5 O). }
  destruct (existsb is_or alts || c2) eqn:C.
  - destruct (walk (visit n) (POr alts2)) as [[r b]|] eqn:W2; [|discriminate]. injection E as <- <-. destruct (walk_spec w _ _ _ _ W2 IH) as (F2 & L2 & R2); [now apply fo_or|].
    split; [exact F2|]. split; [eapply le_trans; eassumption|]. intros O. destruct (T2 O) as (T3 & T4). eapply le_trans; [exact T3|]. exact (R2 T4).
  - injection E as <- <-. split; [now apply fo_or|]. split; [exact T1|]. intros O. now destruct (T2 O).
Qed.

(** ** There is always enough fuel *)
Lemma traverse_total f ps n : (forall q, size q <= n -> exists q' c, f q = Some (q', c) /\ size q' <= size q) -> (forall q, In q ps -> size q <= n) ->
  exists ps' c, traverse f ps = Some (ps', c) /\ sum_size ps' <= sum_size ps /\ length ps' = length ps.
Proof.
  intros H. induction ps as [|p ps IH]; intros L; [exists [], false; cbn; auto|]. destruct (H p (L p (or_introl eq_refl))) as (p' & a & E & S).
  destruct IH as (ps' & b & T & S' & N); [intros q I; apply L; now right|]. exists (p' :: ps'), (a || b). change (traverse f (p :: ps)) with (match f p, traverse f ps with Some (p, a), Some (l, b) => Some (p :: l, a || b) | _, _ => None end). rewrite E, T. rewrite !sum_size_cons. cbn [length]. repeat split; lia.
Qed.
Lemma sum_fields (fps : list (nat * bool * pat)) : list_sum (map (fun f => size (snd f)) fps) = sum_size (map field_pat fps).
Proof. unfold sum_size. now rewrite map_map. Qed.
Lemma sum_combine (fps : list (nat * bool * pat)) : forall ps, length ps = length fps -> sum_size (map field_pat (combine (map fst fps) ps)) = sum_size ps.
Proof. induction fps as [|f fps IH]; intros [|p ps] L; try discriminate; [reflexivity|]. cbn [map combine field_pat snd]. rewrite !sum_size_cons. cbn [field_pat snd]. rewrite IH by now injection L. reflexivity. Qed.
Lemma in_sum p ps : In p ps -> size p <= sum_size ps.
Proof. intros I. apply list_sum_in. now apply in_map. Qed.
Lemma walk_total f p n : (forall q, size q <= n -> exists q' c, f q = Some (q', c) /\ size q' <= size q) -> size p <= S n -> exists p' c, walk f p = Some (p', c) /\ size p' <= size p.
Proof.
  intros H S. destruct p as [| |b m|md x [t|]|u t|k ps|m fps b|ps|t]; cbn [walk]; try (eexists _, _; split; [reflexivity|apply Nat.le_refl]).
  - destruct (H t) as (t' & c & E & L); [cbn in S; lia|]. rewrite E. eexists _, _. split; [reflexivity|]. cbn. lia.
  - destruct (H t) as (t' & c & E & L); [cbn in S; lia|]. rewrite E. eexists _, _. split; [reflexivity|]. cbn. lia.
  - rewrite size_prod in S. destruct (traverse_total f ps n H) as (ps' & c & E & L & _); [intros q I; apply in_sum in I; unfold sum_size in I; lia|]. rewrite E. eexists _, _. split; [reflexivity|].
    rewrite !size_prod. unfold sum_size in L. lia.
  - rewrite size_struct, sum_fields in S. destruct (traverse_total f (map field_pat fps) n H) as (ps' & c & E & L & N); [intros q I; apply in_sum in I; lia|]. rewrite E. eexists _, _. split; [reflexivity|].
    rewrite !size_struct, !sum_fields. rewrite sum_combine; [lia|]. now rewrite N, map_length.
  - rewrite size_or in S. destruct (traverse_total f ps n H) as (ps' & c & E & L & _); [intros q I; apply in_sum in I; unfold sum_size in I; lia|]. rewrite E. eexists _, _. split; [reflexivity|].
    rewrite !size_or. unfold sum_size in L. lia.
  - destruct (H t) as (t' & c & E & L); [cbn in S; lia|]. rewrite E. eexists _, _. split; [reflexivity|]. cbn. lia.
Qed.
Lemma size_pos p : 1 <= size p. Proof. destruct p as [| | |md x [t|]| | | | |]; cbn; lia. Qed.
Lemma visit_total n : forall p, size p <= n -> exists p' c, visit n p = Some (p', c) /\ size p' <= size p.
Proof.
  induction n as [|n IH]; intros p S; [pose proof (size_pos p); lia|]. cbn [visit]. destruct (walk_total (visit n) p n IH S) as (q & a & E & L). rewrite E.
  destruct q as [| | | | | | |alts|]; try (eexists _, _; split; [reflexivity|exact L]).
  destruct (focus_loop (length (collapse alts)) (collapse alts)) as [alts2 c2] eqn:FL.
  assert (S2 : size (POr alts2) <= size (POr alts)).
  { rewrite !size_or. pose proof (sum_collapse alts) as SC. enough (sum_size alts2 <= sum_size (collapse alts)) by (unfold sum_size in *; lia).
    clear -FL. revert FL. generalize (collapse alts) at 2 3. intros l. generalize (length (collapse alts)). intros k. revert l alts2 c2. induction k as [|k IH]; intros l alts2 c2 FL; [cbn in FL; injection FL as <- _; lia|].
    destruct l as [|focus rest]; [injection FL as <- _; lia|]. cbn [focus_loop] in FL. destruct (transform focus rest) as [[f' r']|] eqn:T.
    - destruct (focus_loop k r') as [r2 c3] eqn:R. injection FL as <- <-. specialize (IH _ _ _ R). apply transform_ctx in T as (K & f & t & tail & -> & -> & D & C).
      destruct (drain_spec f rest tail r' D) as (_ & _ & _ & SS & _). specialize (SS size (fun k t' Ik Ek => proj1 (c_drop _ _ _ _ C k t' Ik Ek))).
      pose proof (c_size _ _ _ _ C (extend t tail)). pose proof (extend_size t tail). rewrite !sum_size_cons. unfold sum_size in *. lia.
    - destruct (focus_loop k rest) as [r2 c3] eqn:R. injection FL as <- <-. specialize (IH _ _ _ R). rewrite !sum_size_cons. lia. }
  destruct (existsb is_or alts || c2).
  - destruct (walk_total (visit n) (POr alts2) n IH) as (r & b & E2 & L2); [lia|]. rewrite E2. eexists _, _. split; [reflexivity|lia].
  - eexists _, _. split; [reflexivity|lia].
Qed.
