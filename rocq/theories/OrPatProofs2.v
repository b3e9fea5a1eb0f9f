From Coq Require Import Lia.
From Verif Require Export OrPatProofs.

(** ** Draining *)
Lemma list_sum_cons n l : list_sum (n :: l) = n + list_sum l. Proof. reflexivity. Qed.
Lemma drain_spec f alts : forall tail rest, drain f alts = (tail, rest) ->
  (forall t, In t tail -> exists k, In k alts /\ f k = Some t) /\ (forall k, In k rest -> In k alts) /\
  (forall k, In k alts -> In k rest \/ exists t, f k = Some t /\ In t tail) /\
  (forall g : pat -> nat, (forall k t, In k alts -> f k = Some t -> g t < g k) -> list_sum (map g tail) + length tail + list_sum (map g rest) <= list_sum (map g alts)) /\
  length tail + length rest = length alts.
Proof.
  induction alts as [|k alts IH]; intros tail rest E; cbn [drain] in E.
  - injection E as <- <-. repeat split; [intros t []|intros k []|intros k []|cbn; lia].
  - destruct (drain f alts) as [tl rs]. destruct (IH _ _ eq_refl) as (A & B & C & D & L). destruct (f k) as [t|] eqn:K; injection E as <- <-.
    + split; [|split; [|split; [|split; [|cbn; lia]]]].
      * intros t' [<-|I]; [exists k; split; [now left|exact K]|]. destruct (A t' I) as (k' & ? & ?). exists k'. split; [now right|assumption].
      * intros k' I. right. auto.
      * intros k' [<-|I]; [right; exists t; split; [exact K|now left]|]. destruct (C k' I) as [J|(t' & ? & ?)]; [now left|]. right. exists t'. split; [assumption|now right].
      * intros g G. assert (g t < g k) by (apply G; [now left|exact K]). specialize (D g (fun k' t' I => G k' t' (or_intror I))). cbn [map length]. rewrite ?list_sum_cons. lia.
    + split; [|split; [|split; [|split; [|cbn; lia]]]].
      * intros t' I. destruct (A t' I) as (k' & ? & ?). exists k'. split; [now right|assumption].
      * intros k' [<-|I]; [now left|right; auto].
      * intros k' [<-|I]; [left; now left|]. destruct (C k' I) as [J|J]; [left; now right|now right].
      * intros g G. specialize (D g (fun k' t' I => G k' t' (or_intror I))). cbn [map length]. rewrite ?list_sum_cons. lia.
Qed.

(** ** Contexts: what the focus is around the pattern that grows *)
Record ctx (K : pat -> pat) (f : pat -> option pat) (t : pat) (rest : list pat) : Prop := {
  c_mono : forall w p q, le w p q -> le w (K p) (K q);
  c_dist : forall w ts, le w (K (POr ts)) (POr (map K ts)) /\ le w (POr (map K ts)) (K (POr ts));
  c_once : fields_once (K t) -> fields_once t /\ forall t', fields_once t' -> fields_once (K t');
  c_free : or_free (K t) -> or_free t /\ forall t', flat t' -> flat (K t');
  c_size : forall t', size (K t') + size t = size (K t) + size t';
  c_drop : forall k t', In k rest -> f k = Some t' -> size t' < size k /\ (fields_once k -> fields_once t') /\ (or_free k -> or_free t');
  c_same : forall w k t', fields_once (K t) -> In k rest -> fields_once k -> f k = Some t' -> le w (K t') k /\ (or_free (K t) -> le w k (K t'))
}.
Lemma extend_or w t tail : le w (extend t tail) (POr (t :: tail)) /\ le w (POr (t :: tail)) (extend t tail).
Proof.
  destruct tail as [|a tail]; cbn [extend].
  - split; [eapply le_or_r; [now left|apply le_refl]|apply le_or_l; intros p [<-|[]]; apply le_refl].
  - destruct t; try (split; apply le_refl). split; apply le_or_l; intros p I.
    + apply in_app_iff in I as [I|I]; [eapply le_or_r; [now left|]; eapply le_or_r; [exact I|apply le_refl]|].
      eapply le_or_r; [right; exact I|apply le_refl].
    + destruct I as [<-|I]; [apply le_or_l; intros q Iq; eapply le_or_r; [apply in_app_iff; left; exact Iq|apply le_refl]|].
      eapply le_or_r; [apply in_app_iff; right; exact I|apply le_refl].
Qed.
Lemma extend_once t tail : fields_once t -> Forall fields_once tail -> fields_once (extend t tail).
Proof.
  intros H F. destruct tail as [|a tail]; [exact H|]. cbn [extend]. destruct t; try (apply fo_or; constructor; assumption).
  apply fo_or. apply Forall_app. split; [now apply fo_or|exact F].
Qed.
Lemma extend_flat t tail : or_free t -> Forall or_free tail -> flat (extend t tail).
Proof.
  intros H F. destruct tail as [|a tail]; [now apply or_free_flat|]. cbn [extend]. destruct t; try (apply fl_or; constructor; assumption). destruct H.
Qed.
Lemma size_or ps : size (POr ps) = S (list_sum (map size ps)). Proof. reflexivity. Qed.
Lemma extend_size t tail : size (extend t tail) <= size t + list_sum (map size tail) + length tail.
Proof.
  destruct tail as [|a tail]; [cbn [extend map length]; change (list_sum []) with 0; lia|].
  assert (H : size (POr (t :: a :: tail)) <= size t + list_sum (map size (a :: tail)) + length (a :: tail)).
  { rewrite size_or. cbn [map length]. rewrite !list_sum_cons. lia. }
  unfold extend. destruct t; try exact H. rewrite !size_or, map_app, list_sum_app. cbn [length]. lia.
Qed.

Lemma ctx_merge K f t rest tail rest' w : ctx K f t rest -> drain f rest = (tail, rest') -> fields_once (K t) -> Forall fields_once rest ->
  le w (POr (K (extend t tail) :: rest')) (POr (K t :: rest)) /\
  (or_free (K t) -> le w (POr (K t :: rest)) (POr (K (extend t tail) :: rest'))) /\
  fields_once (K (extend t tail)) /\ Forall fields_once rest' /\
  (or_free (K t) -> Forall or_free rest -> flat (K (extend t tail)) /\ Forall or_free rest') /\
  size (K (extend t tail)) + list_sum (map size rest') <= size (K t) + list_sum (map size rest) /\ length rest' <= length rest.
Proof.
  intros C D FK FR. destruct (drain_spec f rest tail rest' D) as (A & B & E & S & L). rewrite Forall_forall in FR.
  assert (M : le w (K (extend t tail)) (POr (map K (t :: tail))) /\ le w (POr (map K (t :: tail))) (K (extend t tail))).
  { destruct (extend_or w t tail) as (X & Y). destruct (c_dist _ _ _ _ C w (t :: tail)) as (P & Q).
    split; eapply le_trans; [exact (c_mono _ _ _ _ C w _ _ X)|exact P|exact Q|exact (c_mono _ _ _ _ C w _ _ Y)]. }
  destruct M as (M1 & M2). split; [|split; [|split; [|split; [|split]]]].
  - apply le_or_l. intros p [<-|I]; [|eapply le_or_r; [right; exact (B p I)|apply le_refl]].
    eapply le_trans; [exact M1|]. apply le_or_l. intros q I. cbn [map] in I. destruct I as [<-|I]; [eapply le_or_r; [now left|apply le_refl]|].
    apply in_map_iff in I as (t' & <- & I). destruct (A t' I) as (k & Ik & Ek). eapply le_or_r; [right; exact Ik|].
    destruct (c_same _ _ _ _ C w k t' FK Ik (FR k Ik) Ek) as (X & _). exact X.
  - intros O. apply le_or_l. intros p [<-|I].
    + eapply le_or_r; [now left|]. eapply le_trans; [|exact M2]. eapply le_or_r; [now left|apply le_refl].
    + destruct (E p I) as [J|(t' & Et & J)]; [eapply le_or_r; [right; exact J|apply le_refl]|].
      eapply le_or_r; [now left|]. eapply le_trans; [|exact M2]. eapply le_or_r; [cbn [map]; right; apply in_map; exact J|].
      destruct (c_same _ _ _ _ C w p t' FK I (FR p I) Et) as (_ & X). exact (X O).
  - destruct (c_once _ _ _ _ C FK) as (X & Y). apply Y, extend_once; [exact X|]. apply Forall_forall. intros t' I. destruct (A t' I) as (k & Ik & Ek).
    destruct (c_drop _ _ _ _ C k t' Ik Ek) as (_ & Z & _). exact (Z (FR k Ik)).
  - apply Forall_forall. auto.
  - intros O OR. rewrite Forall_forall in OR. destruct (c_free _ _ _ _ C O) as (X & Y). split; [|apply Forall_forall; auto].
    apply Y, extend_flat; [exact X|]. apply Forall_forall. intros t' I. destruct (A t' I) as (k & Ik & Ek). destruct (c_drop _ _ _ _ C k t' Ik Ek) as (_ & _ & Z). exact (Z (OR k Ik)).
  - split; [|lia]. pose proof (c_size _ _ _ _ C (extend t tail)). pose proof (extend_size t tail).
    assert (list_sum (map size tail) + length tail + list_sum (map size rest') <= list_sum (map size rest)).
    { apply S. intros k t' Ik Ek. now destruct (c_drop _ _ _ _ C k t' Ik Ek). }
    lia.
Qed.

(** ** The four kinds of context *)
Lemma ctx_un u t rest : ctx (PUn u) (match_un u) t rest.
Proof.
  constructor.
  - intros w p q. apply le_un.
  - intros w ts. split; intros vs e r I.
    + destruct vs as [|v vs]; [destruct I|]. cbn [m] in I. destruct (inner w u v) as [v'|] eqn:E; [|destruct I].
      apply in_single in I as (-> & I). apply in_full, in_or in I as (p & Ip & I). exists e. split; [|reflexivity].
      apply in_or. exists (PUn u p). split; [now apply in_map|]. cbn [m]. rewrite E. apply in_single. split; [reflexivity|]. now apply in_full.
    + apply in_or in I as (q & Iq & I). apply in_map_iff in Iq as (p & <- & Ip). destruct vs as [|v vs]; [destruct I|]. cbn [m] in I.
      destruct (inner w u v) as [v'|] eqn:E; [|destruct I]. apply in_single in I as (-> & I). exists e. split; [|reflexivity].
      change (In (e, vs) (map (fun e => (e, vs)) match inner w u v with Some v => full w (m w (POr ts) [v]) | None => [] end)). rewrite E. apply in_single. split; [reflexivity|].
      apply in_full, in_or. exists p. split; [exact Ip|]. now apply in_full.
  - cbn. auto.
  - cbn. auto.
  - intros t'. cbn. lia.
  - intros k t' _. destruct k; try discriminate. cbn. destruct (un_eqb u u0); [|discriminate]. injection 1 as <-. auto.
  - intros w k t' _ _ _ E. destruct k; try discriminate. cbn in E. destruct (un_eqb u u0) eqn:U; [|discriminate]. injection E as <-. apply un_eqb_eq in U as <-.
    now apply le_same.
Qed.
Lemma ctx_ident md x t rest : ctx (fun p => PIdent md x (Some p)) (match_ident md x) t rest.
Proof.
  constructor.
  - intros w p q. apply le_ident.
  - intros w ts. split; intros vs e r I.
    + destruct vs as [|v vs]; [destruct I|]. change (In (e, r) (map (fun e => (e, vs)) (map (cons (x, md, v)) (full w (m w (POr ts) [v]))))) in I.
      apply in_single in I as (-> & I). apply in_map_iff in I as (e' & <- & I). apply in_full, in_or in I as (p & Ip & I). eexists. split; [|reflexivity].
      apply in_or. exists (PIdent md x (Some p)). split; [now apply (in_map (fun p => PIdent md x (Some p)))|]. cbn [m]. apply in_single. split; [reflexivity|]. apply in_map. now apply in_full.
    + apply in_or in I as (q & Iq & I). apply in_map_iff in Iq as (p & <- & Ip). destruct vs as [|v vs]; [destruct I|]. cbn [m] in I.
      apply in_single in I as (-> & I). apply in_map_iff in I as (e' & <- & I). eexists. split; [|reflexivity].
      change (In ((x, md, v) :: e', vs) (map (fun e => (e, vs)) (map (cons (x, md, v)) (full w (m w (POr ts) [v]))))). apply in_single. split; [reflexivity|].
      apply in_map. apply in_full, in_or. exists p. split; [exact Ip|]. now apply in_full.
  - cbn. auto.
  - cbn. auto.
  - intros t'. cbn. lia.
  - intros k t' _. destruct k as [| | |md' x' [p|]| | | | |]; try discriminate. cbn. destruct (Nat.eqb md md' && Nat.eqb x x'); [|discriminate]. injection 1 as <-. auto.
  - intros w k t' _ _ _ E. destruct k as [| | |md' x' [p|]| | | | |]; try discriminate. cbn in E. destruct (Nat.eqb md md' && Nat.eqb x x') eqn:U; [|discriminate]. injection E as <-.
    apply andb_prop in U as (U1 & U2). apply Nat.eqb_eq in U1, U2. subst. now apply le_same.
Qed.
Lemma Forall_mid {A} (P : A -> Prop) l x r : Forall P (l ++ x :: r) <-> Forall P l /\ P x /\ Forall P r.
Proof. rewrite Forall_app, Forall_cons_iff. tauto. Qed.
Lemma size_prod k ps : size (PProd k ps) = S (list_sum (map size ps)). Proof. reflexivity. Qed.
Lemma match_prod_spec k pre t post other t' : match_prod k pre t post other = Some t' ->
  exists pre' post', other = PProd k (pre' ++ t' :: post') /\ Forall2 (fun p q => eq_pat p q = true) pre pre' /\ Forall2 (fun p q => eq_pat p q = true) post post'.
Proof.
  destruct other as [| | | | |k' ps| | |]; try discriminate. cbn [match_prod]. destruct (kind_eqb k k' && _) eqn:E; [|discriminate]. apply andb_prop in E as (E & _). apply kind_eqb_eq in E as <-.
  destruct (skipn (length pre) ps) as [|t1 post'] eqn:S; [discriminate|]. destruct (Bool.eqb _ _ && _ && _) eqn:C; [|discriminate]. intros [= <-].
  apply andb_prop in C as (C & C2). apply andb_prop in C as (_ & C1). exists (firstn (length pre) ps), post'. rewrite <- S, firstn_skipn. split; [reflexivity|]. split; now apply over_forall2.
Qed.
Lemma ctx_prod k pre t post rest : ctx (fun p => PProd k (pre ++ p :: post)) (match_prod k pre t post) t rest.
Proof.
  constructor.
  - intros w p q H. apply le_prod. apply Forall2_app; [apply Forall2_refl, le_refl|]. constructor; [exact H|]. apply Forall2_refl, le_refl.
  - intros w ts. split; intros vs e r I.
    + destruct vs as [|v vs]; [destruct I|]. rewrite m_prod in I. destruct (parts w k v) as [us|] eqn:E; [|destruct I].
      apply in_single in I as (-> & I). apply in_full, in_mlist_app in I as (e1 & r1 & e2 & I1 & I2 & ->). apply in_mlist_cons in I2 as (e3 & r2 & e4 & I2 & I3 & ->).
      apply in_or in I2 as (p & Ip & I2). eexists. split; [|reflexivity]. apply in_or. exists (PProd k (pre ++ p :: post)). split; [now apply (in_map (fun p => PProd k (pre ++ p :: post)))|].
      rewrite m_prod, E. apply in_single. split; [reflexivity|]. apply in_full, in_mlist_app. exists e1, r1, (e3 ++ e4). split; [exact I1|]. split; [|reflexivity].
      apply in_mlist_cons. eauto 7.
    + apply in_or in I as (q & Iq & I). apply in_map_iff in Iq as (p & <- & Ip). destruct vs as [|v vs]; [destruct I|]. rewrite m_prod in I. destruct (parts w k v) as [us|] eqn:E; [|destruct I].
      apply in_single in I as (-> & I). apply in_full, in_mlist_app in I as (e1 & r1 & e2 & I1 & I2 & ->). apply in_mlist_cons in I2 as (e3 & r2 & e4 & I2 & I3 & ->).
      eexists. split; [|reflexivity]. rewrite m_prod, E. apply in_single. split; [reflexivity|]. apply in_full, in_mlist_app. exists e1, r1, (e3 ++ e4). split; [exact I1|]. split; [|reflexivity].
      apply in_mlist_cons. exists e3, r2, e4. split; [apply in_or; eauto|auto].
  - rewrite fo_prod, Forall_mid. intros (A & B & C). split; [exact B|]. intros t' T. apply fo_prod, Forall_mid. auto.
  - rewrite of_prod, Forall_mid. intros (A & B & C). split; [exact B|]. intros t' T. apply fl_prod, Forall_mid.
    repeat split; [eapply Forall_impl; [apply or_free_flat|exact A]|exact T|eapply Forall_impl; [apply or_free_flat|exact C]].
  - intros t'. rewrite !size_prod, !map_app, !list_sum_app. cbn [map]. rewrite !list_sum_cons. lia.
  - intros o t' _ E. apply match_prod_spec in E as (pre' & post' & -> & _). split; [|split].
    + rewrite size_prod, map_app, list_sum_app. cbn [map]. rewrite list_sum_cons. lia.
    + rewrite fo_prod, Forall_mid. tauto.
    + rewrite of_prod, Forall_mid. tauto.
  - intros w o t' F _ G E. apply match_prod_spec in E as (pre' & post' & -> & F1 & F2). apply fo_prod, Forall_mid in F as (FA & _ & FB). apply fo_prod, Forall_mid in G as (GA & _ & GB).
    rewrite Forall_forall in FA, FB, GA, GB. split; [|rewrite of_prod, Forall_mid, !Forall_forall; intros (OA & _ & OB)]; apply le_prod, Forall2_app.
    + eapply Forall2_mono; [exact F1|]. intros p q Ip Iq E. destruct (eq_pat_le w p q (FA p Ip) (GA q Iq) E) as (X & _). exact X.
    + constructor; [apply le_refl|]. eapply Forall2_mono; [exact F2|]. intros p q Ip Iq E. destruct (eq_pat_le w p q (FB p Ip) (GB q Iq) E) as (X & _). exact X.
    + apply Forall2_flip' in F1. eapply Forall2_mono; [exact F1|]. intros q p Iq Ip E. destruct (eq_pat_le w p q (FA p Ip) (GA q Iq) E) as (_ & X). exact (X (OA p Ip)).
    + constructor; [apply le_refl|]. apply Forall2_flip' in F2. eapply Forall2_mono; [exact F2|]. intros q p Iq Ip E. destruct (eq_pat_le w p q (FB p Ip) (GB q Iq) E) as (_ & X). exact (X (OB p Ip)).
Qed.
Lemma match_struct_spec n pre f post b other t' : match_struct n pre f post b other = Some t' -> NoDup (map field_name (pre ++ f :: post)) ->
  exists fps b' g gps, other = PStruct n fps b' /\ Permutation fps (g :: gps) /\ field_name f = field_name g /\ snd g = t' /\
    Forall2 (fun p q => eq_field_pat p q = true) (pre ++ post) gps.
Proof.
  destruct other as [| | | | | |n' fps b'| |]; try discriminate. cbn [match_struct]. destruct (_ && _) eqn:E; [|discriminate].
  apply andb_prop in E as (E & E5). apply andb_prop in E as (E & E4). apply andb_prop in E as (E & E3). apply andb_prop in E as (_ & E2). apply Nat.eqb_eq in E2, E3. subst n'.
  destruct (find _ fps) as [g|] eqn:F; [|discriminate]. intros [= <-] N. apply find_some in F as (Ig & F). apply andb_prop in F as (_ & F). apply Nat.eqb_eq in F.
  apply in_split in Ig as (a & c & ->). rewrite map_app in N. cbn [map] in N. apply NoDup_remove in N as (N & NI). rewrite <- map_app in N, NI.
  destruct (align field_name (fun p q => eq_field_pat p q = true) (pre ++ post) (a ++ c)) as (gps & P & F2).
  - intros p q H. apply andb_prop in H as (H & _). now apply Nat.eqb_eq.
  - exact N.
  - rewrite !app_length in *. cbn in E3. lia.
  - intros h Ih. assert (H : existsb (eq_field_pat h) (a ++ g :: c) = true).
    { rewrite forallb_forall in E4, E5. apply in_app_iff in Ih as [Ih|Ih]; auto. }
    apply existsb_exists in H as (h' & Ih' & H). exists h'. split; [|exact H]. apply in_app_iff in Ih' as [I'|[<-|I']]; [apply in_app_iff; now left| |apply in_app_iff; now right].
    exfalso. apply NI. apply andb_prop in H as (H & _). apply Nat.eqb_eq in H. rewrite F, <- H. now apply in_map.
  - exists (a ++ g :: c), b', g, gps. split; [reflexivity|]. split; [|split; [exact F|split; [reflexivity|exact F2]]].
    etransitivity; [symmetry; apply Permutation_middle|]. now constructor.
Qed.
Lemma size_struct n fps b : size (PStruct n fps b) = S (list_sum (map (fun f => size (snd f)) fps)). Proof. reflexivity. Qed.
Lemma list_sum_in n l : In n l -> n <= list_sum l.
Proof. induction l; [intros []|]. rewrite list_sum_cons. intros [->|I]; [lia|]. specialize (IHl I). lia. Qed.
Lemma ctx_struct n pre f post b rest : ctx (fun p => PStruct n (pre ++ (fst f, p) :: post) b) (match_struct n pre f post b) (snd f) rest.
Proof.
  assert (NM : forall p, map field_name (pre ++ (fst f, p) :: post) = map field_name (pre ++ f :: post)) by (intros p; rewrite !map_app; reflexivity).
  assert (FE : f = (fst f, snd f)) by (now destruct f).
  constructor.
  - intros w p q H. apply le_struct_fields. intros v. apply le_mfields. apply Forall2_app; [apply Forall2_refl; split; [reflexivity|apply le_refl]|].
    constructor; [split; [reflexivity|exact H]|]. apply Forall2_refl. split; [reflexivity|apply le_refl].
  - intros w ts.
    assert (D : forall v e, In e (mfields w n v (pre ++ (fst f, POr ts) :: post)) <-> exists p, In p ts /\ In e (mfields w n v (pre ++ (fst f, p) :: post))).
    { intros v. clear NM. induction pre as [|g pre' IH]; intros e.
      - cbn [app]. rewrite in_mfields_cons. cbn [snd]. split.
        + intros (x & e1 & e2 & E & I & J & ->). apply in_or in I as (p & Ip & I). exists p. split; [exact Ip|]. apply in_mfields_cons. exists x, e1, e2. auto.
        + intros (p & Ip & I). apply in_mfields_cons in I as (x & e1 & e2 & E & I & J & ->). exists x, e1, e2. split; [exact E|]. split; [apply in_or; eauto|auto].
      - rewrite <- app_comm_cons, in_mfields_cons. split.
        + intros (x & e1 & e2 & E & I & J & ->). apply IH in J as (p & Ip & J). exists p. split; [exact Ip|]. rewrite <- app_comm_cons. apply in_mfields_cons. exists x, e1, e2. auto.
        + intros (p & Ip & I). rewrite <- app_comm_cons in I. apply in_mfields_cons in I as (x & e1 & e2 & E & I & J & ->). exists x, e1, e2. split; [exact E|]. split; [exact I|]. split; [|reflexivity].
          apply IH. eauto. }
    split; intros vs e r I.
    + destruct vs as [|v vs]; [destruct I|]. rewrite m_struct in I. destruct (of_path w n v) eqn:E; [|destruct I].
      apply in_single in I as (-> & I). apply D in I as (p & Ip & I). exists e. split; [|reflexivity]. apply in_or.
      exists (PStruct n (pre ++ (fst f, p) :: post) b). split; [now apply (in_map (fun p => PStruct n (pre ++ (fst f, p) :: post) b))|]. rewrite m_struct, E. now apply in_single.
    + apply in_or in I as (q & Iq & I). apply in_map_iff in Iq as (p & <- & Ip). destruct vs as [|v vs]; [destruct I|]. rewrite m_struct in I. destruct (of_path w n v) eqn:E; [|destruct I].
      apply in_single in I as (-> & I). exists e. split; [|reflexivity]. rewrite m_struct, E. apply in_single. split; [reflexivity|]. apply D. eauto.
  - rewrite fo_struct, Forall_mid, NM. cbn [snd]. intros (N & A & B & C). split; [exact B|]. intros t' T. apply fo_struct. rewrite NM, Forall_mid. auto.
  - rewrite of_struct, Forall_mid. cbn [snd]. intros (A & B & C). split; [exact B|]. intros t' T. apply fl_struct, Forall_mid.
    repeat split; [eapply Forall_impl; [|exact A]; intros g; apply or_free_flat|exact T|eapply Forall_impl; [|exact C]; intros g; apply or_free_flat].
  - intros t'. rewrite !size_struct, !map_app, !list_sum_app. cbn [map]. rewrite !list_sum_cons. cbn [snd]. lia.
  - intros o t' _ E. destruct o as [| | | | | |n' fps b'| |]; try discriminate. cbn [match_struct] in E. destruct (_ && _); [|discriminate].
    destruct (find _ fps) as [g|] eqn:F; [|discriminate]. injection E as <-. apply find_some in F as (Ig & _). unfold field_pat. split; [|split].
    + rewrite size_struct. apply (in_map (fun f => size (snd f))) in Ig. apply list_sum_in in Ig. lia.
    + rewrite fo_struct, Forall_forall. intros (_ & H). auto.
    + rewrite of_struct, Forall_forall. auto.
  - intros w o t' F _ G E. apply fo_struct in F as (N & F). rewrite NM in N. apply match_struct_spec in E as (fps & b' & g & gps & -> & P & Nm & <- & F2); [|exact N].
    apply fo_struct in G as (_ & G). apply Forall_mid in F as (FA & _ & FB). rewrite Forall_forall in FA, FB, G.
    assert (H : forall h h', In h (pre ++ post) -> In h' gps -> eq_field_pat h h' = true -> field_name h = field_name h' /\ le w (snd h) (snd h') /\ (or_free (snd h) -> le w (snd h') (snd h))).
    { intros h h' I I' E. apply andb_prop in E as (E1 & E2). apply Nat.eqb_eq in E1. split; [exact E1|]. apply eq_pat_le; [|apply G; eapply Permutation_in; [symmetry; exact P|now right]|exact E2].
      apply in_app_iff in I as [I|I]; auto. }
    split; [|rewrite of_struct, Forall_mid, !Forall_forall; intros (OA & _ & OB)]; apply le_struct_fields; intros v.
    + eapply sube_trans; [apply perm_mfields; symmetry; apply Permutation_middle|]. eapply sube_trans; [|apply perm_mfields; symmetry; exact P].
      apply le_mfields. constructor; [split; [exact Nm|apply le_refl]|]. eapply Forall2_mono; [exact F2|]. intros h h' I I' E. destruct (H h h' I I' E) as (X & Y & _). auto.
    + eapply sube_trans; [apply perm_mfields; exact P|]. eapply sube_trans; [|apply perm_mfields; apply Permutation_middle].
      apply le_mfields. constructor; [split; [symmetry; exact Nm|apply le_refl]|]. apply Forall2_flip' in F2. eapply Forall2_mono; [exact F2|]. intros h' h I' I E.
      destruct (H h h' I I' E) as (X & _ & Y). split; [auto|]. apply Y. apply in_app_iff in I as [I|I]; auto.
Qed.
