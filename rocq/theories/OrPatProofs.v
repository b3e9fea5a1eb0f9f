From Coq Require Import Lia.
From Verif Require Export OrPatSpec.

Lemma pat_ind2 (P : pat -> Prop) : P PWild -> P PRest -> (forall b n, P (PLeaf b n)) -> (forall m x, P (PIdent m x None)) ->
  (forall m x p, P p -> P (PIdent m x (Some p))) -> (forall u p, P p -> P (PUn u p)) -> (forall k ps, Forall P ps -> P (PProd k ps)) ->
  (forall n fps r, Forall (fun f => P (snd f)) fps -> P (PStruct n fps r)) -> (forall ps, Forall P ps -> P (POr ps)) ->
  (forall p, P p -> P (PParen p)) -> forall p, P p.
Proof.
  intros H1 H2 H3 H4 H5 H6 H7 H8 H9 H10. fix IH 1. intros p. destruct p as [| |b n|md x [s|]|u p|k ps|n fps r|ps|p].
  - exact H1.
  - exact H2.
  - apply H3.
  - apply H5, IH.
  - apply H4.
  - apply H6, IH.
  - apply H7. induction ps; constructor; auto.
  - apply H8. induction fps; constructor; auto.
  - apply H9. induction ps; constructor; auto.
  - apply H10, IH.
Qed.

(** ** Shapes *)
Lemma fo_prod k ps : fields_once (PProd k ps) <-> Forall fields_once ps.
Proof. cbn. induction ps as [|p ps IH]; [split; auto|]. split; [intros (A & B); constructor; tauto|inversion 1; tauto]. Qed.
Lemma fo_or ps : fields_once (POr ps) <-> Forall fields_once ps. Proof. exact (fo_prod KTuple ps). Qed.
Lemma fo_struct n fps r : fields_once (PStruct n fps r) <-> NoDup (map field_name fps) /\ Forall (fun f => fields_once (snd f)) fps.
Proof. cbn. enough ((fix go l := match l with [] => True | f :: l => fields_once (snd f) /\ go l end) fps <-> Forall (fun f => fields_once (snd f)) fps) by tauto.
  induction fps as [|p ps IH]; [split; auto|]. split; [intros (A & B); constructor; tauto|inversion 1; tauto]. Qed.
Lemma of_prod k ps : or_free (PProd k ps) <-> Forall or_free ps.
Proof. cbn. induction ps as [|p ps IH]; [split; auto|]. split; [intros (A & B); constructor; tauto|inversion 1; tauto]. Qed.
Lemma of_struct n fps r : or_free (PStruct n fps r) <-> Forall (fun f => or_free (snd f)) fps.
Proof. cbn. induction fps as [|p ps IH]; [split; auto|]. split; [intros (A & B); constructor; tauto|inversion 1; tauto]. Qed.
Lemma fl_prod k ps : flat (PProd k ps) <-> Forall flat ps.
Proof. cbn. induction ps as [|p ps IH]; [split; auto|]. split; [intros (A & B); constructor; tauto|inversion 1; tauto]. Qed.
Lemma fl_struct n fps r : flat (PStruct n fps r) <-> Forall (fun f => flat (snd f)) fps.
Proof. cbn. induction fps as [|p ps IH]; [split; auto|]. split; [intros (A & B); constructor; tauto|inversion 1; tauto]. Qed.
Lemma fl_or ps : flat (POr ps) <-> Forall or_free ps.
Proof. cbn. induction ps as [|p ps IH]; [split; auto|]. split; [intros (A & B); constructor; tauto|inversion 1; tauto]. Qed.
Lemma or_free_flat p : or_free p -> flat p.
Proof.
  induction p using pat_ind2; auto.
  - rewrite of_prod, fl_prod. intros F. rewrite Forall_forall in *. auto.
  - rewrite of_struct, fl_struct. intros F. rewrite Forall_forall in *. auto.
  - intros [].
Qed.
Lemma un_eqb_eq a b : un_eqb a b = true <-> a = b. Proof. destruct a, b; cbn; split; congruence. Qed.
Lemma kind_eqb_eq a b : kind_eqb a b = true <-> a = b.
Proof. destruct a, b; cbn; rewrite ?Nat.eqb_eq; split; congruence. Qed.
Lemma over_forall2 (l r : list pat) : over eq_pat l r = true <-> Forall2 (fun p q => eq_pat p q = true) l r.
Proof.
  revert r. induction l as [|x l IH]; intros [|y r]; cbn; split; try discriminate; auto; try (now inversion 1).
  - intros H. apply andb_prop in H as (A & B). constructor; [exact A|]. now apply IH.
  - inversion 1; subst. apply andb_true_intro. split; [assumption|]. now apply IH.
Qed.
Lemma Forall2_in {A B} (R : A -> B -> Prop) l r x : Forall2 R l r -> In x l -> exists y, In y r /\ R x y.
Proof. induction 1 as [|a b l r H F IH]; [intros []|]. intros [->|I]; [exists b; split; [now left|exact H]|]. destruct (IH I) as (y & ? & ?). exists y. split; [now right|assumption]. Qed.
Lemma Forall2_mono {A B} (R S : A -> B -> Prop) l r : Forall2 R l r -> (forall x y, In x l -> In y r -> R x y -> S x y) -> Forall2 S l r.
Proof. induction 1 as [|a b l r H F IH]; intros M; constructor; [apply M; cbn; auto|apply IH; intros; apply M; cbn; auto]. Qed.
Lemma Forall2_flip' {A B} (R : A -> B -> Prop) l r : Forall2 R l r -> Forall2 (fun y x => R x y) r l.
Proof. induction 1; constructor; auto. Qed.
Lemma Forall2_refl {A} (R : A -> A -> Prop) l : (forall x, R x x) -> Forall2 R l l. Proof. intros H. induction l; constructor; auto. Qed.

(** Fields that have an equal one each in another list of the same length. *)
Lemma align {A} (name : A -> nat) (R : A -> A -> Prop) l r : (forall f g, R f g -> name f = name g) -> NoDup (map name l) -> length l = length r ->
  (forall f, In f l -> exists g, In g r /\ R f g) -> exists r', Permutation r r' /\ Forall2 R l r'.
Proof.
  intros RN. revert r. induction l as [|f l IH]; intros r N L H.
  - destruct r; [|discriminate]. exists []. split; constructor.
  - destruct (H f (or_introl eq_refl)) as (g & Ig & Rg). apply in_split in Ig as (a & b & ->).
    inversion N as [|? ? NI N']; subst. destruct (IH (a ++ b)) as (r' & P & F); [exact N'| | |].
    + rewrite app_length in *. cbn in *. lia.
    + intros f' I. destruct (H f' (or_intror I)) as (g' & Ig' & Rg'). exists g'. split; [|exact Rg'].
      apply in_app_iff in Ig' as [I'|[->|I']]; [apply in_app_iff; now left| |apply in_app_iff; now right].
      exfalso. apply NI. rewrite (RN _ _ Rg), <- (RN _ _ Rg'). now apply in_map.
    + exists (g :: r'). split; [|now constructor]. etransitivity; [symmetry; apply Permutation_middle|]. now constructor.
Qed.

Section Le.
  Context (w : world).
  Definition subl (a b : results w) : Prop := forall e r, In (e, r) a -> exists e', In (e', r) b /\ Permutation e e'.
  Definition sube (a b : list (env w)) : Prop := forall e, In e a -> exists e', In e' b /\ Permutation e e'.
  Definition le (p q : pat) : Prop := forall vs, subl (m w p vs) (m w q vs).
  Fixpoint mlist (ps : list pat) (vs : list (val w)) : results w :=
    match ps with
    | [] => [([], vs)]
    | p :: ps => flat_map (fun x => map (fun y => (fst x ++ fst y, snd y)) (mlist ps (snd x))) (m w p vs)
    end.
  Definition mfields (n : nat) (v : val w) : list (nat * bool * pat) -> list (env w) :=
    fix go fps := match fps with
      | [] => [[]]
      | f :: fps => match field w n (field_name f) v with Some x => flat_map (fun e => map (app e) (go fps)) (full w (m w (snd f) [x])) | None => [] end
      end.
  Lemma mfields_cons n v f fps : mfields n v (f :: fps) =
    match field w n (field_name f) v with Some x => flat_map (fun e => map (app e) (mfields n v fps)) (full w (m w (snd f) [x])) | None => [] end.
  Proof. reflexivity. Qed.
  Lemma m_prod k ps v r : m w (PProd k ps) (v :: r) = map (fun e => (e, r)) match parts w k v with Some vs => full w (mlist ps vs) | None => [] end.
  Proof. reflexivity. Qed.
  Lemma m_struct n fps b v r : m w (PStruct n fps b) (v :: r) = map (fun e => (e, r)) (if of_path w n v then mfields n v fps else []).
  Proof. reflexivity. Qed.
  Lemma in_full e r : In e (full w r) <-> In (e, []) r.
  Proof.
    unfold full. rewrite in_flat_map. split.
    - intros ([e' s] & I & J). destruct s; [|destruct J]. cbn in J. destruct J as [->|[]]. exact I.
    - intros I. exists (e, []). split; [exact I|now left].
  Qed.
  Lemma in_single (e : env w) (r r' : list (val w)) l : In (e, r') (map (fun e => (e, r)) l) <-> r' = r /\ In e l.
  Proof. rewrite in_map_iff. split; [intros (x & E & I); injection E as -> ->; auto|intros (-> & I); exists e; auto]. Qed.
  Lemma in_or x ps vs : In x (m w (POr ps) vs) <-> exists p, In p ps /\ In x (m w p vs).
  Proof. cbn. apply in_flat_map. Qed.
  Lemma in_mlist_cons e r p ps vs : In (e, r) (mlist (p :: ps) vs) <-> exists e1 r1 e2, In (e1, r1) (m w p vs) /\ In (e2, r) (mlist ps r1) /\ e = e1 ++ e2.
  Proof.
    cbn [mlist]. rewrite in_flat_map. split.
    - intros ([e1 r1] & I & J). apply in_map_iff in J as ([e2 r2] & E & J). cbn in *. injection E as <- <-. eauto 7.
    - intros (e1 & r1 & e2 & I & J & ->). exists (e1, r1). split; [exact I|]. apply in_map_iff. exists (e2, r). auto.
  Qed.
  Lemma in_mlist_app e r ps qs vs : In (e, r) (mlist (ps ++ qs) vs) <-> exists e1 r1 e2, In (e1, r1) (mlist ps vs) /\ In (e2, r) (mlist qs r1) /\ e = e1 ++ e2.
  Proof.
    revert e vs. induction ps as [|p ps IH]; intros e vs.
    - cbn. split; [intros I; exists [], vs, e; auto|intros (e1 & r1 & e2 & [E|[]] & I & ->); injection E as <- <-; exact I].
    - rewrite <- app_comm_cons, in_mlist_cons. split.
      + intros (e1 & r1 & e2 & I & J & ->). apply IH in J as (e3 & r2 & e4 & J & K & ->). exists (e1 ++ e3), r2, e4. rewrite in_mlist_cons, app_assoc. eauto 9.
      + intros (e1 & r1 & e2 & I & J & ->). apply in_mlist_cons in I as (e3 & r2 & e4 & I & K & ->). exists e3, r2, (e4 ++ e2). rewrite IH, <- app_assoc. eauto 9.
  Qed.
  Lemma in_mfields_cons n v e f fps : In e (mfields n v (f :: fps)) <->
    exists x e1 e2, field w n (field_name f) v = Some x /\ In (e1, []) (m w (snd f) [x]) /\ In e2 (mfields n v fps) /\ e = e1 ++ e2.
  Proof.
    rewrite mfields_cons. destruct (field w n (field_name f) v) as [x|]; [|split; [intros []|intros (x & e1 & e2 & E & _); discriminate]].
    rewrite in_flat_map. split.
    - intros (e1 & I & J). apply in_full in I. apply in_map_iff in J as (e2 & <- & J). eauto 8.
    - intros (x' & e1 & e2 & E & I & J & ->). injection E as <-. exists e1. rewrite in_full. split; [exact I|]. now apply in_map.
  Qed.

  Lemma sube_refl a : sube a a. Proof. intros e I. eauto. Qed.
  Lemma sube_trans a b c : sube a b -> sube b c -> sube a c.
  Proof. intros H K e I. destruct (H e I) as (e1 & I1 & P1). destruct (K e1 I1) as (e2 & I2 & P2). exists e2. split; [exact I2|]. etransitivity; eassumption. Qed.
  Lemma le_refl p : le p p. Proof. intros vs e r I. eauto. Qed.
  Lemma le_trans p q s : le p q -> le q s -> le p s.
  Proof. intros H K vs e r I. destruct (H vs e r I) as (e1 & I1 & P1). destruct (K vs e1 r I1) as (e2 & I2 & P2). exists e2. split; [exact I2|]. etransitivity; eassumption. Qed.
  Lemma le_single p q : m w p [] = [] -> (forall v r, exists a b, m w p (v :: r) = map (fun e => (e, r)) a /\ m w q (v :: r) = map (fun e => (e, r)) b /\ sube a b) -> le p q.
  Proof.
    intros N H [|v vs] e r I; [rewrite N in I; destruct I|]. destruct (H v vs) as (a & b & A & B & S). rewrite A in I. rewrite B.
    apply in_single in I as (-> & I). destruct (S e I) as (e' & I' & P). exists e'. rewrite in_single. auto.
  Qed.
  Lemma le_un u p q : le p q -> le (PUn u p) (PUn u q).
  Proof.
    intros H. apply le_single; [reflexivity|]. intros v r. eexists _, _. split; [reflexivity|]. split; [reflexivity|].
    destruct (inner w u v) as [v'|]; [|apply sube_refl]. intros e I. apply in_full in I. destruct (H [v'] e [] I) as (e' & I' & P). exists e'. rewrite in_full. auto.
  Qed.
  Lemma le_ident md x p q : le p q -> le (PIdent md x (Some p)) (PIdent md x (Some q)).
  Proof.
    intros H. apply le_single; [reflexivity|]. intros v r. eexists _, _. split; [reflexivity|]. split; [reflexivity|].
    intros e I. apply in_map_iff in I as (e1 & <- & I). apply in_full in I. destruct (H [v] e1 [] I) as (e' & I' & P). exists ((x, md, v) :: e'). split; [|now constructor].
    apply in_map. now apply in_full.
  Qed.
  Lemma le_mlist ps qs : Forall2 le ps qs -> forall vs, subl (mlist ps vs) (mlist qs vs).
  Proof.
    induction 1 as [|p q ps qs H F IH]; intros vs e r I; [cbn in *; eauto|].
    apply in_mlist_cons in I as (e1 & r1 & e2 & I & J & ->). destruct (H _ _ _ I) as (e1' & I' & P). destruct (IH _ _ _ J) as (e2' & J' & P').
    exists (e1' ++ e2'). split; [apply in_mlist_cons; eauto 7|]. now apply Permutation_app.
  Qed.
  Lemma le_prod_list k ps qs : (forall vs, subl (mlist ps vs) (mlist qs vs)) -> le (PProd k ps) (PProd k qs).
  Proof.
    intros H. apply le_single; [reflexivity|]. intros v r. rewrite !m_prod. eexists _, _. split; [reflexivity|]. split; [reflexivity|].
    destruct (parts w k v) as [vs|]; [|apply sube_refl]. intros e I. apply in_full in I. destruct (H vs e [] I) as (e' & I' & P). exists e'. rewrite in_full. auto.
  Qed.
  Lemma le_prod k ps qs : Forall2 le ps qs -> le (PProd k ps) (PProd k qs).
  Proof. intros F. apply le_prod_list, le_mlist, F. Qed.
  Lemma le_mfields n v fps gps : Forall2 (fun f g => field_name f = field_name g /\ le (snd f) (snd g)) fps gps -> sube (mfields n v fps) (mfields n v gps).
  Proof.
    induction 1 as [|f g fps gps (N & H) F IH]; [apply sube_refl|]. intros e I. apply in_mfields_cons in I as (x & e1 & e2 & E & I & J & ->).
    destruct (H _ _ _ I) as (e1' & I' & P). destruct (IH _ J) as (e2' & J' & P'). exists (e1' ++ e2'). split; [|now apply Permutation_app].
    apply in_mfields_cons. rewrite <- N. eauto 8.
  Qed.
  Lemma perm_mfields n v fps gps : Permutation fps gps -> sube (mfields n v fps) (mfields n v gps).
  Proof.
    induction 1 as [|f fps gps P IH|f g fps|fps gps hps P IH P' IH'].
    - apply sube_refl.
    - intros e I. apply in_mfields_cons in I as (x & e1 & e2 & E & I & J & ->). destruct (IH _ J) as (e2' & J' & P'). exists (e1 ++ e2').
      split; [apply in_mfields_cons; eauto 8|]. now apply Permutation_app_head.
    - intros e I. apply in_mfields_cons in I as (x & e1 & e2 & E & I & J & ->). apply in_mfields_cons in J as (y & e3 & e4 & E' & I' & J & ->).
      exists (e3 ++ e1 ++ e4). split; [apply in_mfields_cons; exists y, e3, (e1 ++ e4); repeat split; auto; apply in_mfields_cons; eauto 8|].
      rewrite !app_assoc. apply Permutation_app_tail, Permutation_app_comm.
    - eapply sube_trans; eassumption.
  Qed.
  Lemma le_struct_fields n fps gps b b' : (forall v, sube (mfields n v fps) (mfields n v gps)) -> le (PStruct n fps b) (PStruct n gps b').
  Proof.
    intros H. apply le_single; [reflexivity|]. intros v r. rewrite !m_struct. eexists _, _. split; [reflexivity|]. split; [reflexivity|].
    destruct (of_path w n v); [apply H|apply sube_refl].
  Qed.
  Lemma le_or_l ps q : (forall p, In p ps -> le p q) -> le (POr ps) q.
  Proof. intros H vs e r I. apply in_or in I as (p & Ip & I). exact (H p Ip vs e r I). Qed.
  Lemma le_or_r p qs q : In q qs -> le p q -> le p (POr qs).
  Proof. intros Iq H vs e r I. destruct (H vs e r I) as (e' & I' & P). exists e'. split; [|exact P]. apply in_or. eauto. Qed.
  Lemma le_or ps qs : (forall p, In p ps -> exists q, In q qs /\ le p q) -> le (POr ps) (POr qs).
  Proof. intros H. apply le_or_l. intros p I. destruct (H p I) as (q & Iq & L). eapply le_or_r; eassumption. Qed.
  Lemma le_or2 ps qs : Forall2 le ps qs -> le (POr ps) (POr qs).
  Proof. intros F. apply le_or. intros p I. exact (Forall2_in _ _ _ _ F I). Qed.
  Lemma le_paren p q : le p q -> le (PParen p) (PParen q). Proof. exact (fun H => H). Qed.
  Lemma m_unparen p vs : m w (unparen p) vs = m w p vs.
  Proof. induction p using pat_ind2; auto. Qed.
  Lemma fo_unparen p : fields_once p -> fields_once (unparen p).
  Proof. induction p using pat_ind2; auto. Qed.

  (** ** Equal patterns *)
  Lemma via_unparen p q (O : Prop) : le p (unparen q) /\ (O -> le (unparen q) p) -> le p q /\ (O -> le q p).
  Proof.
    intros (A & B). split; [|intros o; specialize (B o)]; intros vs e r I; [rewrite <- m_unparen; now apply A|rewrite <- m_unparen in I; now apply B].
  Qed.
  Lemma le_same p q (O : Prop) : p = q -> le p q /\ (O -> le q p). Proof. intros ->. split; intros; apply le_refl. Qed.
  Lemma eq_fields_le n b b' (fps fqs : list (nat * bool * pat)) (O : Prop) :
    Forall (fun f => forall q, fields_once (snd f) -> fields_once q -> eq_pat (snd f) q = true -> le (snd f) q /\ (O -> le q (snd f))) fps ->
    NoDup (map field_name fps) -> Forall (fun f => fields_once (snd f)) fps -> Forall (fun f => fields_once (snd f)) fqs -> length fps = length fqs ->
    (forall f, In f fps -> exists g, In g fqs /\ eq_field_pat f g = true) -> le (PStruct n fps b) (PStruct n fqs b') /\ (O -> le (PStruct n fqs b') (PStruct n fps b)).
  Proof.
    intros IH N F G L H. rewrite Forall_forall in IH, F, G.
    destruct (align field_name (fun f g => eq_field_pat f g = true) fps fqs) as (r' & P & F2); auto.
    { intros f g E. apply andb_prop in E as (E & _). now apply Nat.eqb_eq. }
    split; [|intros o]; apply le_struct_fields; intros v.
    - eapply sube_trans; [|apply perm_mfields; symmetry; exact P]. apply le_mfields. eapply Forall2_mono; [exact F2|]. intros f g If Ig E. cbn in E.
      apply andb_prop in E as (E1 & E2). apply Nat.eqb_eq in E1. split; [exact E1|]. apply (IH f If (snd g)); auto. apply G. eapply Permutation_in; [symmetry; exact P|exact Ig].
    - eapply sube_trans; [apply perm_mfields; exact P|]. apply le_mfields. apply Forall2_flip' in F2. eapply Forall2_mono; [exact F2|]. intros g f Ig If E. cbn in E.
      apply andb_prop in E as (E1 & E2). apply Nat.eqb_eq in E1. split; [auto|]. apply (IH f If (snd g)); auto. apply G. eapply Permutation_in; [symmetry; exact P|exact Ig].
  Qed.
  Lemma eq_pat_le p : forall q, fields_once p -> fields_once q -> eq_pat p q = true -> le p q /\ (or_free p -> le q p).
  Proof.
    induction p as [| |b n|md x|md x p IH|u p IH|k ps IH|n fps rs IH|ps IH|p IH] using pat_ind2; intros q F G E;
      [| | | | | | | | |exact (IH q F G E)];
      cbn in E; apply via_unparen; apply fo_unparen in G; destruct (unparen q) as [| |b' n'|md' x' s'|u' q'|k' qs|n' fqs rs'|qs|q']; try discriminate E.
    - now apply le_same.
    - now apply le_same.
    - apply andb_prop in E as (E1 & E2). apply eqb_prop in E1. apply Nat.eqb_eq in E2. subst. now apply le_same.
    - destruct s'; [now rewrite andb_false_r in E|]. rewrite andb_true_r in E. apply andb_prop in E as (E1 & E2). apply Nat.eqb_eq in E1, E2. subst. now apply le_same.
    - destruct s' as [q'|]; [|now rewrite andb_false_r in E]. apply andb_prop in E as (E & E3). apply andb_prop in E as (E1 & E2). apply Nat.eqb_eq in E1, E2. subst.
      destruct (IH q' F G E3) as (A & B). split; [now apply le_ident|]. intros O. now apply le_ident, B.
    - apply andb_prop in E as (E & E3). apply andb_prop in E as (_ & E2). apply un_eqb_eq in E2. subst.
      destruct (IH q' F G E3) as (A & B). split; [now apply le_un|]. intros O. now apply le_un, B.
    - apply andb_prop in E as (E1 & E2). apply kind_eqb_eq in E1. subst. apply over_forall2 in E2. apply fo_prod in F, G. rewrite Forall_forall in IH, F, G.
      split; [|rewrite of_prod, Forall_forall; intros O]; apply le_prod.
      + eapply Forall2_mono; [exact E2|]. intros p' q' Ip Iq E. destruct (IH p' Ip q' (F p' Ip) (G q' Iq) E) as (A & _). exact A.
      + apply Forall2_flip' in E2. eapply Forall2_mono; [exact E2|]. intros q' p' Iq Ip E. destruct (IH p' Ip q' (F p' Ip) (G q' Iq) E) as (_ & A). exact (A (O p' Ip)).
    - apply andb_prop in E as (E & E4). apply andb_prop in E as (E & E3). apply andb_prop in E as (E1 & E2).
      apply Nat.eqb_eq in E2, E3. subst. apply fo_struct in F as (N & F), G as (_ & G). rewrite of_struct. apply eq_fields_le; auto.
      + apply Forall_forall. intros f If q' F' G' E'. rewrite Forall_forall in IH. destruct (IH f If q' F' G' E') as (A & B). split; [exact A|]. intros O. rewrite Forall_forall in O. exact (B (O f If)).
      + intros f If. rewrite forallb_forall in E4. specialize (E4 f If). apply existsb_exists in E4 as (g & Ig & Eg). eauto.
    - apply andb_prop in E as (_ & E). apply fo_or in F, G. rewrite Forall_forall in IH, F, G. split; [|intros []].
      apply le_or. intros p Ip. rewrite forallb_forall in E. specialize (E p Ip). apply existsb_exists in E as (q' & Iq & Eq). exists q'. split; [exact Iq|]. destruct (IH p Ip q' (F p Ip) (G q' Iq) Eq) as (A & _). exact A.
  Qed.
End Le.
