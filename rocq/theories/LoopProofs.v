(** Proofs about never_loop. *)
From Coq Require Import Lia.
From Verif Require Export LoopModel LoopSpec.

(** *** Jumps have a source *)
Definition src (S : outcome -> Prop) (l : list jump) : Prop :=
  forall o, S o -> match o with Brk i => In (JBreak i) l | Cont i => In (JContinue i) l | _ => True end.
Lemma src_incl (S S' : outcome -> Prop) l l' : src S l -> (forall o, S' o -> S o) -> incl l l' -> src S' l'.
Proof. intros H HS I o O. specialize (H o (HS o O)). destruct o; auto. Qed.
Lemma src_or (A B : outcome -> Prop) l l' : src A l -> src B l' -> src (fun o => A o \/ B o) (l ++ l').
Proof. intros HA HB o [O|O]; [specialize (HA o O)|specialize (HB o O)]; destruct o; auto; apply in_app_iff; auto. Qed.
Lemma src_then (A B : outcome -> Prop) l l' : src A l -> src B l' -> src (andthen A B) (l ++ l').
Proof. intros HA HB o [[_ O]|[O _]]; [specialize (HB o O)|specialize (HA o O)]; destruct o; auto; apply in_app_iff; auto. Qed.
Lemma src_then2 (A B : outcome -> Prop) l l' : src A l -> src B l' -> src (andthen B A) (l ++ l').
Proof. intros HA HB o [[_ O]|[O _]]; [specialize (HA o O)|specialize (HB o O)]; destruct o; auto; apply in_app_iff; auto. Qed.
Lemma src_done l : src (fun o => o = Done) l.
Proof. intros o ->. exact I. Qed.
Lemma src_iter id S l n o : src S l -> iterates id S n o -> match o with Brk i => In (JBreak i) l | Cont i => In (JContinue i) l | _ => True end.
Proof. intros H. induction 1; auto. now apply H. Qed.

Lemma sources :
  (forall e, src (out e) (jumps e)) /\ (forall k, src (out_kind k) (jumps_kind k)) /\ (forall es, src (out_exs es) (jumps_exs es)) /\
  (forall e, src (out_oex e) (jumps_oex e)) /\ (forall b, src (out_blk b) (jumps_blk b)) /\ (forall l, src (out_arms l) (jumps_arms l)) /\
  (forall l, src (out_ops l) (jumps_ops l)).
Proof.
  apply syntax_mut; intros; cbn [jumps jumps_kind jumps_exs jumps_oex jumps_blk jumps_arms jumps_ops];
    try (intros o O; cbn in O; subst; cbn; auto; fail).
  - intros o O. cbn in O. apply H. apply O.
  - eapply src_incl; [exact H| |apply incl_refl]. auto.
  - eapply src_incl; [exact H| |apply incl_refl]. auto.
  - apply src_then; [exact H|]. intros o [-> | O]; [exact I|]. now apply H0.
  - apply src_then2; auto.
  - intros o O. cbn in O. destruct prim; [eapply src_then2; eauto|eapply src_then; eauto].
  - intros o (n & O). eapply src_iter; eauto.
  - apply src_then; [auto|]. now apply src_or.
  - apply src_then; auto.
  - intros o [[O _]|[-> _]]; [now apply H|exact I].
  - intros o O. cbn in O. eapply (src_then _ (fun o => o = Return) _ []) in O; [|exact H|intros x ->; exact I]. now rewrite app_nil_r in O.
  - intros o O. cbn in O. eapply (src_then2 (fun o => o = Brk id) _ [JBreak id]) in O; [exact O| |exact H]. intros x ->. left. auto.
  - intros o O. cbn in O. eapply (src_then _ (fun o => o = Return) _ []) in O; [|exact H|intros x ->; exact I]. now rewrite app_nil_r in O.
  - eapply src_incl; [exact H| |apply incl_refl]. auto.
  - apply src_then; auto.
  - eapply src_incl; [exact H| |apply incl_refl]. auto.
  - apply src_then; auto.
  - apply src_then; [auto|]. eapply src_incl; [apply (src_or _ _ _ _ H0 H1)| |apply incl_refl]. cbn. tauto.
  - intros o []. 
  - eapply src_incl; [apply (src_or _ _ _ _ H1 (src_then _ _ _ _ H (src_or _ _ _ _ H0 H1)))| |].
    + cbn. tauto.
    + intros x. rewrite !in_app_iff. tauto.
  - apply src_then; auto.
  - apply src_then; [|auto]. intros o [-> | O]; [exact I|]. now apply H.
Qed.
Lemma quiet_out main ids (S : outcome -> Prop) l o : src S l -> quiet main ids l -> S o ->
  o <> Cont main /\ forall i, o = Brk i -> ~ In i ids.
Proof.
  intros H [Q1 Q2] O. specialize (H o O). split; [intros ->; auto|]. intros i -> I. exact (Q2 i I H).
Qed.

(** *** Places *)
Lemma totals : 
  (forall e, total e = true -> forall main, (forall l, nl main e l = (Normal, l)) /\ forall o, out e o -> o = Done) /\
  (forall k, total_kind k = true -> forall main, (forall l, nl_kind main k l = (Normal, l)) /\ forall o, out_kind k o -> o = Done) /\
  (forall es, total_exs es = true -> forall main, (forall l, nl_exs main es l = (Normal, l)) /\ forall o, out_exs es o -> o = Done) /\
  (forall e : oex, True) /\ (forall b : blk, True) /\ (forall l : arms, True) /\ (forall l : ops, True).
Proof.
  apply syntax_mut; try (intros; exact I); try (intros; discriminate).
  - intros nv td k H T main. cbn in T. apply andb_true_iff in T as [T1 T2]. destruct nv; [discriminate|]. destruct (H T2 main) as [A B]. split.
    + intros l. cbn. now rewrite A.
    + intros o [O _]. auto.
  - intros _ main. cbn. auto.
  - intros es H T main. destruct (H T main) as [A B]. split; [intros l; exact (A l)|auto].
  - intros _ main. cbn. auto.
  - intros e H es H0 T main. cbn in T. apply andb_true_iff in T as [T1 T2]. destruct (H T1 main) as [A B], (H0 T2 main) as [A' B']. split.
    + intros l. cbn. rewrite A. cbn. apply A'.
    + intros o [[_ O]|[O N]]; [auto|]. exfalso. auto.
Qed.

(** *** Labels *)
Definition ext (L L' : labels) : Prop := Forall2 (fun a b => fst a = fst b /\ (snd a = true -> snd b = true)) L L'.
Lemma ext_refl L : ext L L.
Proof. induction L; constructor; auto. Qed.
Lemma ext_trans A B C : ext A B -> ext B C -> ext A C.
Proof.
  intros H. revert C. induction H as [|a b A B [H1 H2] F IH]; intros C H'; inversion H' as [|b' c B' C' [H3 H4] F']; subst; constructor; [|apply IH; auto].
  split; [congruence|auto].
Qed.
Lemma ext_ids A B : ext A B -> map fst B = map fst A.
Proof. induction 1 as [|a b A B [H1 H2] F IH]; cbn; [auto|]. congruence. Qed.
Lemma ext_marked A B i : ext A B -> In (i, true) A -> In (i, true) B.
Proof.
  induction 1 as [|a b A B [H1 H2] F IH]; cbn; [auto|]. intros [-> | I]; [|auto]. left. destruct b as [x y]. cbn in *. subst. now rewrite H2.
Qed.
Lemma ext_mark t L : ext L (mark t L).
Proof. induction L as [|[i b] L IH]; cbn; [constructor|]. destruct (Nat.eqb i t); constructor; cbn; auto. apply ext_refl. Qed.
Lemma mark_in t L : In t (map fst L) -> In (t, true) (mark t L).
Proof.
  induction L as [|[i b] L IH]; cbn; [auto|]. intros [-> | I]; [rewrite Nat.eqb_refl; left; auto|]. destruct (Nat.eqb_spec i t); [subst; left; auto|right; auto].
Qed.
Lemma ext_snoc L x M : ext (L ++ [x]) M -> exists L' y, M = L' ++ [y] /\ ext L L' /\ fst y = fst x.
Proof.
  revert M. induction L as [|a L IH]; intros M H; cbn in H; inversion H as [|a' b A B [H1 H2] F]; subst.
  - inversion F; subst. exists [], b. split; [reflexivity|]. split; [constructor|auto].
  - destruct (IH B F) as (L' & y & -> & E & Y). exists (b :: L'), y. split; [reflexivity|]. split; [constructor; auto|auto].
Qed.

(** *** The invariant *)
Definition sound (main : nat) (L : labels) (r : nlr) (L' : labels) (S : outcome -> Prop) : Prop :=
  r <> MayContinueMainLoop -> forall o, S o ->
    o <> Cont main /\ (o = Done -> r = Normal) /\ (forall i, o = Brk i -> In i (map fst L) -> In (i, true) L').
Definition good (main : nat) (L : labels) (r : nlr * labels) (S : outcome -> Prop) : Prop := ext L (snd r) /\ sound main L (fst r) (snd r) S.

Lemma good_weaken main L r (S S' : outcome -> Prop) : good main L r S -> (forall o, S' o -> S o) -> good main L r S'.
Proof. intros [E G] H. split; [auto|]. intros N o O. apply G; auto. Qed.
Lemma good_seq main L r (second : run) (A B : outcome -> Prop) : good main L r A ->
  (forall L1, map fst L1 = map fst L -> good main L1 (second L1) B) -> good main L (combine_seq r second) (andthen A B).
Proof.
  intros [E G] H. destruct r as [r L1]. unfold combine_seq. cbn [fst snd] in *. destruct r.
  - split; [auto|]. intros N. cbn in N. congruence.
  - split; [auto|]. intros N o [[O _]|[O ND]].
    + specialize (G N Done O) as (_ & G & _). specialize (G eq_refl). discriminate.
    + now apply G.
  - specialize (H L1 (ext_ids _ _ E)) as [E2 G2]. split; [eapply ext_trans; eauto|]. intros N o [[_ O]|[O ND]].
    + specialize (G2 N o O). rewrite (ext_ids _ _ E) in G2. exact G2.
    + assert (NM : Normal <> MayContinueMainLoop) by discriminate. specialize (G NM o O) as (G3 & G4 & G5). split; [auto|]. split; [tauto|].
      intros i Hi I. eapply ext_marked; [exact E2|]. eapply G5; eauto.
Qed.
(** Both parts run, in either order, and the second is only analysed if the first may complete. *)
Lemma good_seq_rev main L r (second : run) (A B : outcome -> Prop) : good main L r A ->
  (forall L1, map fst L1 = map fst L -> good main L1 (second L1) B) ->
  (forall o, B o -> o <> Cont main /\ forall i, o = Brk i -> ~ In i (map fst L)) ->
  good main L (combine_seq r second) (andthen B A).
Proof.
  intros [E G] H Q. destruct r as [r L1]. unfold combine_seq. cbn [fst snd] in *. destruct r.
  - split; [auto|]. intros N. cbn in N. congruence.
  - split; [auto|]. intros N o [[_ O]|[O ND]]; [now apply G|]. destruct (Q o O) as [Q1 Q2]. split; [auto|]. split; [tauto|]. intros i Hi I. exfalso. eapply Q2; eauto.
  - specialize (H L1 (ext_ids _ _ E)) as [E2 G2]. split; [eapply ext_trans; eauto|]. intros N o [[D O]|[O ND]].
    + assert (NM : Normal <> MayContinueMainLoop) by discriminate. destruct (G NM o O) as (G3 & G4 & G5). split; [auto|]. split; [intros _; now apply (G2 N Done D)|].
      intros i Hi I. eapply ext_marked; [exact E2|]. eapply G5; eauto.
    + destruct (Q o O) as [Q1 Q2]. split; [auto|]. split; [tauto|]. intros i Hi I. exfalso. eapply Q2; eauto.
Qed.
Lemma good_normal main L : good main L (Normal, L) (fun o => o = Done).
Proof. split; [apply ext_refl|]. intros _ o ->. repeat split; auto; discriminate. Qed.
Lemma good_absorb main L r S : good main L r S -> good main L (let '(r, l) := r in (absorb_break r, l)) (fun o => o = Done \/ S o).
Proof.
  intros [E G]. destruct r as [r L1]. split; [exact E|]. cbn [fst snd] in *. intros N o [-> | O].
  - split; [discriminate|]. split; [destruct r; auto; cbn in N; congruence|discriminate].
  - assert (NM : r <> MayContinueMainLoop) by (intros ->; cbn in N; congruence). destruct (G NM o O) as (G1 & G2 & G3). split; [auto|]. split; [|auto]. destruct r; auto.
Qed.
Lemma good_diverging main L (S : outcome -> Prop) : (forall o, S o -> o = Return) -> good main L (Diverging, L) S.
Proof. intros H. split; [apply ext_refl|]. intros _ o O. rewrite (H o O). repeat split; discriminate. Qed.
Lemma good_branches main L r1 L1 r2 L2 (A B : outcome -> Prop) : good main L (r1, L1) A -> good main L1 (r2, L2) B ->
  good main L (combine_branches r1 r2, L2) (fun o => A o \/ B o).
Proof.
  intros [E1 G1] [E2 G2]. cbn [fst snd] in *. split; [eapply ext_trans; eauto|]. cbn [fst snd]. intros N o [O|O].
  - assert (NM : r1 <> MayContinueMainLoop) by (intros ->; apply N; reflexivity). destruct (G1 NM o O) as (K1 & K2 & K3). split; [auto|]. split.
    + intros D. rewrite (K2 D) in *. destruct r2; auto; cbn in N; congruence.
    + intros i Hi I. eapply ext_marked; eauto.
  - assert (NM : r2 <> MayContinueMainLoop) by (intros ->; apply N; destruct r1; reflexivity). destruct (G2 NM o O) as (K1 & K2 & K3). split; [auto|]. split.
    + intros D. rewrite (K2 D) in *. destruct r1; auto; cbn in N; congruence.
    + intros i Hi I. apply K3; auto. now rewrite (ext_ids _ _ E1).
Qed.
Lemma good_finish main L r nv td (S : outcome -> Prop) : good main L r S -> good main L (finish nv td r) (fun o => S o /\ (nv = true -> o <> Done)).
Proof.
  intros G. assert (G1 : good main L (combine_seq r (fun l => (if nv then Diverging else Normal, l))) (fun o => S o /\ (nv = true -> o <> Done))).
  { destruct G as [E G]. destruct r as [r L1]. unfold combine_seq. cbn [fst snd] in *. destruct r.
    - split; [auto|]. intros N. cbn in N. congruence.
    - split; [auto|]. intros N o [O _]. now apply G.
    - split; [auto|]. cbn [fst snd]. intros _ o [O NV]. assert (NM : Normal <> MayContinueMainLoop) by discriminate. destruct (G NM o O) as (K1 & K2 & K3).
      split; [auto|]. split; [|auto]. intros D. destruct nv; [|auto]. exfalso. now apply NV. }
  unfold finish. destruct (combine_seq r _) as [r2 L2]. cbn [fst snd]. destruct r2; auto. destruct td; auto. destruct G1 as [E _]. split; [exact E|]. intros N. cbn in N. congruence.
Qed.

Definition fits (L : labels) (ids : list nat) : Prop := incl (map fst L) ids.
Lemma fits_eq L L1 ids : map fst L1 = map fst L -> fits L ids -> fits L1 ids.
Proof. unfold fits. now intros ->. Qed.

Lemma nl_sound main :
  (forall e ids L, fits L ids -> ok main ids e -> good main L (nl main e L) (out e)) /\
  (forall k ids L, fits L ids -> ok_kind main ids k -> good main L (nl_kind main k L) (out_kind k)) /\
  (forall es ids L, fits L ids -> ok_exs main ids es -> good main L (nl_exs main es L) (out_exs es)) /\
  (forall e ids L, fits L ids -> ok_oex main ids e -> good main L (nl_oex main e L) (out_oex e)) /\
  (forall b ids L, fits L ids -> ok_blk main ids b -> good main L (nl_blk main b L) (out_blk b)) /\
  (forall l ids L acc, fits L ids -> ok_arms main ids l ->
     good main L (nl_arms main l acc L) (fun o => out_arms l o \/ (o = Done /\ acc = Normal)) /\
     (acc = MayContinueMainLoop -> fst (nl_arms main l acc L) = MayContinueMainLoop)) /\
  (forall l ids L, fits L ids -> ok_ops main ids l -> good main L (nl_ops main l L) (out_ops l)).
Proof.
  destruct sources as (SE & SK & SS & SO & SB & SA & SP).
  apply syntax_mut; cbn [ok ok_kind ok_exs ok_oex ok_blk ok_arms ok_ops].
  - intros nv td k IH ids L F O. cbn [nl]. eapply good_weaken; [apply good_finish; eapply IH; eauto|]. cbn. auto.
  - intros ids L F O. apply good_normal.
  - intros e IH ids L F Q. split; [apply ext_refl|]. intros _ o O. destruct (quiet_out _ _ _ _ _ (SE e) Q O) as [Q1 Q2].
    split; [auto|]. split; [auto|]. intros i Hi I. exfalso. eapply Q2; eauto.
  - intros es IH ids L F O. apply (IH ids L F O).
  - intros e1 IH1 e2 IH2 ids L F [O Q]. specialize (IH1 ids L F O) as [E G]. split; [exact E|]. cbn [nl_kind]. intros N o O'.
    cbn [out_kind] in O'. destruct O' as [[D [-> | O']]|[O' ND]]; [now apply G| |now apply G].
    destruct (quiet_out _ _ _ _ _ (SE e2) Q O') as [Q1 Q2]. split; [auto|]. split; [intros _; now apply (G N Done D)|]. intros i Hi I. exfalso. eapply Q2; eauto.
  - intros e1 IH1 e2 IH2 ids L F (O1 & O2 & D). cbn [nl_kind out_kind]. destruct D as [T|Q].
    + destruct (proj1 totals e1 T main) as [T1 T2]. rewrite T1. unfold combine_seq. cbn [fst snd]. eapply good_weaken; [eapply IH2; eauto|].
      intros o [[D O]|[O _]]; [|auto]. now rewrite (T2 o O).
    + apply good_seq_rev; [eapply IH1; eauto| |].
      * intros L1 E. eapply IH2; [eapply fits_eq; eauto|auto].
      * intros o O. destruct (quiet_out _ _ _ _ _ (SE e2) Q O) as [Q1 Q2]. split; [auto|]. intros i Hi I. eapply Q2; eauto.
  - intros prim e1 IH1 e2 IH2 ids L F (O1 & O2 & D). cbn [nl_kind out_kind]. destruct prim.
    + destruct (D eq_refl) as [T|Q].
      * destruct (proj1 totals e1 T main) as [T1 T2]. rewrite T1. unfold combine_seq. cbn [fst snd]. eapply good_weaken; [eapply IH2; eauto|].
        intros o [[D' O]|[O _]]; [|auto]. now rewrite (T2 o O).
      * apply good_seq_rev; [eapply IH1; eauto| |].
        -- intros L1 E. eapply IH2; [eapply fits_eq; eauto|auto].
        -- intros o O. destruct (quiet_out _ _ _ _ _ (SE e2) Q O) as [Q1 Q2]. split; [auto|]. intros i Hi I. eapply Q2; eauto.
    + apply good_seq; [eapply IH1; eauto|]. intros L1 E. eapply IH2; [eapply fits_eq; eauto|auto].
  - intros id b IH ids L F O. cbn [nl_kind out_kind]. eapply good_weaken; [apply good_absorb; eapply IH; eauto|].
    intros o (n & H). induction H; auto.
  - intros c IHc t IHt f IHf ids L F (O1 & O2 & O3). cbn [nl_kind out_kind]. apply good_seq; [eapply IHc; eauto|]. intros L1 E.
    pose proof (IHt ids L1 (fits_eq _ _ _ E F) O2) as GT. destruct (nl main t L1) as [r2 L2] eqn:E2.
    assert (F2 : fits L2 ids). { eapply fits_eq; [|exact F]. destruct GT as [X _]. cbn [snd] in X. rewrite (ext_ids _ _ X). exact E. }
    pose proof (IHf ids L2 F2 O3) as GF. destruct (nl_oex main f L2) as [r3 L3] eqn:E3. eapply good_branches; eauto.
  - intros e IHe l IHl ids L F (O1 & O2). cbn [nl_kind out_kind]. apply good_seq; [eapply IHe; eauto|]. intros L1 E.
    destruct (IHl ids L1 Diverging (fits_eq _ _ _ E F) O2) as [G _]. eapply good_weaken; [exact G|]. cbn. auto.
  - intros id b IH ids L F (NI & O). cbn [nl_kind out_kind]. destruct (targeted_by_break id b) eqn:T.
    + assert (F1 : fits (L ++ [(id, false)]) (ids ++ [id])). { unfold fits. rewrite map_app. apply incl_app_app; [exact F|apply incl_refl]. }
      specialize (IH _ _ F1 O). destruct (nl_blk main b (L ++ [(id, false)])) as [r L'] eqn:E. destruct IH as [X G]. cbn [fst snd] in *.
      destruct (ext_snoc _ _ _ X) as (L1 & [j y] & -> & X1 & J). cbn in J. subst j. rewrite removelast_last, last_last. split; [exact X1|].
      cbn [fst snd]. intros N o O'. assert (NM : r <> MayContinueMainLoop) by (intros ->; apply N; reflexivity).
      assert (NIL : ~ In id (map fst L1)) by (rewrite (ext_ids _ _ X1); intros Z; apply NI; apply F; exact Z).
      destruct O' as [[O' NB]|[-> O']].
      * destruct (G NM o O') as (K1 & K2 & K3). split; [auto|]. split; [intros D; rewrite (K2 D); reflexivity|].
        intros i -> I. specialize (K3 i eq_refl). rewrite map_app, in_app_iff in K3. specialize (K3 (or_introl I)). apply in_app_iff in K3 as [K3|[K3|[]]]; [auto|]. congruence.
      * destruct (G NM _ O') as (K1 & K2 & K3). split; [discriminate|]. split; [intros _|discriminate].
        specialize (K3 id eq_refl). rewrite map_app, in_app_iff in K3. specialize (K3 (or_intror (or_introl eq_refl))). apply in_app_iff in K3 as [K3|[K3|[]]].
        -- exfalso. apply NIL. apply in_map_iff. exists (id, true). auto.
        -- injection K3 as ->. destruct r; auto. congruence.
    + assert (F1 : fits L (ids ++ [id])) by (unfold fits; apply incl_appl; exact F). eapply good_weaken; [eapply IH; eauto|].
      intros o [[O' _]|[_ O']]; [auto|]. exfalso. specialize (SB b _ O'). cbn in SB. unfold targeted_by_break in T.
      assert (X : existsb (is_break id) (jumps_blk b) = true) by (apply existsb_exists; exists (JBreak id); split; [auto|apply Nat.eqb_refl]). congruence.
  - intros id ids L F _. cbn [nl_kind out_kind]. destruct (Nat.eqb_spec id main) as [-> | NE]; [split; [apply ext_refl|intros N; cbn in N; congruence]|].
    split; [apply ext_refl|]. intros _ o ->. split; [congruence|]. split; discriminate.
  - intros e IH ids L F O. cbn [nl_kind out_kind]. apply good_seq; [eapply IH; eauto|]. intros L1 E. apply good_diverging. auto.
  - intros id e IH ids L F O. cbn [nl_kind out_kind]. apply good_seq; [eapply IH; eauto|]. intros L1 E. split; [apply ext_mark|]. intros _ o ->.
    split; [discriminate|]. split; [discriminate|]. intros i Hi I. injection Hi as ->. now apply mark_in.
  - intros e IH ids L F O. cbn [nl_kind out_kind]. apply good_seq; [eapply IH; eauto|]. intros L1 E. apply good_diverging. auto.
  - intros l IH ids L F O. apply (IH ids L F O).
  - intros ids L F O. apply good_normal.
  - intros e IH es IHs ids L F [O1 O2]. cbn [nl_exs out_exs]. apply good_seq; [eapply IH; eauto|]. intros L1 E. eapply IHs; [eapply fits_eq; eauto|auto].
  - intros ids L F O. apply good_normal.
  - intros e IH ids L F O. apply (IH ids L F O).
  - intros ids L F O. apply good_normal.
  - intros e IH b IHb ids L F [O1 O2]. cbn [nl_blk out_blk]. apply good_seq; [eapply IH; eauto|]. intros L1 E. eapply IHb; [eapply fits_eq; eauto|auto].
  - intros e IH els IHs b IHb ids L F (O1 & O2 & O3). cbn [nl_blk out_blk].
    eapply good_weaken; [apply good_seq; [apply good_seq; [eapply IH; eauto|]|]|].
    + intros L1 E. apply good_absorb. eapply IHs; [eapply fits_eq; eauto|auto].
    + intros L1 E. eapply IHb; [eapply fits_eq; eauto|auto].
    + intros o [[D [[O N]|O]]|[O N]]; unfold andthen; tauto.
  - intros ids L acc F _. cbn [nl_arms]. split; [|auto]. split; [apply ext_refl|]. intros _ o [[]|[-> ->]]. split; [discriminate|]. split; [auto|discriminate].
  - intros g IHg body IHb l IHl ids L acc F (Q & O1 & O2). cbn [nl_arms out_arms].
    pose proof (IHb ids L F O1) as GB. destruct (nl main body L) as [r L1] eqn:EB.
    assert (F1 : fits L1 ids). { eapply fits_eq; [|exact F]. destruct GB as [X _]. exact (ext_ids _ _ X). }
    destruct (IHl ids L1 (combine_branches acc r) F1 O2) as [[X G] M]. destruct GB as [XB GB]. cbn [fst snd] in *. split.
    2:{ intros ->. apply M. reflexivity. }
    split; [eapply ext_trans; eauto|]. intros N o H.
    assert (NM : r <> MayContinueMainLoop) by (intros ->; apply N; apply M; destruct acc; reflexivity).
    assert (NA : acc <> MayContinueMainLoop) by (intros ->; apply N; apply M; reflexivity).
    assert (R : (out_arms l o \/ o = Done /\ acc = Normal) \/ out body o \/ (out_oex g o /\ o <> Done)) by (unfold andthen in H; tauto). clear H.
    destruct R as [R|[R|[R ND]]].
    + assert (R' : out_arms l o \/ o = Done /\ combine_branches acc r = Normal) by (destruct R as [R|[-> ->]]; [auto|right; destruct r; auto; congruence]).
      destruct (G N o R') as (K1 & K2 & K3). split; [auto|]. split; [auto|]. intros i Hi I. apply K3; auto. now rewrite (ext_ids _ _ XB).
    + destruct (GB NM o R) as (K1 & K2 & K3). split; [auto|]. split.
      * intros D. apply (G N o); [|auto]. right. split; [auto|]. rewrite (K2 D). destruct acc; auto. congruence.
      * intros i Hi I. eapply ext_marked; [exact X|]. eapply K3; eauto.
    + destruct (quiet_out _ _ _ _ _ (SO g) Q R) as [Q1 Q2]. split; [auto|]. split; [tauto|]. intros i Hi I. exfalso. eapply Q2; eauto.
  - intros ids L F O. apply good_normal.
  - intros es IHe l IHl ids L F [O1 O2]. cbn [nl_ops out_ops]. apply good_seq; [eapply IHe; eauto|]. intros L1 E. eapply IHl; [eapply fits_eq; eauto|auto].
  - intros b IHb l IHl ids L F [O1 O2]. cbn [nl_ops out_ops]. apply good_seq; [apply good_absorb; eapply IHb; eauto|]. intros L1 E. eapply IHl; [eapply fits_eq; eauto|auto].
Qed.

Lemma never_loop_sound main b : ok_blk main [] b -> never_loop main b = true -> ~ out_blk b Done /\ ~ out_blk b (Cont main).
Proof.
  intros O H. destruct (nl_sound main) as (_ & _ & _ & _ & B & _). specialize (B b [] [] (incl_refl _) O) as [_ G]. unfold never_loop in H.
  destruct (nl_blk main b []) as [r L]. cbn [fst snd] in *. destruct r; try discriminate. assert (N : Diverging <> MayContinueMainLoop) by discriminate. split; intros X.
  - destruct (G N _ X) as (_ & K & _). specialize (K eq_refl). discriminate.
  - destruct (G N _ X) as (K & _). congruence.
Qed.
Lemma never_loop_once main b n o : ok_blk main [] b -> never_loop main b = true -> iterates main (out_blk b) n o -> n = 1.
Proof.
  intros O H I. destruct (never_loop_sound main b O H) as [H1 H2]. destruct I as [n o o' B [-> | ->] I|B|o B]; [contradiction|contradiction|auto|auto].
Qed.
