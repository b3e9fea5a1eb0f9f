(** Proofs about manual_clamp. *)
From Coq Require Import SpecFloat ZifyBool.
From Verif Require Import RustFacts ConstProofs ConstTotal ConstMore LintSpec RustStmt ClampModel RotateProofs ArithProofs MaskProofs FloatFacts.
Open Scope Z_scope.

Lemma val_cmp_antisym a b o : val_cmp a b = Ok o -> val_cmp b a = Ok (option_map CompOpp o).
Proof.
  destruct a as [ta x|x|x|], b as [tb y|y|y|]; cbn; try discriminate.
  - destruct (ity_eqb ta tb) eqn:E; [|discriminate]. apply ity_eqb_eq in E. subst. rewrite ity_eqb_refl. intros [= <-]. cbn.
    now rewrite Z.compare_antisym.
  - intros [= <-]. cbn. now rewrite Z.compare_antisym.
  - intros [= <-]. rewrite !SFcompare_key, (orb_comm (is_nan y)). destruct (is_nan x || is_nan y); [reflexivity|].
    cbn. now rewrite <- lex3_antisym.
Qed.

Lemma flip_sem m p rho c l r w : is_ord c = true -> eval m p rho (EBin (BC c) l r) = Ok w ->
  eval m p rho (EBin (BC (ord_reverse c)) r l) = Ok w.
Proof.
  intros O H. apply eval_cmp_inv in H as (va & vb & o & Ha & Hb & Ho & ->). cbn [eval]. rewrite Ha, Hb. cbn [rbind].
  rewrite (val_cmp_antisym _ _ _ Ho). cbn [rbind]. do 2 f_equal. destruct c; try discriminate; destruct o as [[]|]; reflexivity.
Qed.

(** ** Shape of the meta pattern *)
Definition upper (c : cop) : bool := match c with CGe | CGt => true | _ => false end.
Definition lower (c : cop) : bool := match c with CLe | CLt => true | _ => false end.
Definition refers (ids : option (nat * nat)) (fl sl : expr) : Prop :=
  match ids with
  | None => fl = sl
  | Some (h1, h2) => (exists t, fl = EVar t h1) /\ (exists t, sl = EVar t h2)
  end.
Lemma is_var_id_inv e h : is_var_id e h = true -> exists t, e = EVar t h.
Proof. destruct e; try discriminate. cbn. intros H. apply Nat.eqb_eq in H. subst. eauto. Qed.

Lemma meta_check_inv ids f s fe se r : meta_check ids f s fe se = Some r ->
  exists c c' i', upper c = true /\ lower c' = true /\ f = (c, i_input r, fe) /\ s = (c', i', se) /\ i_max r = fe /\ i_min r = se /\
    refers ids (i_input r) i'.
Proof.
  destruct f as [[cf fl] fr], s as [[cs sl] sr]. unfold meta_check. intros H.
  assert (U : upper cf = true /\ lower cs = true).
  { destruct cf, cs; try discriminate H; auto. }
  destruct U as [U L].
  assert (H' : (if (match ids with Some (h1, h2) => is_var_id fl h1 && is_var_id sl h2 | None => expr_eqb fl sl end) && expr_eqb fr fe && expr_eqb sr se
    then Some {| i_input := fl; i_min := se; i_max := fe |} else None) = Some r).
  { destruct cf, cs; try discriminate U; try discriminate L; exact H. }
  clear H. destruct (_ && expr_eqb sr se) eqn:E; [|discriminate]. injection H' as <-. cbn.
  apply andb_prop in E as [E E3]. apply andb_prop in E as [E1 E2]. apply expr_eqb_eq in E2, E3. subst fr sr.
  exists cf, cs, sl. repeat split; auto. destruct ids as [[h1 h2]|]; cbn.
  - apply andb_prop in E1 as [A B]. split; now apply is_var_id_inv.
  - now apply expr_eqb_eq.
Qed.
Definition same_or_flip (b b' : bin3) : Prop := b' = b \/ b' = flip_bin b.
Definition same_side (ids : option (nat * nat)) (i1 i2 inp : expr) : Prop :=
  match ids with None => i1 = inp /\ i2 = inp | Some (h1, h2) => (exists t, i1 = EVar t h1) /\ (exists t, i2 = EVar t h2) end.
(** In the first test [i1] is compared with [e1], in the second [i2] with [e2]; one is the upper bound. *)
Lemma clamp_meta_inv ids b1 b2 e1 e2 r : clamp_meta ids b1 b2 e1 e2 = Some r ->
  exists c1 c2 i1 i2, same_or_flip (normalize_eq b1 e1) (c1, i1, e1) /\ same_or_flip (normalize_eq b2 e2) (c2, i2, e2) /\
    is_ord (fst (fst (normalize_eq b1 e1))) = true /\ is_ord (fst (fst (normalize_eq b2 e2))) = true /\
    same_side ids i1 i2 (i_input r) /\
    ((upper c1 = true /\ lower c2 = true /\ i_max r = e1 /\ i_min r = e2) \/ (lower c1 = true /\ upper c2 = true /\ i_max r = e2 /\ i_min r = e1)).
Proof.
  unfold clamp_meta. destruct (is_ord (fst (fst (normalize_eq b1 e1)))) eqn:O1; [|discriminate].
  destruct (is_ord (fst (fst (normalize_eq b2 e2)))) eqn:O2; [|discriminate]. cbn [andb].
  set (f := normalize_eq b1 e1) in *. set (s := normalize_eq b2 e2) in *.
  assert (G : forall f' s', same_or_flip f f' -> same_or_flip s s' -> meta_both ids f' s' e1 e2 = Some r ->
    exists c1 c2 i1 i2, same_or_flip f (c1, i1, e1) /\ same_or_flip s (c2, i2, e2) /\ true = true /\ true = true /\
    same_side ids i1 i2 (i_input r) /\
    ((upper c1 = true /\ lower c2 = true /\ i_max r = e1 /\ i_min r = e2) \/ (lower c1 = true /\ upper c2 = true /\ i_max r = e2 /\ i_min r = e1))).
  { intros f' s' Hf Hs H. unfold meta_both in H. destruct (meta_check ids f' s' e1 e2) as [r0|] eqn:E.
    - injection H as ->. apply meta_check_inv in E as (c & c' & i' & U & L & -> & -> & M & N & R).
      exists c, c', (i_input r), i'. repeat split; auto. destruct ids as [[h1 h2]|]; cbn in *; auto.
    - apply meta_check_inv in H as (c & c' & i' & U & L & -> & -> & M & N & R).
      exists c', c, i', (i_input r). repeat split; auto. destruct ids as [[h1 h2]|]; cbn in *; [tauto|split; auto]. }
  destruct (meta_both ids f s e1 e2) as [r0|] eqn:E1. { intros [= ->]. apply (G f s); [left|left|]; auto. }
  destruct (meta_both ids (flip_bin f) (flip_bin s) e1 e2) as [r0|] eqn:E2. { intros [= ->]. apply (G (flip_bin f) (flip_bin s)); [right|right|]; auto. }
  destruct (meta_both ids (flip_bin f) s e1 e2) as [r0|] eqn:E3. { intros [= ->]. apply (G (flip_bin f) s); [right|left|]; auto. }
  intros E4. apply (G f (flip_bin s)); [left|right|]; auto.
Qed.

Lemma is_int_lit_inv e n : is_int_lit e n = true -> exists t, e = ELit t n.
Proof. destruct e; try discriminate. cbn. intros H. apply Z.eqb_eq in H. subst. eauto. Qed.
Lemma normalize_cases b e : normalize_eq b e = b \/
  exists l r t input t0 te, b = (CEq, l, r) /\ ty_of l = Some (TI t) /\ ity_signed t = false /\
    (r = ELit t0 0 /\ input = l \/ l = ELit t0 0 /\ input = r) /\ e = ELit te 1 /\ normalize_eq b e = (CLt, input, e).
Proof.
  destruct b as [[c l] r]. unfold normalize_eq. destruct c; auto. destruct (ty_of l) as [[t| | |]|] eqn:T; auto.
  destruct (ity_signed t) eqn:Sg; auto.
  destruct (is_int_lit r 0) eqn:Lr.
  - destruct (is_int_lit e 1) eqn:Le; [|auto]. right. apply is_int_lit_inv in Lr as [t0 ->]. apply is_int_lit_inv in Le as [te ->].
    exists l, (ELit t0 0), t, l, t0, te. repeat split; auto.
  - destruct (is_int_lit l 0) eqn:Ll; [|auto]. destruct (is_int_lit e 1) eqn:Le; [|auto].
    right. apply is_int_lit_inv in Ll as [t0 ->]. apply is_int_lit_inv in Le as [te ->].
    exists (ELit t0 0), r, t, r, t0, te. repeat split; auto.
Qed.

(** The condition written by the user has the value of the comparison of [i] with the bound. *)
Lemma bin_sem m p rho b e c i w T : same_or_flip (normalize_eq b e) (c, i, e) -> is_ord (fst (fst (normalize_eq b e))) = true ->
  (forall v, eval m p rho i = Ok v -> val_ty v = T) -> tyck p e = Some T ->
  eval m p rho (EBin (BC (fst (fst b))) (snd (fst b)) (snd b)) = Ok w ->
  eval m p rho (EBin (BC c) i e) = Ok w.
Proof.
  intros S O Hi He Hw. destruct (normalize_cases b e) as [E|(l & r & t & input & t0 & te & -> & Tl & Sg & Hin & -> & E)]; rewrite E in S, O.
  { destruct b as [[cb l] r]. cbn [fst snd] in *. destruct S as [S|S]; [injection S as -> -> ->; auto|].
    cbn in S. injection S as -> -> ->. now apply flip_sem. }
  cbn [fst snd] in Hw. clear E O.
  apply eval_cmp_inv in Hw as (vl & vr & o & El & Er & Ho & ->).
  pose proof (eval_wf _ _ _ _ _ El) as [Wl Yl]. specialize (Yl _ Tl). destruct vl as [tl zl| | |]; try discriminate. cbn in Yl. injection Yl as ->.
  destruct vr as [tr zr| | |]; try discriminate. cbn in Ho. destruct (ity_eqb t tr) eqn:Et; [|discriminate]. apply ity_eqb_eq in Et. subst tr.
  injection Ho as <-. rewrite cmp_of_Z. cbn [cmp_op].
  assert (exists z, eval m p rho input = Ok (VI t z) /\ (zl =? zr) = (z =? 0)) as (z & Hz & ->).
  { destruct Hin as [[-> ->]|[-> ->]].
    - exists zl. split; auto. apply eval_lit_inv in Er as (Er & _). congruence.
    - exists zr. split; auto. apply eval_lit_inv in El as (El & _). injection El as -> ->. apply Z.eqb_sym. }
  pose proof (eval_VI_range _ _ _ _ _ _ Hz) as Rz.
  assert (0 <= z). { apply inr_iff in Rz. unfold imin in Rz. rewrite Sg in Rz. lia. }
  cbn [tyck] in He. destruct (inr p te 1 && (0 <=? 1)) eqn:R1; [|discriminate]. injection He as <-.
  destruct S as [S|S]; [injection S as -> ->|cbn in S; injection S as -> -> <-].
  - specialize (Hi _ Hz). cbn in Hi. injection Hi as ->.
    cbn [eval]. rewrite Hz, R1. cbn. rewrite ity_eqb_refl. cbn. do 2 f_equal.
    destruct (Z.compare_spec z 1), (Z.eqb_spec z 0); auto; lia.
  - assert (eval m p rho (ELit te 1) = Ok (VI te 1)) as E1 by (cbn [eval]; now rewrite R1).
    rewrite E1 in Hz. injection Hz as -> <-. cbn [eval]. rewrite R1. cbn. rewrite ity_eqb_refl. reflexivity.
Qed.

(** ** The clamp call *)
Definition vlt (a b : val) : bool := match val_cmp a b with Ok (Some Lt) => true | _ => false end.
Definition vclamp (vi vn vx : val) : val := if vlt vi vn then vn else if vlt vx vi then vx else vi.
Lemma clamp_eval m p rho i n x vi vn vx c T : eval m p rho i = Ok vi -> eval m p rho n = Ok vn -> eval m p rho x = Ok vx ->
  val_ty vi = T -> val_ty vn = T -> val_ty vx = T -> (T = TF \/ exists t, T = TI t) ->
  val_cmp vn vx = Ok (Some c) -> c <> Gt -> eval m p rho (EM2 MClamp i n x) = Ok (vclamp vi vn vx).
Proof.
  intros Hi Hn Hx Ti Tn Tx HT Hc Ng. cbn [eval]. rewrite Hi, Hn, Hx. cbn [rbind]. unfold vclamp, vlt.
  destruct HT as [->|[t ->]].
  - destruct vi as [| |fi|]; try discriminate. destruct vn as [| |fn|]; try discriminate. destruct vx as [| |fx|]; try discriminate.
    cbn in Hc. injection Hc as Hc. unfold SFleb. rewrite Hc.
    replace (match c with Gt => false | _ => true end) with true by (destruct c; [reflexivity|reflexivity|contradiction]).
    cbn [val_cmp]. f_equal. unfold fclamp, SFltb. destruct (SFcompare fi fn) as [[]|] eqn:E1.
    2: { assert (SFcompare fx fn = Some (CompOpp c)) as ->.
         { rewrite SFcompare_key in *. rewrite (orb_comm (is_nan fx)). destruct (is_nan fn || is_nan fx); [discriminate|]. injection Hc as Hc. rewrite lex3_antisym, Hc. reflexivity. }
         destruct c; [reflexivity|reflexivity|contradiction]. }
    all: destruct (SFcompare fx fi) as [[]|]; reflexivity.
  - destruct vi as [ti zi| | |]; try discriminate. destruct vn as [tn zn| | |]; try discriminate. destruct vx as [tx zx| | |]; try discriminate.
    cbn in Ti, Tn, Tx. injection Ti as ->. injection Tn as ->. injection Tx as ->. cbn in Hc. cbn [val_cmp]. rewrite !ity_eqb_refl in *. injection Hc as Hc. cbn [andb].
    assert (zn <= zx) by (destruct (Z.compare_spec zn zx); subst; try lia; now destruct Ng).
    replace (zx <? zn) with false by lia. f_equal. unfold sat.
    destruct (Z.compare_spec zi zn), (Z.compare_spec zx zi), (Z.ltb_spec zi zn), (Z.ltb_spec zx zi); subst; try reflexivity; exfalso; lia.
Qed.

Lemma num_eq_rank a b : val_ty a = val_ty b -> (forall t, val_ty a <> TO t) -> vnan a = false -> vnan b = false -> rank3 a = rank3 b -> num_eq a b.
Proof.
  intros T NO Na Nb R. destruct a as [ta x|x|x|tx x], b as [tb y|y|y|ty y]; try discriminate.
  - left. cbn in T, R. injection T as ->. injection R as ->. reflexivity.
  - left. cbn in R. f_equal. destruct x, y; auto; discriminate.
  - right. cbn in *. rewrite SFcompare_key, Na, Nb. cbn. f_equal. now apply lex3_Eq.
  - exfalso. eapply NO. reflexivity.
Qed.

Lemma vcmp_lt a b o : val_cmp a b = Ok o -> vlt a b = true <-> (vnan a || vnan b = false /\ lex_lt (rank3 a) (rank3 b)).
Proof.
  intros H. unfold vlt. rewrite H. apply val_cmp_rank3 in H as [-> _]. destruct (vnan a || vnan b).
  - split; [discriminate|]. intros [? _]; discriminate.
  - pose proof (lex3_Lt (rank3 a) (rank3 b)). destruct (lex3 _ _); split; intros; try discriminate; try tauto; auto; intuition discriminate.
Qed.

Section Core.
Variables (vi vn vx : val) (c : comparison) (ox on : option comparison).
Hypothesis Hc : val_cmp vn vx = Ok (Some c).
Hypothesis Ng : c <> Gt.
Hypothesis Hx : val_cmp vi vx = Ok ox.
Hypothesis Hn : val_cmp vi vn = Ok on.
Hypothesis NO : forall t, val_ty vi <> TO t.

Lemma core_facts : vnan vn = false /\ vnan vx = false /\ ~ lex_lt (rank3 vx) (rank3 vn) /\
  (vlt vi vn = true <-> vnan vi = false /\ lex_lt (rank3 vi) (rank3 vn)) /\
  (vlt vx vi = true <-> vnan vi = false /\ lex_lt (rank3 vx) (rank3 vi)).
Proof.
  apply val_cmp_rank3 in Hc as [E _]. destruct (vnan vn) eqn:Nn; [discriminate|]. destruct (vnan vx) eqn:Nx; [discriminate|].
  cbn in E. injection E as E.
  rewrite (vcmp_lt _ _ _ Hn), Nn, orb_false_r. pose proof (val_cmp_antisym _ _ _ Hx) as Hx'. rewrite (vcmp_lt _ _ _ Hx'), Nx. cbn [orb].
  split; [auto|]. split; [auto|]. split; [|tauto]. intros L. apply Ng. rewrite E. now apply lex3_Gt.
Qed.
Lemma upper_test u : upper u = true -> (cmp_of u ox = true -> num_eq vx (vclamp vi vn vx)) /\ (cmp_of u ox = false -> vlt vx vi = false).
Proof.
  intros U. destruct core_facts as (Nn & Nx & Le & L1 & L2).
  pose proof (val_cmp_rank3 _ _ _ Hx) as [Ex Tx].
  rewrite Nx, orb_false_r in Ex. destruct (vnan vi) eqn:Ni.
  - subst ox. split; [destruct u; discriminate|]. intros _. destruct (vlt vx vi) eqn:V; auto. destruct L2 as [L2 _]. destruct (L2 eq_refl). discriminate.
  - subst ox. split.
    + intros H.
      assert (G : ~ lex_lt (rank3 vi) (rank3 vx)). { intros L. apply lex3_Lt in L. rewrite L in H. destruct u; discriminate. }
      unfold vclamp. destruct (vlt vi vn) eqn:V1.
      { exfalso. destruct L1 as [L1 _]. destruct (L1 eq_refl) as [_ L]. apply G.
        destruct (rank3 vi) as [[i1 i2] i3], (rank3 vn) as [[n1 n2] n3], (rank3 vx) as [[x1 x2] x3]. cbn in *. lia. }
      destruct (vlt vx vi) eqn:V2; [left; auto|]. apply num_eq_rank; auto.
      { rewrite <- Tx. auto. }
      destruct L2 as [_ L2]. assert (~ lex_lt (rank3 vx) (rank3 vi)). { intros L. specialize (L2 (conj eq_refl L)). discriminate. }
      destruct (rank3 vi) as [[i1 i2] i3], (rank3 vx) as [[x1 x2] x3]. cbn in *. f_equal; [f_equal|]; lia.
    + intros H. destruct (vlt vx vi) eqn:V; auto. destruct L2 as [L2 _]. destruct (L2 eq_refl) as [_ L]. apply lex3_Gt in L. rewrite L in H. destruct u; discriminate.
Qed.
Lemma lower_test u : lower u = true -> (cmp_of u on = true -> num_eq vn (vclamp vi vn vx)) /\ (cmp_of u on = false -> vlt vi vn = false).
Proof.
  intros U. destruct core_facts as (Nn & Nx & Le & L1 & L2).
  pose proof (val_cmp_rank3 _ _ _ Hn) as [En Tn].
  rewrite Nn, orb_false_r in En. destruct (vnan vi) eqn:Ni.
  - subst on. split; [destruct u; discriminate|]. intros _. destruct (vlt vi vn) eqn:V; auto. destruct L1 as [L1 _]. destruct (L1 eq_refl). discriminate.
  - subst on. split.
    + intros H.
      assert (G : ~ lex_lt (rank3 vn) (rank3 vi)). { intros L. apply lex3_Gt in L. rewrite L in H. destruct u; discriminate. }
      unfold vclamp. destruct (vlt vi vn) eqn:V1; [left; auto|].
      destruct (vlt vx vi) eqn:V2.
      { exfalso. destruct L2 as [L2 _]. destruct (L2 eq_refl) as [_ L].
        destruct (rank3 vi) as [[i1 i2] i3], (rank3 vn) as [[n1 n2] n3], (rank3 vx) as [[x1 x2] x3]. cbn in *. lia. }
      apply num_eq_rank; auto.
      { rewrite <- Tn. auto. }
      destruct L1 as [_ L1]. assert (~ lex_lt (rank3 vi) (rank3 vn)). { intros L. specialize (L1 (conj eq_refl L)). discriminate. }
      destruct (rank3 vi) as [[i1 i2] i3], (rank3 vn) as [[x1 x2] x3]. cbn in *. f_equal; [f_equal|]; lia.
    + intros H. destruct (vlt vi vn) eqn:V; auto. destruct L1 as [L1 _]. destruct (L1 eq_refl) as [_ L]. apply lex3_Lt in L. rewrite L in H. destruct u; discriminate.
Qed.
Lemma neither_test : vlt vi vn = false -> vlt vx vi = false -> vclamp vi vn vx = vi.
Proof. unfold vclamp. now intros -> ->. Qed.
End Core.

(** The chain "first test, second test, otherwise the input". *)
Definition sides (c1 c2 : cop) (v1 v2 vn vx : val) : Prop :=
  upper c1 = true /\ lower c2 = true /\ v1 = vx /\ v2 = vn \/ lower c1 = true /\ upper c2 = true /\ v1 = vn /\ v2 = vx.
Lemma chain_facts vi v1 v2 vn vx c o1 o2 c1 c2 : sides c1 c2 v1 v2 vn vx ->
  val_cmp vn vx = Ok (Some c) -> c <> Gt -> val_cmp vi v1 = Ok o1 -> val_cmp vi v2 = Ok o2 -> (forall t, val_ty vi <> TO t) ->
  (cmp_of c1 o1 = true -> num_eq v1 (vclamp vi vn vx)) /\ (cmp_of c2 o2 = true -> num_eq v2 (vclamp vi vn vx)) /\
  (cmp_of c1 o1 = false -> cmp_of c2 o2 = false -> vclamp vi vn vx = vi).
Proof.
  intros [(U & L & -> & ->)|(L & U & -> & ->)] Hc Ng H1 H2 NO.
  - pose proof (upper_test _ _ _ _ _ _ Hc Ng H1 H2 NO _ U) as [A B]. pose proof (lower_test _ _ _ _ _ _ Hc Ng H1 H2 NO _ L) as [A' B'].
    split; [auto|]. split; [auto|]. intros. apply neither_test; auto.
  - pose proof (upper_test _ _ _ _ _ _ Hc Ng H2 H1 NO _ U) as [A B]. pose proof (lower_test _ _ _ _ _ _ Hc Ng H2 H1 NO _ L) as [A' B'].
    split; [auto|]. split; [auto|]. intros. apply neither_test; auto.
Qed.

(** ** The bounds *)
Lemma ceval_var p t x : ceval p p (EVar t x) = None.
Proof. reflexivity. Qed.
Lemma denotes_inj p c v v' : val_wf p v = true -> val_wf p v' = true -> val_ty v = val_ty v' -> denotes p c v -> denotes p c v' -> v = v'.
Proof.
  destruct c as [u|b|f], v as [t z|b0|f0|], v' as [t' z'|b'|f'|]; cbn; try contradiction; try discriminate; intros W W' T D D'; try congruence.
  injection T as <-. f_equal. apply (to_bits_inj p t); auto. congruence.
Qed.
(** The value of a constant-evaluable expression does not depend on the variables. *)
Lemma const_same m p rho rho' e c v T : (m = Wrapping \/ narrow_shifts p e = true) -> tyck p e = Some T -> ceval p p e = Some c ->
  eval m p rho e = Ok v -> eval m p rho' e = Ok v.
Proof.
  intros N Te C H. destruct (ceval_total m p rho' e _ _ N Te C) as [v' H']. rewrite H'. f_equal.
  pose proof (eval_wf _ _ _ _ _ H) as [W Y]. pose proof (eval_wf _ _ _ _ _ H') as [W' Y']. pose proof (tyck_ty_of _ _ _ Te) as Q.
  apply (denotes_inj p c); eauto using ceval_sound_denotes. rewrite (Y _ Q). exact (Y' _ Q).
Qed.
Lemma min_less_inv p r : min_less_than_max p r = true -> exists T cn cx, ty_of (i_max r) = Some T /\ ty_of (i_min r) = Some T /\
  ceval p p (i_max r) = Some cx /\ ceval p p (i_min r) = Some cn /\ exists c, const_partial_cmp p T cn cx = Some c /\ c <> Gt.
Proof.
  unfold min_less_than_max. destruct (ty_of (i_max r)) as [tx|]; [|discriminate]. destruct (ty_of (i_min r)) as [tn|]; [|discriminate].
  intros H. apply andb_prop in H as [E H]. apply ty_eqb_eq in E. subst tn.
  destruct (ceval p p (i_max r)) as [cx|]; [|discriminate]. destruct (ceval p p (i_min r)) as [cn|]; [|discriminate].
  destruct (const_partial_cmp p tx cn cx) as [c|] eqn:E; [|discriminate]. exists tx, cn, cx. repeat split; auto. exists c. split; auto. intros ->. discriminate.
Qed.
Lemma bounds_le m p rho r vn vx : min_less_than_max p r = true -> eval m p rho (i_min r) = Ok vn -> eval m p rho (i_max r) = Ok vx ->
  exists c, val_cmp vn vx = Ok (Some c) /\ c <> Gt.
Proof.
  intros H Hn Hx. apply min_less_inv in H as (T & cn & cx & Tx & Tn & Cx & Cn & c & E & N). exists c. split; [|auto].
  pose proof (eval_wf _ _ _ _ _ Hn) as [Wn Yn]. pose proof (eval_wf _ _ _ _ _ Hx) as [Wx Yx].
  rewrite (const_cmp_agrees p T cn cx); eauto using ceval_sound_denotes. now rewrite E.
Qed.
Lemma bounds_eval m p rho r T : min_less_than_max p r = true -> tyck p (i_min r) = Some T -> tyck p (i_max r) = Some T ->
  (m = Wrapping \/ narrow_shifts p (i_min r) = true /\ narrow_shifts p (i_max r) = true) ->
  exists vn vx, eval m p rho (i_min r) = Ok vn /\ eval m p rho (i_max r) = Ok vx.
Proof.
  intros H Tn Tx N. apply min_less_inv in H as (T' & cn & cx & _ & _ & Cx & Cn & _).
  destruct (ceval_total m p rho (i_min r) _ _ ltac:(tauto) Tn Cn) as [vn Hn].
  destruct (ceval_total m p rho (i_max r) _ _ ltac:(tauto) Tx Cx) as [vx Hx]. eauto.
Qed.
Lemma tyck_val m p rho e T v : tyck p e = Some T -> eval m p rho e = Ok v -> val_ty v = T.
Proof. intros H E. apply eval_wf in E as [_ Y]. apply Y. now apply tyck_ty_of in H. Qed.
Definition numeric (T : ty) : Prop := T = TF \/ exists t, T = TI t.
Lemma cmp_same_ty a b T : numeric T -> val_ty a = T -> val_ty b = T -> exists o, val_cmp a b = Ok o.
Proof.
  intros [->|[t ->]] A B; destruct a, b; try discriminate; cbn in *; [eauto|]. injection A as ->. injection B as ->. rewrite ity_eqb_refl. eauto.
Qed.
Lemma numeric_not_opt T v : numeric T -> val_ty v = T -> forall t, val_ty v <> TO t.
Proof. intros [->|[t ->]] ->; discriminate. Qed.

(** ** `if .. else if .. else ..` *)
Lemma new_bin_inv c b : new_bin c = Some b -> c = EBin (BC (fst (fst b))) (snd (fst b)) (snd b).
Proof. destruct c as [| | | | | |o l r| | | | | |]; try discriminate. destruct o; try discriminate. cbn. now intros [= <-]. Qed.
Lemma tyck_if p c a b T : tyck p (EIf c a b) = Some T -> tyck p c = Some TB /\ tyck p a = Some T /\ tyck p b = Some T.
Proof.
  cbn [tyck]. destruct (tyck p c) as [[]|]; try discriminate. destruct (tyck p a) as [x|]; [|discriminate]. destruct (tyck p b) as [y|]; [|discriminate].
  destruct (ty_eqb x y) eqn:E; [|discriminate]. apply ty_eqb_eq in E. subst. intros [= ->]. auto.
Qed.
Lemma clamp_if_else_num m p rho e r T : clamp_if_else e = Some r -> min_less_than_max p r = true -> tyck p e = Some T -> numeric T ->
  (m = Wrapping \/ narrow_shifts p e = true) -> preserves_num m p rho e (clamp_sugg r).
Proof.
  intros H M Te NT N. unfold clamp_if_else in H. destruct e as [| | | | | | | | | | |c1 e1 q|]; try discriminate.
  destruct q as [| | | | | | | | | | |c2 e2 e3|]; try discriminate.
  destruct (new_bin c1) as [b1|] eqn:B1; [|discriminate]. destruct (new_bin c2) as [b2|] eqn:B2; [|discriminate].
  destruct (clamp_meta None b1 b2 e1 e2) as [r0|] eqn:E; [|discriminate]. destruct (expr_eqb (i_input r0) e3) eqn:Ei; [|discriminate].
  injection H as ->. apply expr_eqb_eq in Ei. apply new_bin_inv in B1, B2.
  apply tyck_if in Te as (T1 & Te1 & Te). apply tyck_if in Te as (T2 & Te2 & Te3).
  apply clamp_meta_inv in E as (k1 & k2 & i1 & i2 & S1 & S2 & O1 & O2 & [-> ->] & D).
  assert (N1 : m = Wrapping \/ narrow_shifts p e1 = true) by (destruct N as [|N]; [auto|]; cbn in N; right; lia).
  assert (N2 : m = Wrapping \/ narrow_shifts p e2 = true) by (destruct N as [|N]; [auto|]; cbn in N; right; lia).
  intros v Hv. cbn [eval] in Hv. inv_bind Hv.
  assert (Ty : forall v, eval m p rho (i_input r) = Ok v -> val_ty v = T) by (rewrite Ei; intros; eapply tyck_val; eauto).
  rewrite B1 in E. pose proof (bin_sem _ _ _ _ _ _ _ _ _ S1 O1 Ty Te1 E) as C1.
  apply eval_cmp_inv in C1 as (vi & v1 & o1 & Hi & H1 & Ho1 & ->).
  assert (exists vn vx, eval m p rho (i_min r) = Ok vn /\ eval m p rho (i_max r) = Ok vx) as (vn & vx & Hn & Hx).
  { destruct D as [(_ & _ & E1 & E2)|(_ & _ & E1 & E2)]; apply (bounds_eval m p rho r T M); rewrite ?E1, ?E2; auto; tauto. }
  destruct (bounds_le _ _ _ _ _ _ M Hn Hx) as (c & Hc & Ng).
  assert (exists v2, eval m p rho e2 = Ok v2 /\ sides k1 k2 v1 v2 vn vx) as (v2 & H2 & Sd).
  { destruct D as [(U & L & E1 & E2)|(U & L & E1 & E2)]; rewrite E1 in Hx; rewrite E2 in Hn.
    - exists vn. split; auto. left. repeat split; auto. congruence.
    - exists vx. split; auto. right. repeat split; auto. congruence. }
  pose proof (Ty _ Hi) as Yi. pose proof (tyck_val _ _ _ _ _ _ Te2 H2) as Y2. pose proof (tyck_val _ _ _ _ _ _ Te1 H1) as Y1.
  destruct (cmp_same_ty vi v2 T NT Yi Y2) as [o2 Ho2].
  destruct (chain_facts _ _ _ _ _ _ _ _ _ _ Sd Hc Ng Ho1 Ho2 (numeric_not_opt _ _ NT Yi)) as (F1 & F2 & F3).
  exists (vclamp vi vn vx). split.
  { eapply clamp_eval with (T := T); eauto.
    - destruct Sd as [(_ & _ & -> & ->)|(_ & _ & -> & ->)]; auto.
    - destruct Sd as [(_ & _ & -> & ->)|(_ & _ & -> & ->)]; auto. }
  destruct (cmp_of k1 o1) eqn:Q1.
  { assert (v = v1) by congruence. subst v. auto. }
  inv_bind Hv. rewrite B2 in E0. pose proof (bin_sem _ _ _ _ _ _ _ _ _ S2 O2 Ty Te2 E0) as C2.
  apply eval_cmp_inv in C2 as (vi' & v2' & o2' & Hi' & H2' & Ho2' & ->).
  assert (vi' = vi) by congruence. assert (v2' = v2) by congruence. subst vi' v2'. assert (o2' = o2) by congruence. subst o2'.
  destruct (cmp_of k2 o2) eqn:Q2.
  { assert (v = v2) by congruence. subst v. auto. }
  left. rewrite F3 by auto. rewrite Ei in Hi. congruence.
Qed.

Lemma num_eq_int v v' t : val_ty v = TI t -> num_eq v v' -> v = v'.
Proof. intros T [|H]; [auto|]. destruct v; try contradiction. discriminate. Qed.
Lemma preserves_num_int m p rho e e' t : tyck p e = Some (TI t) -> preserves_num m p rho e e' -> preserves m p rho e e'.
Proof. intros T H v Hv. destruct (H _ Hv) as (v' & E & N). rewrite E. f_equal. symmetry. eapply num_eq_int; eauto. eapply tyck_val; eauto. Qed.

(** ** `min`/`max` *)
Definition vmin (a b : val) : res val :=
  match a, b with
  | VI t x, VI t' y => if ity_eqb t t' then Ok (VI t (Z.min x y)) else Stuck
  | VF x, VF y => Ok (VF (fmin x y)) | _, _ => Stuck end.
Definition vmax (a b : val) : res val :=
  match a, b with
  | VI t x, VI t' y => if ity_eqb t t' then Ok (VI t (Z.max x y)) else Stuck
  | VF x, VF y => Ok (VF (fmax x y)) | _, _ => Stuck end.
Lemma eval_mm m p rho k a b v : (k = MMin \/ k = MMax) -> eval m p rho (EM1 k a b) = Ok v ->
  exists va vb, eval m p rho a = Ok va /\ eval m p rho b = Ok vb /\ (match k with MMin => vmin | _ => vmax end) va vb = Ok v.
Proof.
  intros K H. cbn [eval] in H. inv_bind H. exists v0, v1. split; [auto|]. split; [auto|].
  destruct K as [->| ->]; destruct v0, v1; try discriminate; exact H.
Qed.
Lemma fl_rank a b : vnan a = false -> vnan b = false -> val_ty a = TF -> val_ty b = TF -> val_cmp a b = Ok (Some (lex3 (rank3 a) (rank3 b))).
Proof. destruct a, b; try discriminate. cbn. intros A B _ _. now rewrite SFcompare_key, A, B. Qed.
Lemma vmin_pick a b v T : numeric T -> val_ty a = T -> val_ty b = T -> vnan a = false -> vnan b = false -> vmin a b = Ok v ->
  vnan v = false /\ val_ty v = T /\ (v = a /\ ~ lex_lt (rank3 b) (rank3 a) \/ v = b /\ ~ lex_lt (rank3 a) (rank3 b)).
Proof.
  intros [->|[t ->]] A B Na Nb H; destruct a as [ta x| |x|], b as [tb y| |y|]; try discriminate; cbn in *.
  - injection H as <-. unfold fmin. rewrite Na, Nb. unfold SFltb. rewrite SFcompare_key, Na, Nb. cbn [orb].
    destruct (lex3 (fkey y) (fkey x)) eqn:E; cbn; (split; [auto|split; [auto|]]).
    + left. split; auto. intros L. apply lex3_Lt in L. congruence.
    + right. split; auto. intros L. apply lex3_Gt in L. congruence.
    + left. split; auto. intros L. apply lex3_Lt in L. congruence.
  - injection A as ->. injection B as ->. rewrite ity_eqb_refl in H. injection H as <-. split; [auto|]. split; [auto|].
    cbn. destruct (Z.min_spec x y) as [[L ->]|[L ->]]; [left|right]; split; auto; lia.
Qed.
Lemma vmax_pick a b v T : numeric T -> val_ty a = T -> val_ty b = T -> vnan a = false -> vnan b = false -> vmax a b = Ok v ->
  vnan v = false /\ val_ty v = T /\ (v = a /\ ~ lex_lt (rank3 a) (rank3 b) \/ v = b /\ ~ lex_lt (rank3 b) (rank3 a)).
Proof.
  intros [->|[t ->]] A B Na Nb H; destruct a as [ta x| |x|], b as [tb y| |y|]; try discriminate; cbn in *.
  - injection H as <-. unfold fmax. rewrite Na, Nb. unfold SFltb. rewrite SFcompare_key, Na, Nb. cbn [orb].
    destruct (lex3 (fkey x) (fkey y)) eqn:E; cbn; (split; [auto|split; [auto|]]).
    + left. split; auto. intros L. apply lex3_Lt in L. congruence.
    + right. split; auto. intros L. apply lex3_Gt in L. congruence.
    + left. split; auto. intros L. apply lex3_Lt in L. congruence.
  - injection A as ->. injection B as ->. rewrite ity_eqb_refl in H. injection H as <-. split; [auto|]. split; [auto|].
    cbn. destruct (Z.max_spec x y) as [[L ->]|[L ->]]; [right|left]; split; auto; lia.
Qed.
Lemma num_eq_rank' a b T : numeric T -> val_ty a = T -> val_ty b = T -> vnan a = false -> vnan b = false ->
  ~ lex_lt (rank3 a) (rank3 b) -> ~ lex_lt (rank3 b) (rank3 a) -> num_eq a b.
Proof.
  intros NT A B Na Nb L1 L2. apply num_eq_rank; auto; [congruence|now apply (numeric_not_opt T)|].
  destruct (rank3 a) as [[a1 a2] a3], (rank3 b) as [[b1 b2] b3]. cbn in *. f_equal; [f_equal|]; lia.
Qed.
(** [vclamp] in terms of ranks, for a value that is not NaN. *)
Lemma vclamp_rank vi vn vx T : numeric T -> val_ty vi = T -> val_ty vn = T -> val_ty vx = T -> vnan vi = false -> vnan vn = false -> vnan vx = false ->
  vclamp vi vn vx = vn /\ lex_lt (rank3 vi) (rank3 vn) \/
  vclamp vi vn vx = vx /\ lex_lt (rank3 vx) (rank3 vi) /\ ~ lex_lt (rank3 vi) (rank3 vn) \/
  vclamp vi vn vx = vi /\ ~ lex_lt (rank3 vi) (rank3 vn) /\ ~ lex_lt (rank3 vx) (rank3 vi).
Proof.
  intros NT Ti Tn Tx Ni Nn Nx. unfold vclamp.
  destruct (cmp_same_ty vi vn T NT Ti Tn) as [o1 H1]. destruct (cmp_same_ty vx vi T NT Tx Ti) as [o2 H2].
  pose proof (vcmp_lt _ _ _ H1) as L1. pose proof (vcmp_lt _ _ _ H2) as L2. rewrite Ni, Nn in L1. rewrite Nx, Ni in L2. cbn in L1, L2.
  destruct (vlt vi vn); [left; tauto|]. assert (~ lex_lt (rank3 vi) (rank3 vn)) by (intros L; assert (false = true) by tauto; discriminate).
  destruct (vlt vx vi); [right; left; tauto|]. right; right. repeat split; auto. intros L; assert (false = true) by tauto; discriminate.
Qed.
Ltac ranks := repeat match goal with |- context [rank3 ?v] => destruct (rank3 v) as [[? ?] ?] | H : context [rank3 ?v] |- _ => destruct (rank3 v) as [[? ?] ?] end; cbn [lex_lt] in *; lia.
Lemma min_max_clamp vi vn vx u w T c : numeric T -> val_ty vi = T -> val_ty vn = T -> val_ty vx = T -> vnan vi = false ->
  val_cmp vn vx = Ok (Some c) -> c <> Gt ->
  (vmin vi vx = Ok u \/ vmin vx vi = Ok u) -> (vmax u vn = Ok w \/ vmax vn u = Ok w) -> num_eq w (vclamp vi vn vx).
Proof.
  intros NT Ti Tn Tx Ni Hc Ng Hu Hw.
  pose proof (val_cmp_rank3 _ _ _ Hc) as [Ec _]. destruct (vnan vn) eqn:Nn; [discriminate|]. destruct (vnan vx) eqn:Nx; [discriminate|]. cbn in Ec. injection Ec as Ec.
  assert (Le : ~ lex_lt (rank3 vx) (rank3 vn)) by (intros L; apply lex3_Gt in L; congruence).
  assert (Pu : vnan u = false /\ val_ty u = T /\ (u = vi /\ ~ lex_lt (rank3 vx) (rank3 vi) \/ u = vx /\ ~ lex_lt (rank3 vi) (rank3 vx))).
  { destruct Hu as [Hu|Hu]; apply (vmin_pick _ _ _ T) in Hu; auto; tauto. }
  destruct Pu as (Nu & Tu & Pu).
  assert (Pw : vnan w = false /\ val_ty w = T /\ (w = u /\ ~ lex_lt (rank3 u) (rank3 vn) \/ w = vn /\ ~ lex_lt (rank3 vn) (rank3 u))).
  { destruct Hw as [Hw|Hw]; apply (vmax_pick _ _ _ T) in Hw; auto; tauto. }
  destruct Pw as (Nw & Tw & Pw).
  assert (vnan (vclamp vi vn vx) = false /\ val_ty (vclamp vi vn vx) = T) as [Nc Tc].
  { unfold vclamp. destruct (vlt vi vn); auto. destruct (vlt vx vi); auto. }
  apply (num_eq_rank' _ _ T); auto;
    destruct (vclamp_rank vi vn vx T) as [[-> V]|[(-> & V & V')|(-> & V & V')]]; auto;
    destruct Pw as [[-> W]|[-> W]]; destruct Pu as [[-> U]|[-> U]]; intros L; ranks.
Qed.
Lemma max_min_clamp vi vn vx u w T c : numeric T -> val_ty vi = T -> val_ty vn = T -> val_ty vx = T -> vnan vi = false ->
  val_cmp vn vx = Ok (Some c) -> c <> Gt ->
  (vmax vi vn = Ok u \/ vmax vn vi = Ok u) -> (vmin u vx = Ok w \/ vmin vx u = Ok w) -> num_eq w (vclamp vi vn vx).
Proof.
  intros NT Ti Tn Tx Ni Hc Ng Hu Hw.
  pose proof (val_cmp_rank3 _ _ _ Hc) as [Ec _]. destruct (vnan vn) eqn:Nn; [discriminate|]. destruct (vnan vx) eqn:Nx; [discriminate|]. cbn in Ec. injection Ec as Ec.
  assert (Le : ~ lex_lt (rank3 vx) (rank3 vn)) by (intros L; apply lex3_Gt in L; congruence).
  assert (Pu : vnan u = false /\ val_ty u = T /\ (u = vi /\ ~ lex_lt (rank3 vi) (rank3 vn) \/ u = vn /\ ~ lex_lt (rank3 vn) (rank3 vi))).
  { destruct Hu as [Hu|Hu]; apply (vmax_pick _ _ _ T) in Hu; auto; tauto. }
  destruct Pu as (Nu & Tu & Pu).
  assert (Pw : vnan w = false /\ val_ty w = T /\ (w = u /\ ~ lex_lt (rank3 vx) (rank3 u) \/ w = vx /\ ~ lex_lt (rank3 u) (rank3 vx))).
  { destruct Hw as [Hw|Hw]; apply (vmin_pick _ _ _ T) in Hw; auto; tauto. }
  destruct Pw as (Nw & Tw & Pw).
  assert (vnan (vclamp vi vn vx) = false /\ val_ty (vclamp vi vn vx) = T) as [Nc Tc].
  { unfold vclamp. destruct (vlt vi vn); auto. destruct (vlt vx vi); auto. }
  apply (num_eq_rank' _ _ T); auto;
    destruct (vclamp_rank vi vn vx T) as [[-> V]|[(-> & V & V')|(-> & V & V')]]; auto;
    destruct Pw as [[-> W]|[-> W]]; destruct Pu as [[-> U]|[-> U]]; intros L; ranks.
Qed.

(** The shape both readings of a min/max nest share. *)
Definition mm_shape (e : expr) (r : imm) : Prop :=
  exists inner, (inner = EM1 MMin (i_input r) (i_max r) \/ inner = EM1 MMin (i_max r) (i_input r)) /\
                (e = EM1 MMax inner (i_min r) \/ e = EM1 MMax (i_min r) inner) \/
                (inner = EM1 MMax (i_input r) (i_min r) \/ inner = EM1 MMax (i_min r) (i_input r)) /\
                (e = EM1 MMin inner (i_max r) \/ e = EM1 MMin (i_max r) inner).
Lemma clamp_methods_shape e r : clamp_methods e = Some r -> mm_shape e r.
Proof.
  unfold clamp_methods. destruct e as [| | | | | | | | |k2 q a2| | |]; try discriminate. destruct q as [| | | | | | | | |k1 i a1| | |]; try discriminate.
  destruct k1, k2; try discriminate; intros [= <-]; eexists; cbn; [left|right]; split; left; reflexivity.
Qed.
Lemma call_check_shape ce k2 inner outer r : call_check ce k2 inner outer = Some r ->
  (k2 = MMax /\ i_min r = outer /\ (inner = EM1 MMin (i_input r) (i_max r) \/ inner = EM1 MMin (i_max r) (i_input r))) \/
  (k2 = MMin /\ i_max r = outer /\ (inner = EM1 MMax (i_input r) (i_min r) \/ inner = EM1 MMax (i_min r) (i_input r))).
Proof.
  unfold call_check. destruct inner as [| | | | | | | | |k1 f s| | |]; try discriminate.
  destruct (ce f), (ce s); try discriminate; destruct k1, k2; try discriminate; intros [= <-]; cbn; auto 6.
Qed.
Lemma clamp_calls_shape ce e r : clamp_calls ce e = Some r -> mm_shape e r.
Proof.
  unfold clamp_calls. destruct e as [| | | | | | | | |k2 f s| | |]; try discriminate. intros H.
  assert (call_check ce k2 f s = Some r \/ call_check ce k2 s f = Some r) as [H'|H'].
  { destruct (call_check ce k2 f s); [left; congruence|auto]. }
  - apply call_check_shape in H' as [(-> & <- & E)|(-> & <- & E)]; exists f; [left|right]; split; auto.
  - apply call_check_shape in H' as [(-> & <- & E)|(-> & <- & E)]; exists s; [left|right]; split; auto.
Qed.
Lemma tyck_mm p k a b T : (k = MMin \/ k = MMax) -> tyck p (EM1 k a b) = Some T -> numeric T -> tyck p a = Some T /\ tyck p b = Some T.
Proof.
  intros K H NT. cbn [tyck] in H. destruct K as [->| ->]; destruct (tyck p a) as [[ta| | |]|] eqn:Ta; try discriminate; destruct (tyck p b) as [[tb| | |]|] eqn:Tb; try discriminate.
  all: try (injection H as <-; auto).
  all: destruct (ity_eqb ta tb) eqn:E; [|discriminate]; apply ity_eqb_eq in E; subst; cbn in H; apply tyck_ty_of in Ta; rewrite Ta in H; injection H as <-; auto.
Qed.
Lemma clamp_mm_num m p rho e r T : mm_shape e r -> min_less_than_max p r = true -> tyck p e = Some T -> numeric T ->
  (forall v, eval m p rho (i_input r) = Ok v -> vnan v = false) -> preserves_num m p rho e (clamp_sugg r).
Proof.
  intros [inner Sh] M Te NT NN v Hv.
  assert (exists u vi vn vx, eval m p rho (i_input r) = Ok vi /\ eval m p rho (i_min r) = Ok vn /\ eval m p rho (i_max r) = Ok vx /\
    tyck p (i_input r) = Some T /\ tyck p (i_min r) = Some T /\ tyck p (i_max r) = Some T /\
    ((vmin vi vx = Ok u \/ vmin vx vi = Ok u) /\ (vmax u vn = Ok v \/ vmax vn u = Ok v) \/
     (vmax vi vn = Ok u \/ vmax vn vi = Ok u) /\ (vmin u vx = Ok v \/ vmin vx u = Ok v))) as (u & vi & vn & vx & Hi & Hn & Hx & Ti & Tn & Tx & D).
  { destruct Sh as [[Hin He]|[Hin He]].
    - destruct He as [->| ->]; apply tyck_mm in Te as [Ta Tb]; auto; apply eval_mm in Hv as (va & vb & Ha & Hb & Hw); auto;
        destruct Hin as [->| ->].
      all: [> apply tyck_mm in Ta as [Tc Td]; auto; apply eval_mm in Ha as (vc & vd & Hc & Hd & Hu); auto; exists va
            | apply tyck_mm in Ta as [Tc Td]; auto; apply eval_mm in Ha as (vc & vd & Hc & Hd & Hu); auto; exists va
            | apply tyck_mm in Tb as [Tc Td]; auto; apply eval_mm in Hb as (vc & vd & Hc & Hd & Hu); auto; exists vb
            | apply tyck_mm in Tb as [Tc Td]; auto; apply eval_mm in Hb as (vc & vd & Hc & Hd & Hu); auto; exists vb ].
      + exists vc, vb, vd. auto 20.
      + exists vd, vb, vc. auto 20.
      + exists vc, va, vd. auto 20.
      + exists vd, va, vc. auto 20.
    - destruct He as [->| ->]; apply tyck_mm in Te as [Ta Tb]; auto; apply eval_mm in Hv as (va & vb & Ha & Hb & Hw); auto;
        destruct Hin as [->| ->].
      all: [> apply tyck_mm in Ta as [Tc Td]; auto; apply eval_mm in Ha as (vc & vd & Hc & Hd & Hu); auto; exists va
            | apply tyck_mm in Ta as [Tc Td]; auto; apply eval_mm in Ha as (vc & vd & Hc & Hd & Hu); auto; exists va
            | apply tyck_mm in Tb as [Tc Td]; auto; apply eval_mm in Hb as (vc & vd & Hc & Hd & Hu); auto; exists vb
            | apply tyck_mm in Tb as [Tc Td]; auto; apply eval_mm in Hb as (vc & vd & Hc & Hd & Hu); auto; exists vb ].
      + exists vc, vd, vb. auto 20.
      + exists vd, vc, vb. auto 20.
      + exists vc, vd, va. auto 20.
      + exists vd, vc, va. auto 20. }
  pose proof (tyck_val _ _ _ _ _ _ Ti Hi) as Yi. pose proof (tyck_val _ _ _ _ _ _ Tn Hn) as Yn. pose proof (tyck_val _ _ _ _ _ _ Tx Hx) as Yx.
  destruct (bounds_le _ _ _ _ _ _ M Hn Hx) as (c & Hc & Ng).
  exists (vclamp vi vn vx). split; [eapply clamp_eval with (T := T); eauto|].
  destruct D as [[D1 D2]|[D1 D2]]; [eapply min_max_clamp|eapply max_min_clamp]; eauto.
Qed.

(** ** The match form *)
Lemma eval_upd_var m p rho h v t w : eval m p (upd rho h v) (EVar t h) = Ok w -> w = v.
Proof. cbn. unfold upd. rewrite Nat.eqb_refl. destruct (_ && _); [congruence|discriminate]. Qed.
Lemma clamp_match_num m p rho q e' T : clamp_match_sugg p q = Some e' -> m_ty q = T -> numeric T -> tyck p (m_value q) = Some T ->
  tyck p (m_e1 q) = Some T -> tyck p (m_e2 q) = Some T ->
  (m = Wrapping \/ narrow_shifts p (m_e1 q) = true /\ narrow_shifts p (m_e2 q) = true) ->
  forall v, eval_match m p rho q = Ok v -> exists v', eval m p rho e' = Ok v' /\ num_eq v v'.
Proof.
  intros H Ty NT Tv Te1 Te2 N v Hv. unfold clamp_match_sugg in H.
  destruct (new_bin (m_g1 q)) as [b1|] eqn:B1; [|discriminate]. destruct (new_bin (m_g2 q)) as [b2|] eqn:B2; [|discriminate].
  destruct (clamp_meta (Some (m_b1 q, m_b2 q)) b1 b2 (m_e1 q) (m_e2 q)) as [r|] eqn:E; [|discriminate].
  destruct (min_less_than_max p _) eqn:M; [|discriminate]. injection H as <-. apply new_bin_inv in B1, B2.
  apply clamp_meta_inv in E as (k1 & k2 & i1 & i2 & S1 & S2 & O1 & O2 & Sd & D). cbn in Sd. destruct Sd as [[ti1 ->] [ti2 ->]].
  set (r' := {| i_input := m_value q; i_min := i_min r; i_max := i_max r |}) in *.
  unfold eval_match in Hv. inv_bind Hv. rename v0 into vi, E into Hi.
  destruct (ty_eqb (val_ty vi) (m_ty q)) eqn:Yi; [|discriminate]. apply ty_eqb_eq in Yi. rewrite Ty in Yi.
  inv_bind Hv. rewrite B1 in E.
  assert (Ty1 : forall w, eval m p (upd rho (m_b1 q) vi) (EVar ti1 (m_b1 q)) = Ok w -> val_ty w = T) by (intros w Hw; apply eval_upd_var in Hw; congruence).
  assert (Ty2 : forall w, eval m p (upd rho (m_b2 q) vi) (EVar ti2 (m_b2 q)) = Ok w -> val_ty w = T) by (intros w Hw; apply eval_upd_var in Hw; congruence).
  pose proof (bin_sem _ _ _ _ _ _ _ _ _ S1 O1 Ty1 Te1 E) as C1. apply eval_cmp_inv in C1 as (vi' & v1 & o1 & Hi1 & H1 & Ho1 & ->).
  apply eval_upd_var in Hi1. subst vi'.
  assert (D' : exists cn cx, ceval p p (i_min r) = Some cn /\ ceval p p (i_max r) = Some cx).
  { destruct (min_less_inv _ _ M) as (T' & cn & cx & _ & _ & Cx & Cn & _). eauto. }
  destruct D' as (cn & cx & Cn & Cx).
  assert (W1 : exists c, ceval p p (m_e1 q) = Some c) by (destruct D as [(_ & _ & E1 & E2)|(_ & _ & E1 & E2)]; rewrite <- ?E1, <- ?E2; eauto).
  assert (W2 : exists c, ceval p p (m_e2 q) = Some c) by (destruct D as [(_ & _ & E1 & E2)|(_ & _ & E1 & E2)]; rewrite <- ?E1, <- ?E2; eauto).
  destruct W1 as [w1 W1], W2 as [w2 W2].
  assert (N1 : m = Wrapping \/ narrow_shifts p (m_e1 q) = true) by tauto. assert (N2 : m = Wrapping \/ narrow_shifts p (m_e2 q) = true) by tauto.
  pose proof (const_same _ _ _ rho _ _ _ _ N1 Te1 W1 H1) as H1r.
  destruct (ceval_total m p rho _ _ _ N2 Te2 W2) as [v2 H2r].
  assert (exists vn vx, eval m p rho (i_min r') = Ok vn /\ eval m p rho (i_max r') = Ok vx /\ sides k1 k2 v1 v2 vn vx) as (vn & vx & Hn & Hx & Sd).
  { cbn. destruct D as [(U & L & -> & ->)|(U & L & -> & ->)]; [exists v2, v1|exists v1, v2]; (split; [auto|split; [auto|]]); [left|right]; auto. }
  destruct (bounds_le _ _ _ _ _ _ M Hn Hx) as (c & Hc & Ng).
  pose proof (tyck_val _ _ _ _ _ _ Te2 H2r) as Y2. pose proof (tyck_val _ _ _ _ _ _ Te1 H1r) as Y1.
  destruct (cmp_same_ty vi v2 T NT Yi Y2) as [o2 Ho2].
  destruct (chain_facts _ _ _ _ _ _ _ _ _ _ Sd Hc Ng Ho1 Ho2 (numeric_not_opt _ _ NT Yi)) as (F1 & F2 & F3).
  exists (vclamp vi vn vx). split.
  { apply clamp_eval with (T := T) (c := c); auto; destruct Sd as [(_ & _ & -> & ->)|(_ & _ & -> & ->)]; auto. }
  destruct (cmp_of k1 o1) eqn:Q1. { assert (v = v1) by congruence. subst. auto. }
  inv_bind Hv. rewrite B2 in E0. pose proof (bin_sem _ _ _ _ _ _ _ _ _ S2 O2 Ty2 Te2 E0) as C2.
  apply eval_cmp_inv in C2 as (vi' & v2' & o2' & Hi' & H2' & Ho2' & ->). apply eval_upd_var in Hi'. subst vi'.
  pose proof (const_same _ _ _ rho _ _ _ _ N2 Te2 W2 H2') as H2s. assert (v2' = v2) by congruence. subst v2'.
  assert (o2' = o2) by congruence. subst o2'.
  destruct (cmp_of k2 o2) eqn:Q2. { assert (v = v2) by congruence. subst. auto. }
  left. rewrite F3 by auto. now apply eval_upd_var in Hv.
Qed.

(** ** The statement forms *)
Lemma meta_input_var p b1 b2 e1 e2 r t x c1 : clamp_meta None b1 b2 e1 e2 = Some r -> c1 = EBin (BC (fst (fst b1))) (snd (fst b1)) (snd b1) ->
  compares_var c1 (EVar t x) -> (exists c, ceval p p e1 = Some c) -> i_input r = EVar t x.
Proof.
  intros H -> Cv [c Cc]. apply clamp_meta_inv in H as (k1 & k2 & i1 & i2 & S1 & _ & _ & _ & [-> _] & _).
  destruct b1 as [[kb l] rr]. cbn [fst snd] in Cv.
  assert (Cv' : l = EVar t x \/ rr = EVar t x) by (destruct Cv as (k & o & [[= _ -> _]|[= _ _ ->]]); auto).
  assert (Ne : e1 <> EVar t x) by (intros ->; discriminate).
  destruct (normalize_cases (kb, l, rr) e1) as [E|(l' & r' & t' & input & t0 & te & E & _ & _ & Hin & -> & E2)].
  - rewrite E in S1. destruct S1 as [S1|S1]; cbn in S1; injection S1 as -> -> ->; destruct Cv'; congruence.
  - injection E as -> -> ->. rewrite E2 in S1.
    assert (input = EVar t x) as ->. { destruct Hin as [[-> ->]|[-> ->]]; destruct Cv'; congruence. }
    destruct S1 as [S1|S1]; cbn in S1; injection S1; intros; congruence.
Qed.
Lemma upd_same rho x v : upd rho x v x = v.
Proof. unfold upd. now rewrite Nat.eqb_refl. Qed.
Lemma upd_other rho x v y : y <> x -> upd rho x v y = rho y.
Proof. unfold upd. intros H. apply Nat.eqb_neq in H. now rewrite H. Qed.
Lemma num_eq_refl v : num_eq v v.
Proof. now left. Qed.
Lemma eval_var_inv m p rho t x v : eval m p rho (EVar t x) = Ok v -> v = rho x /\ val_ty v = t /\ val_wf p v = true.
Proof. cbn. destruct (ty_eqb _ _ && _) eqn:E; [|discriminate]. intros [= <-]. apply andb_prop in E as [E1 E2]. apply ty_eqb_eq in E1. auto. Qed.
Lemma eval_var m p rho t x : val_ty (rho x) = t -> val_wf p (rho x) = true -> eval m p rho (EVar t x) = Ok (rho x).
Proof. intros <- W. cbn. now rewrite ty_eqb_refl, W. Qed.
Lemma val_cmp_num_lex a b T : numeric T -> val_ty a = T -> val_ty b = T -> vnan a = false -> vnan b = false ->
  val_cmp a b = Ok (Some (lex3 (rank3 a) (rank3 b))).
Proof. intros NT A B Na Nb. destruct (cmp_same_ty a b T NT A B) as [o H]. rewrite H. apply val_cmp_rank3 in H as [-> _]. now rewrite Na, Nb. Qed.
(** After the first assignment the second test can only replace a bound by an equal one. *)
Lemma second_test v1 v2 vn vx c c1 c2 o T : numeric T -> val_ty v1 = T -> val_ty v2 = T -> sides c1 c2 v1 v2 vn vx -> val_cmp vn vx = Ok (Some c) -> c <> Gt ->
  val_cmp v1 v2 = Ok o -> cmp_of c2 o = true -> num_eq v1 v2.
Proof.
  intros NT T1 T2 Sd Hc Ng Ho Q.
  pose proof (val_cmp_rank3 _ _ _ Hc) as [Ec _]. destruct (vnan vn) eqn:Nn; [discriminate|]. destruct (vnan vx) eqn:Nx; [discriminate|]. cbn in Ec. injection Ec as Ec.
  assert (Le : ~ lex_lt (rank3 vx) (rank3 vn)) by (intros L; apply lex3_Gt in L; congruence).
  assert (N12 : vnan v1 = false /\ vnan v2 = false) by (destruct Sd as [(_ & _ & -> & ->)|(_ & _ & -> & ->)]; auto). destruct N12 as [N1 N2].
  rewrite (val_cmp_num_lex v1 v2 T) in Ho by auto. injection Ho as <-.
  apply (num_eq_rank' _ _ T); auto; destruct Sd as [(U & L & -> & ->)|(U & L & -> & ->)]; intros X; try (now apply Le).
  - apply lex3_Lt in X. rewrite X in Q. destruct c2; discriminate.
  - apply lex3_Gt in X. rewrite X in Q. destruct c2; discriminate.
Qed.
Lemma vclamp_nan vi vn vx T c : numeric T -> val_ty vi = T -> val_ty vn = T -> val_ty vx = T -> vnan vi = true -> val_cmp vn vx = Ok (Some c) -> vclamp vi vn vx = vi.
Proof.
  intros NT Ti Tn Tx Ni Hc. destruct (cmp_same_ty vi vn T NT Ti Tn) as [o1 H1]. destruct (cmp_same_ty vx vi T NT Tx Ti) as [o2 H2].
  unfold vclamp, vlt. rewrite H1, H2. apply val_cmp_rank3 in H1 as [-> _]. apply val_cmp_rank3 in H2 as [-> _]. rewrite Ni, orb_true_r. reflexivity.
Qed.
Lemma num_eq_trans a b c : num_eq a b -> num_eq b c -> num_eq a c.
Proof.
  intros [->|H] H2; auto. destruct a as [| |f|]; try contradiction. destruct b as [| |g|]; try contradiction.
  destruct H2 as [<-|H2]; [right; auto|]. destruct c as [| |h|]; try contradiction. right. rewrite SFcompare_key in *.
  destruct (is_nan f); [discriminate|]. destruct (is_nan g); [discriminate|]. destruct (is_nan h); [discriminate|]. cbn in *.
  injection H as H. injection H2 as H2. apply lex3_Eq in H, H2. f_equal. apply lex3_Eq. congruence.
Qed.
Lemma num_eq_sym a b : num_eq a b -> num_eq b a.
Proof.
  intros [->|H]; [left; auto|]. destruct a as [| |f|]; try contradiction. destruct b as [| |g|]; try contradiction. right.
  rewrite SFcompare_key in *. rewrite (orb_comm (is_nan g)). destruct (is_nan f || is_nan g); [discriminate|]. injection H as H. f_equal. apply lex3_Eq. symmetry. now apply lex3_Eq.
Qed.

Section Stmt.
Variables (m : mode) (p : ptrw) (rho : env) (T : ty) (x : nat) (c1 c2 e1 e2 : expr) (b1 b2 : bin3) (r : imm).
Hypothesis NT : numeric T.
Hypothesis B1 : new_bin c1 = Some b1.
Hypothesis B2 : new_bin c2 = Some b2.
Hypothesis HM : clamp_meta None b1 b2 e1 e2 = Some r.
Hypothesis HI : i_input r = EVar T x.
Hypothesis ML : min_less_than_max p r = true.
Hypothesis Te1 : tyck p e1 = Some T.
Hypothesis Te2 : tyck p e2 = Some T.
Hypothesis N1 : m = Wrapping \/ narrow_shifts p e1 = true.
Hypothesis N2 : m = Wrapping \/ narrow_shifts p e2 = true.

Lemma stmt_facts w : eval m p rho c1 = Ok w -> exists k1 k2 v1 v2 vn vx c o1 o2,
  sides k1 k2 v1 v2 vn vx /\ val_cmp vn vx = Ok (Some c) /\ c <> Gt /\ val_ty (rho x) = T /\ val_wf p (rho x) = true /\
  val_ty v1 = T /\ val_ty v2 = T /\ val_wf p v1 = true /\ val_wf p v2 = true /\
  val_cmp (rho x) v1 = Ok o1 /\ val_cmp (rho x) v2 = Ok o2 /\ w = VB (cmp_of k1 o1) /\
  (forall rho', eval m p rho' e1 = Ok v1 /\ eval m p rho' e2 = Ok v2) /\
  (forall rho' w', val_ty (rho' x) = T -> eval m p rho' c2 = Ok w' -> exists o, val_cmp (rho' x) v2 = Ok o /\ w' = VB (cmp_of k2 o)) /\
  eval m p rho (clamp_sugg r) = Ok (vclamp (rho x) vn vx).
Proof.
  intros Hw. apply new_bin_inv in B1, B2.
  apply clamp_meta_inv in HM as (k1 & k2 & i1 & i2 & S1 & S2 & O1 & O2 & [-> ->] & D). rewrite HI in *.
  assert (Ty : forall rho' v, eval m p rho' (EVar T x) = Ok v -> val_ty v = T) by (intros rho' v Hv; apply eval_var_inv in Hv; tauto).
  rewrite B1 in Hw. pose proof (bin_sem _ _ _ _ _ _ _ _ _ S1 O1 (Ty _) Te1 Hw) as C1.
  apply eval_cmp_inv in C1 as (vi & v1 & o1 & Hi & H1 & Ho1 & ->).
  apply eval_var_inv in Hi as (-> & Yi & Wi).
  destruct (min_less_inv _ _ ML) as (T' & cn & cx & _ & _ & Cx & Cn & _).
  assert (W1 : exists c, ceval p p e1 = Some c) by (destruct D as [(_ & _ & E1 & E2)|(_ & _ & E1 & E2)]; rewrite <- ?E1, <- ?E2; eauto).
  assert (W2 : exists c, ceval p p e2 = Some c) by (destruct D as [(_ & _ & E1 & E2)|(_ & _ & E1 & E2)]; rewrite <- ?E1, <- ?E2; eauto).
  destruct W1 as [w1 W1], W2 as [w2 W2].
  destruct (ceval_total m p rho _ _ _ N2 Te2 W2) as [v2 H2].
  assert (A : forall rho', eval m p rho' e1 = Ok v1 /\ eval m p rho' e2 = Ok v2) by (intros rho'; split; [eapply (const_same m p rho rho' e1)|eapply (const_same m p rho rho' e2)]; eauto).
  assert (exists vn vx, eval m p rho (i_min r) = Ok vn /\ eval m p rho (i_max r) = Ok vx /\ sides k1 k2 v1 v2 vn vx) as (vn & vx & Hn & Hx & Sd).
  { destruct D as [(U & L & -> & ->)|(U & L & -> & ->)]; [exists v2, v1|exists v1, v2]; (split; [auto|split; [auto|]]); [left|right]; auto. }
  destruct (bounds_le _ _ _ _ _ _ ML Hn Hx) as (c & Hc & Ng).
  pose proof (tyck_val _ _ _ _ _ _ Te2 H2) as Y2. pose proof (tyck_val _ _ _ _ _ _ Te1 H1) as Y1.
  pose proof (eval_wf _ _ _ _ _ H1) as [Wf1 _]. pose proof (eval_wf _ _ _ _ _ H2) as [Wf2 _].
  destruct (cmp_same_ty (rho x) v2 T NT Yi Y2) as [o2 Ho2].
  exists k1, k2, v1, v2, vn, vx, c, o1, o2. do 13 (split; [auto|]). split.
  - intros rho' w' Yx Hw'. rewrite B2 in Hw'. pose proof (bin_sem _ _ _ _ _ _ _ _ _ S2 O2 (Ty _) Te2 Hw') as C2.
    apply eval_cmp_inv in C2 as (vi & v2' & o & Hi & H2' & Ho & ->). apply eval_var_inv in Hi as (-> & _ & _).
    destruct (A rho') as [_ A2]. assert (v2' = v2) by congruence. subst. eauto.
  - unfold clamp_sugg. rewrite HI. apply clamp_eval with (T := T) (c := c); auto using eval_var;
      destruct Sd as [(_ & _ & -> & ->)|(_ & _ & -> & ->)]; auto.
Qed.
Lemma vclamp_ty vi vn vx : val_ty vi = T -> val_ty vn = T -> val_ty vx = T -> val_ty (vclamp vi vn vx) = T.
Proof. unfold vclamp. destruct (vlt vi vn); auto. destruct (vlt vx vi); auto. Qed.

Lemma two_if_num : spreserves_num m p rho (SSeq (SIf c1 (SAssign T x e1) SSkip) (SIf c2 (SAssign T x e2) SSkip)) (SAssign T x (clamp_sugg r)).
Proof.
  intros rf H. cbn [exec] in H. apply rbind_Ok in H as (s1 & E & H). apply rbind_Ok in E as (w1 & Hw1 & E).
  destruct (stmt_facts _ Hw1) as (k1 & k2 & v1 & v2 & vn & vx & c & o1 & o2 & Sd & Hc & Ng & Yi & Wi & Y1 & Y2 & Wf1 & Wf2 & Ho1 & Ho2 & -> & A & B & C).
  destruct (chain_facts _ _ _ _ _ _ _ _ _ _ Sd Hc Ng Ho1 Ho2 (numeric_not_opt _ _ NT Yi)) as (F1 & F2 & F3).
  assert (Yc : val_ty (vclamp (rho x) vn vx) = T) by (apply vclamp_ty; auto; destruct Sd as [(_ & _ & -> & ->)|(_ & _ & -> & ->)]; auto).
  exists (upd rho x (vclamp (rho x) vn vx)). split. { cbn [exec]. rewrite C. cbn [rbind]. now rewrite Yc, ty_eqb_refl. }
  assert (G : forall s, exec m p s (SAssign T x e2) = Ok rf -> rf = upd s x v2).
  { intros s Hs. cbn [exec] in Hs. destruct (A s) as [_ A2]. rewrite A2 in Hs. cbn [rbind] in Hs. rewrite Y2, ty_eqb_refl in Hs. congruence. }
  destruct (cmp_of k1 o1) eqn:Q1.
  - cbn [exec] in E. destruct (A rho) as [A1 _]. rewrite A1 in E. cbn [rbind] in E. rewrite Y1, ty_eqb_refl in E. injection E as <-.
    apply rbind_Ok in H as (w2 & E & H).
    destruct (B (upd rho x v1) w2 ltac:(now rewrite upd_same) E) as (o & Ho & ->). rewrite upd_same in Ho.
    intros y. destruct (cmp_of k2 o) eqn:Q2.
    + apply G in H. subst rf. destruct (Nat.eq_dec y x) as [->|Ny]; [|rewrite !upd_other by auto; apply num_eq_refl].
      rewrite !upd_same. eapply num_eq_trans; [|apply F1; auto]. apply num_eq_sym. eapply (second_test v1 v2); eauto.
    + injection H as <-. destruct (Nat.eq_dec y x) as [->|Ny]; [|rewrite !upd_other by auto; apply num_eq_refl]. rewrite !upd_same. auto.
  - injection E as <-. apply rbind_Ok in H as (w2 & E & H). destruct (B rho _ Yi E) as (o & Ho & ->). assert (o = o2) by congruence. subst o.
    intros y. destruct (cmp_of k2 o2) eqn:Q2.
    + apply G in H. subst rf. destruct (Nat.eq_dec y x) as [->|Ny]; [|rewrite !upd_other by auto; apply num_eq_refl]. rewrite !upd_same. auto.
    + injection H as <-. destruct (Nat.eq_dec y x) as [->|Ny]; [|rewrite !upd_other by auto; apply num_eq_refl]. rewrite !upd_same.
      rewrite F3 by auto. apply num_eq_refl.
Qed.
Lemma else_if_num : spreserves_num m p rho (SIf c1 (SAssign T x e1) (SIf c2 (SAssign T x e2) SSkip)) (SAssign T x (clamp_sugg r)).
Proof.
  intros rf H. cbn [exec] in H. inv_bind H. rename v into w1, E into Hw1.
  destruct (stmt_facts _ Hw1) as (k1 & k2 & v1 & v2 & vn & vx & c & o1 & o2 & Sd & Hc & Ng & Yi & Wi & Y1 & Y2 & Wf1 & Wf2 & Ho1 & Ho2 & -> & A & B & C).
  destruct (chain_facts _ _ _ _ _ _ _ _ _ _ Sd Hc Ng Ho1 Ho2 (numeric_not_opt _ _ NT Yi)) as (F1 & F2 & F3).
  assert (Yc : val_ty (vclamp (rho x) vn vx) = T) by (apply vclamp_ty; auto; destruct Sd as [(_ & _ & -> & ->)|(_ & _ & -> & ->)]; auto).
  exists (upd rho x (vclamp (rho x) vn vx)). split. { cbn [exec]. rewrite C. cbn [rbind]. now rewrite Yc, ty_eqb_refl. }
  destruct (A rho) as [A1 A2]. destruct (cmp_of k1 o1) eqn:Q1.
  - rewrite A1 in H. cbn [rbind] in H. rewrite Y1, ty_eqb_refl in H. injection H as <-. intros y.
    destruct (Nat.eq_dec y x) as [->|Ny]; [|rewrite !upd_other by auto; apply num_eq_refl]. rewrite !upd_same. auto.
  - inv_bind H. destruct (B rho _ Yi E) as (o & Ho & ->). assert (o = o2) by congruence. subst o.
    destruct (cmp_of k2 o2) eqn:Q2.
    + rewrite A2 in H. cbn [rbind] in H. rewrite Y2, ty_eqb_refl in H. injection H as <-. intros y.
      destruct (Nat.eq_dec y x) as [->|Ny]; [|rewrite !upd_other by auto; apply num_eq_refl]. rewrite !upd_same. auto.
    + injection H as <-. intros y. destruct (Nat.eq_dec y x) as [->|Ny]; [|rewrite !upd_other by auto; apply num_eq_refl]. rewrite !upd_same.
      rewrite F3 by auto. apply num_eq_refl.
Qed.
End Stmt.
