(** Proofs about manual_range_contains, min_max and unnecessary_min_or_max. *)
From Coq Require Import SpecFloat.
From Verif Require Import RustFacts LintSpec RustTyping RustStmt ConstModel ConstProofs ConstMore ConstTotal FloatFacts ClampModel ClampProofs SatProofs CmpModel RangeModel.
Open Scope Z_scope.

(** ** manual_range_contains *)
Definition cop_of (ord : comparison) (inc : bool) : cop :=
  match ord, inc with Lt, false => CLt | Lt, true => CLe | Gt, false => CGt | _, _ => CGe end.
Lemma crb_inv p e b : check_range_bounds p e = Some b ->
  (rb_ord b = Lt \/ rb_ord b = Gt) /\ (exists t x, rb_name b = EVar t x) /\ ceval p p (rb_expr b) = Some (rb_val b) /\
  (e = EBin (BC (cop_of (rb_ord b) (rb_inc b))) (rb_name b) (rb_expr b) \/
   e = EBin (BC (ord_reverse (cop_of (rb_ord b) (rb_inc b)))) (rb_expr b) (rb_name b)).
Proof.
  unfold check_range_bounds. destruct e as [| | | | | |o l r| | | | | |]; try discriminate. destruct o as [|c| |]; try discriminate.
  assert (V : forall (inc : bool) ord, (ord = Lt \/ ord = Gt) -> c = cop_of ord inc ->
    match l, r with
          | EVar _ _, _ =>
              match ceval p p r with
              | Some c => Some {| rb_val := c; rb_expr := r; rb_name := l; rb_ord := ord; rb_inc := inc |}
              | None => None
              end
          | _, EVar _ _ =>
              match ceval p p l with
              | Some c => Some {| rb_val := c; rb_expr := l; rb_name := r; rb_ord := CompOpp ord; rb_inc := inc |}
              | None => None
              end
          | _, _ => None
          end = Some b ->
     (rb_ord b = Lt \/ rb_ord b = Gt) /\ (exists t x, rb_name b = EVar t x) /\ ceval p p (rb_expr b) = Some (rb_val b) /\
  (EBin (BC c) l r = EBin (BC (cop_of (rb_ord b) (rb_inc b))) (rb_name b) (rb_expr b) \/
   EBin (BC c) l r = EBin (BC (ord_reverse (cop_of (rb_ord b) (rb_inc b)))) (rb_expr b) (rb_name b))).
  { intros inc ord O -> H.
    assert (H' : (exists t x k, l = EVar t x /\ ceval p p r = Some k /\ b = {| rb_val := k; rb_expr := r; rb_name := l; rb_ord := ord; rb_inc := inc |}) \/
                 (exists t x k, r = EVar t x /\ ceval p p l = Some k /\ b = {| rb_val := k; rb_expr := l; rb_name := r; rb_ord := CompOpp ord; rb_inc := inc |})).
    { clear O. destruct l; try (left; destruct (ceval p p r) eqn:E; [|discriminate]; injection H as <-; eauto 8; fail).
      all: right; destruct r; try discriminate.
      all: match type of H with match ?q with _ => _ end = _ => destruct q eqn:E end; [|discriminate]; injection H as <-; eauto 8. }
    destruct H' as [(t & x & k & E1 & E2 & ->)|(t & x & k & E1 & E2 & ->)]; cbn [rb_ord rb_name rb_expr rb_val rb_inc].
    - split; [auto|]. split; [eauto|]. auto.
    - split; [destruct O as [->| ->]; auto|]. split; [eauto|]. split; [auto|]. right. destruct O as [->| ->], inc; reflexivity. }
  destruct c; try discriminate; intros H; (eapply V; [| |exact H]); auto.
Qed.

Lemma tyck_cmp p c a b : tyck p (EBin (BC c) a b) = Some TB -> exists T, tyck p a = Some T /\ tyck p b = Some T.
Proof.
  cbn [tyck]. destruct (tyck p a) as [[x| | |]|], (tyck p b) as [[y| | |]|]; try discriminate; eauto.
  destruct (ity_eqb x y) eqn:E; [|discriminate]. apply ity_eqb_eq in E. subst. eauto.
Qed.
Lemma ns_cmp p c a b : narrow_shifts p (EBin (BC c) a b) = true -> narrow_shifts p a = true /\ narrow_shifts p b = true.
Proof. cbn [narrow_shifts]. intros H. apply andb_prop in H as [H _]. now apply andb_prop in H. Qed.

(** The comparison has the value of the test of the variable against the bound. *)
Lemma crb_sem m p rho e b v : check_range_bounds p e = Some b -> tyck p e = Some TB -> (m = Wrapping \/ narrow_shifts p e = true) ->
  eval m p rho (rb_name b) = Ok v -> exists vb o, eval m p rho (rb_expr b) = Ok vb /\ val_cmp v vb = Ok o /\
    eval m p rho e = Ok (VB (cmp_of (cop_of (rb_ord b) (rb_inc b)) o)) /\
    ((forall t, val_ty v <> TO t)) /\ (is_float (rb_expr b) = false -> val_ty v <> TF).
Proof.
  intros H Te N Hx. apply crb_inv in H as (O & _ & C & Sh).
  assert (exists T, tyck p (rb_name b) = Some T /\ tyck p (rb_expr b) = Some T) as (T & Tn & Tb).
  { destruct Sh as [->| ->]; apply tyck_cmp in Te as (T & A & B); eauto. }
  assert (Nb : m = Wrapping \/ narrow_shifts p (rb_expr b) = true).
  { destruct N as [N|N]; [auto|right]. destruct Sh as [->| ->]; apply ns_cmp in N as [A B]; auto. }
  destruct (ceval_total m p rho _ _ _ Nb Tb C) as [vb Hb]. pose proof (tyck_val _ _ _ _ _ _ Tn Hx) as Yx. pose proof (tyck_val _ _ _ _ _ _ Tb Hb) as Yb.
  pose proof (ceval_sound_denotes _ _ _ _ _ _ C Hb) as D.
  assert (NO : forall t, T <> TO t). { intros t ->. destruct vb; try discriminate. destruct (rb_val b); contradiction. }
  assert (exists o, val_cmp v vb = Ok o) as (o & Ho).
  { destruct v, vb; cbn in Yx, Yb; subst T; try discriminate; cbn; try (eexists; reflexivity).
    - injection Yb as ->. rewrite ity_eqb_refl. eexists. reflexivity.
    - exfalso. eapply NO; reflexivity. }
  exists vb, o. split; [auto|]. split; [auto|]. split; [|split].
  - destruct Sh as [->| ->]; cbn [eval].
    + rewrite Hx, Hb. cbn [rbind]. now rewrite Ho.
    + rewrite Hx, Hb. cbn [rbind]. rewrite (val_cmp_antisym _ _ _ Ho). cbn [rbind]. do 2 f_equal.
      destruct O as [->| ->], (rb_inc b); destruct o as [[]|]; reflexivity.
  - intros t. rewrite Yx. apply NO.
  - intros F Q. rewrite Yx in Q. rewrite Q in Tb. unfold is_float in F. apply tyck_ty_of in Tb. rewrite Tb in F. discriminate.
Qed.
Lemma crb_name_ok m p rho e b w : check_range_bounds p e = Some b -> eval m p rho e = Ok w -> exists v, eval m p rho (rb_name b) = Ok v.
Proof.
  intros H He. apply crb_inv in H as (_ & _ & _ & [->| ->]); apply eval_cmp_inv in He as (va & vb & o & A & B & _); eauto.
Qed.

Lemma cmp_total_nf a b o : val_cmp a b = Ok o -> val_ty a <> TF -> o <> None.
Proof. destruct a as [ta x|x|x|], b as [tb y|y|y|]; cbn; try discriminate; try congruence. destruct (ity_eqb ta tb); [congruence|discriminate]. Qed.
Definition combine (ca : bool) (x y : bool) : bool := if ca then x && y else x || y.
Lemma pair_sem m p rho ca l r q w : range_contains_pair p ca l r = Some q -> tyck p l = Some TB -> tyck p r = Some TB ->
  (m = Wrapping \/ narrow_shifts p l = true /\ narrow_shifts p r = true) -> eval m p rho l = Ok w ->
  exists bl br, eval m p rho l = Ok (VB bl) /\ eval m p rho r = Ok (VB br) /\ eval m p rho q = Ok (VB (combine ca bl br)).
Proof.
  intros H Tl Tr N Hw. unfold range_contains_pair in H. destruct (check_range_bounds p l) as [bl|] eqn:Bl; [|discriminate].
  destruct (check_range_bounds p r) as [br|] eqn:Br; [|discriminate].
  destruct (expr_eqb (rb_name bl) (rb_name br)) eqn:En; [|discriminate]. apply expr_eqb_eq in En. cbn [negb orb] in H.
  destruct (cmp_eqb (rb_ord bl) (rb_ord br)) eqn:Eo; [discriminate|].
  destruct (crb_name_ok _ _ _ _ _ _ Bl Hw) as [v Hv].
  assert (N1 : m = Wrapping \/ narrow_shifts p l = true) by tauto. assert (N2 : m = Wrapping \/ narrow_shifts p r = true) by tauto.
  destruct (crb_sem _ _ _ _ _ _ Bl Tl N1 Hv) as (v1 & o1 & H1 & C1 & E1 & NO & S1).
  pose proof Hv as Hv'. rewrite En in Hv'.
  destruct (crb_sem _ _ _ _ _ _ Br Tr N2 Hv') as (v2 & o2 & H2 & C2 & E2 & _ & S2).
  exists (cmp_of (cop_of (rb_ord bl) (rb_inc bl)) o1), (cmp_of (cop_of (rb_ord br) (rb_inc br)) o2). split; [auto|]. split; [auto|].
  pose proof (val_cmp_antisym _ _ _ C1) as C1'. pose proof (val_cmp_antisym _ _ _ C2) as C2'.
  destruct (ty_of (rb_expr bl)) as [tl|] eqn:Tyl; [|discriminate].
  destruct (const_partial_cmp p tl (rb_val bl) (rb_val br)) as [ord|]; [|discriminate].
  apply crb_inv in Bl as (O1 & _). apply crb_inv in Br as (O2 & _).
  destruct ca; cbn [andb negb] in H.
  - destruct (cmp_eqb ord (rb_ord br)); [|discriminate].
    destruct (rb_ord br) eqn:Or; [destruct O2; discriminate| |]; cbn [cmp_eqb] in H.
    + destruct (rb_inc bl) eqn:Il; [|discriminate]. injection H as <-. destruct O1 as [O1|O1]; rewrite O1 in *; [discriminate|].
      cbn [eval]. rewrite H1, H2, Hv. cbn [rbind]. rewrite C1', C2. cbn [rbind]. do 2 f_equal. cbn [combine].
      destruct (rb_inc br), o1 as [[]|], o2 as [[]|]; reflexivity.
    + destruct (rb_inc br) eqn:Ir; [|discriminate]. injection H as <-. destruct O1 as [O1|O1]; rewrite O1 in *; [|discriminate].
      cbn [eval]. rewrite H1, H2, Hv. cbn [rbind]. rewrite C1, C2'. cbn [rbind]. do 2 f_equal. cbn [combine].
      destruct (rb_inc bl), o1 as [[]|], o2 as [[]|]; reflexivity.
  - destruct (cmp_eqb ord (rb_ord bl)); [|discriminate]. destruct (is_float (rb_expr bl)) eqn:Fl; [discriminate|].
    specialize (S1 eq_refl).
    pose proof (cmp_total_nf _ _ _ C1 S1). pose proof (cmp_total_nf _ _ _ C2 S1).
    destruct o1 as [o1|]; [|congruence]. destruct o2 as [o2|]; [|congruence].
    destruct (rb_ord bl) eqn:Ol; [destruct O1; discriminate| |]; cbn [cmp_eqb] in H.
    + destruct (rb_inc bl) eqn:Il; [discriminate|]. injection H as <-. destruct O2 as [O2|O2]; rewrite O2 in *; [discriminate|].
      cbn [eval]. rewrite H1, H2, Hv. cbn [rbind]. rewrite C1', C2. cbn [rbind]. do 2 f_equal. cbn [combine].
      destruct (rb_inc br), o1, o2; reflexivity.
    + destruct (rb_inc br) eqn:Ir; [discriminate|]. injection H as <-. destruct O2 as [O2|O2]; rewrite O2 in *; [|discriminate].
      cbn [eval]. rewrite H1, H2, Hv. cbn [rbind]. rewrite C1, C2'. cbn [rbind]. do 2 f_equal. cbn [combine].
      destruct (rb_inc bl), o1, o2; reflexivity.
Qed.

Lemma combine_eval m p rho o ca l r bl br : range_combiner o = Some ca -> eval m p rho l = Ok (VB bl) -> eval m p rho r = Ok (VB br) ->
  eval m p rho (EBin o l r) = Ok (VB (combine ca bl br)).
Proof.
  intros C L R. destruct o as [[]| | |]; try discriminate; injection C as <-; cbn [eval]; rewrite L; cbn [rbind]; rewrite ?R; cbn [rbind]; auto;
    destruct bl; cbn; auto.
Qed.
Lemma tyck_comb p o ca l r : range_combiner o = Some ca -> tyck p (EBin o l r) = Some TB -> tyck p l = Some TB /\ tyck p r = Some TB.
Proof.
  intros C. destruct o as [[]| | |]; try discriminate; cbn [tyck]; destruct (tyck p l) as [[x| | |]|], (tyck p r) as [[y| | |]|]; try discriminate; auto;
    try (destruct (ity_eqb _ _); discriminate).
Qed.
Lemma ns_comb p o l r : narrow_shifts p (EBin o l r) = true -> narrow_shifts p l = true /\ narrow_shifts p r = true.
Proof. cbn [narrow_shifts]. intros H. apply andb_prop in H as [H _]. now apply andb_prop in H. Qed.
Lemma binop_same_eq o o' : binop_same o o' = true -> o' = o.
Proof. destruct o as [[]| | |], o' as [[]| | |]; try discriminate; auto. Qed.
Lemma comb_left_ok m p rho o ca l r w : range_combiner o = Some ca -> eval m p rho (EBin o l r) = Ok w -> exists v, eval m p rho l = Ok v.
Proof.
  intros C H. destruct o as [[]| | |]; try discriminate; cbn [eval] in H; apply rbind_Ok in H as (v & E & _); eauto.
Qed.

Lemma Ok_dec {A} (r : res A) : (exists v, r = Ok v) \/ (forall v, r <> Ok v).
Proof. destruct r; [left; eauto|right; congruence..]. Qed.
Lemma range_contains_correct m p rho e e' : In e' (range_contains p e) -> tyck p e = Some TB ->
  (m = Wrapping \/ narrow_shifts p e = true) -> preserves m p rho e e'.
Proof.
  intros H Te N v Hv. unfold range_contains in H. destruct e as [| | | | | |o l r| | | | | |]; try contradiction.
  destruct (range_combiner o) as [ca|] eqn:C; [|contradiction]. destruct (tyck_comb _ _ _ _ _ C Te) as [Tl Tr].
  assert (N' : m = Wrapping \/ narrow_shifts p l = true /\ narrow_shifts p r = true) by (destruct N as [N|N]; [auto|right; now apply ns_comb in N]).
  apply in_app_or in H as [H|H].
  - destruct (range_contains_pair p ca l r) as [q|] eqn:Q; [|contradiction]. destruct H as [->|[]].
    destruct (comb_left_ok _ _ _ _ _ _ _ _ C Hv) as [w Hw].
    destruct (pair_sem _ _ _ _ _ _ _ _ Q Tl Tr N' Hw) as (bl & br & El & Er & Eq). rewrite (combine_eval _ _ _ _ _ _ _ _ _ C El Er) in Hv. congruence.
  - destruct l as [| | | | | |o' a b| | | | | |]; try contradiction. destruct (binop_same o o') eqn:S; [|contradiction].
    apply binop_same_eq in S. subst o'. destruct (range_contains_pair p ca b r) as [q|] eqn:Q; [|contradiction]. destruct H as [<-|[]].
    destruct (tyck_comb _ _ _ _ _ C Tl) as [Ta Tb].
    assert (Nb : m = Wrapping \/ narrow_shifts p b = true /\ narrow_shifts p r = true).
    { destruct N' as [?|[N1 N2]]; [auto|right]. apply ns_comb in N1 as [_ ?]. auto. }
    destruct (comb_left_ok _ _ _ _ _ _ _ _ C Hv) as [w Hw]. destruct (comb_left_ok _ _ _ _ _ _ _ _ C Hw) as [wa Ha].
    pose proof (tyck_val _ _ _ _ _ _ Ta Ha) as Ya. destruct wa as [|ba| |]; try discriminate.
    destruct (Ok_dec (eval m p rho b)) as [[wb Hb]|Nb'].
    + destruct (pair_sem _ _ _ _ _ _ _ _ Q Tb Tr Nb Hb) as (bl & br & El & Er & Eq).
      rewrite (combine_eval _ _ _ _ _ _ _ _ _ C (combine_eval _ _ _ _ _ _ _ _ _ C Ha El) Er) in Hv.
      rewrite (combine_eval _ _ _ _ _ _ _ _ _ C Ha Eq). rewrite <- Hv. do 2 f_equal. unfold combine. destruct ca; [apply andb_assoc|apply orb_assoc].
    + destruct o as [[]| | |]; try discriminate; cbn [eval] in Hv, Hw |- *; rewrite Ha in *; cbn [rbind] in *.
      * apply rbind_Ok in Hw as (? & Hw & _). exfalso. eapply Nb'. eauto.
      * apply rbind_Ok in Hw as (? & Hw & _). exfalso. eapply Nb'. eauto.
      * destruct ba; [|exact Hv]. apply rbind_Ok in Hw as (? & Hw & _). exfalso. eapply Nb'. eauto.
      * destruct ba; [exact Hv|]. apply rbind_Ok in Hw as (? & Hw & _). exfalso. eapply Nb'. eauto.
Qed.

(** ** min_max *)
Lemma fetch_inv p e mx c x : fetch_min_max p e = Some (mx, c, x) ->
  exists k ce, mm_kind k = Some mx /\ eval_local p p ce = Some c /\ (e = EM1 k ce x \/ e = EM1 k x ce).
Proof.
  unfold fetch_min_max. destruct e as [| | | | | | | | |k a b| | |]; try discriminate. destruct (mm_kind k) as [m|] eqn:K; [|discriminate].
  destruct (eval_local p p a) eqn:A, (eval_local p p b) eqn:B; try discriminate; intros [= <- <- <-]; eauto 10.
Qed.
Lemma eval_local_ceval p e c : eval_local p p e = Some c -> ceval p p e = Some c.
Proof. unfold eval_local. destruct (all_local e); [auto|discriminate]. Qed.
Lemma mm_kind_inv k mx : mm_kind k = Some mx -> k = if mx then MMax else MMin.
Proof. destruct k; try discriminate; now intros [= <-]. Qed.
Definition vmm (mx : bool) : val -> val -> res val := if mx then vmax else vmin.
Lemma fetch_sem m p rho e mx c x T v : fetch_min_max p e = Some (mx, c, x) -> tyck p e = Some T -> numeric T -> eval m p rho e = Ok v ->
  tyck p x = Some T /\ exists vc vx, eval m p rho x = Ok vx /\ denotes p c vc /\ val_wf p vc = true /\ val_ty vc = T /\ val_ty vx = T /\
    (vmm mx vc vx = Ok v \/ vmm mx vx vc = Ok v).
Proof.
  intros H Te NT Hv. apply fetch_inv in H as (k & ce & K & L & Sh). apply eval_local_ceval in L. apply mm_kind_inv in K.
  assert (Kc : k = MMin \/ k = MMax) by (subst k; destruct mx; auto).
  destruct Sh as [->| ->]; apply tyck_mm in Te as [Ta Tb]; auto; split; auto; apply eval_mm in Hv as (va & vb & Ha & Hb & R); auto.
  - exists va, vb. pose proof (eval_wf _ _ _ _ _ Ha) as [Wa _]. split; [auto|]. split; [exact (ceval_sound_denotes _ _ _ _ _ _ L Ha)|]. split; [auto|].
    split; [exact (tyck_val _ _ _ _ _ _ Ta Ha)|]. split; [exact (tyck_val _ _ _ _ _ _ Tb Hb)|]. left. subst k. destruct mx; exact R.
  - exists vb, va. pose proof (eval_wf _ _ _ _ _ Hb) as [Wb _]. split; [auto|]. split; [exact (ceval_sound_denotes _ _ _ _ _ _ L Hb)|]. split; [auto|].
    split; [exact (tyck_val _ _ _ _ _ _ Tb Hb)|]. split; [exact (tyck_val _ _ _ _ _ _ Ta Ha)|]. right. subst k. destruct mx; exact R.
Qed.
(** A minimum or maximum with a number is a number on that side of it, also when the other operand is NaN. *)
Lemma vmm_side (mx : bool) a b u T : numeric T -> val_ty a = T -> val_ty b = T -> vnan a = false -> (vmm mx a b = Ok u \/ vmm mx b a = Ok u) ->
  vnan u = false /\ val_ty u = T /\ if mx then ~ lex_lt (rank3 u) (rank3 a) else ~ lex_lt (rank3 a) (rank3 u).
Proof.
  intros NT A B Na H. destruct (vnan b) eqn:Nb.
  - assert (u = a).
    { destruct b as [|?|y|]; try discriminate. cbn in B. subst T. destruct a as [| |x|]; try discriminate. cbn in Na, Nb.
      destruct mx, H as [H|H]; cbn in H; injection H as <-; unfold fmin, fmax; rewrite Na, Nb; reflexivity. }
    subst u. split; [auto|]. split; [auto|]. destruct (rank3 a) as [[a1 a2] a3]; destruct mx; cbn; lia.
  - destruct mx; cbn [vmm] in H.
    + assert (vnan u = false /\ val_ty u = T /\ ~ lex_lt (rank3 u) (rank3 a)) as QQ; [|exact QQ].
      destruct H as [H|H]; apply (vmax_pick _ _ _ T) in H; auto; destruct H as (Nu & Tu & [[-> L]|[-> L]]); repeat split; auto;
        destruct (rank3 a) as [[a1 a2] a3], (rank3 b) as [[b1 b2] b3]; cbn in *; lia.
    + assert (vnan u = false /\ val_ty u = T /\ ~ lex_lt (rank3 a) (rank3 u)) as QQ; [|exact QQ].
      destruct H as [H|H]; apply (vmin_pick _ _ _ T) in H; auto; destruct H as (Nu & Tu & [[-> L]|[-> L]]); repeat split; auto;
        destruct (rank3 a) as [[a1 a2] a3], (rank3 b) as [[b1 b2] b3]; cbn in *; lia.
Qed.
Lemma vmm_far (mx : bool) a u v T : numeric T -> val_ty a = T -> val_ty u = T -> vnan a = false -> vnan u = false ->
  (if mx then ~ lex_lt (rank3 a) (rank3 u) else ~ lex_lt (rank3 u) (rank3 a)) -> (vmm mx a u = Ok v \/ vmm mx u a = Ok v) -> num_eq v a.
Proof.
  intros NT A U Na Nu L H. destruct mx; cbn [vmm] in H.
  - destruct H as [H|H]; apply (vmax_pick _ _ _ T) in H; auto; destruct H as (Nv & Tv & [[-> L']|[-> L']]); try apply num_eq_refl; apply (num_eq_rank' _ _ T); auto.
  - destruct H as [H|H]; apply (vmin_pick _ _ _ T) in H; auto; destruct H as (Nv & Tv & [[-> L']|[-> L']]); try apply num_eq_refl; apply (num_eq_rank' _ _ T); auto.
Qed.
Lemma min_max_value m p rho e T v : min_max_lint p e = true -> tyck p e = Some T -> numeric T -> eval m p rho e = Ok v ->
  exists mx c x vc, fetch_min_max p e = Some (mx, c, x) /\ denotes p c vc /\ val_wf p vc = true /\ val_ty vc = T /\ num_eq v vc.
Proof.
  unfold min_max_lint. intros H Te NT Hv. destruct (fetch_min_max p e) as [[[om oc] oe]|] eqn:F; [|discriminate].
  destruct (fetch_sem _ _ _ _ _ _ _ _ _ F Te NT Hv) as (To & vc & u & Hu & Dc & Wc & Yc & Yu & R).
  destruct (fetch_min_max p oe) as [[[im ic] ie]|] eqn:F'; [|discriminate].
  destruct (fetch_sem _ _ _ _ _ _ _ _ _ F' To NT Hu) as (Ti & vi & x & Hx & Di & Wi & Yi & Yx & R').
  apply andb_prop in H as [D H]. destruct (ty_of ie) as [ti|] eqn:Tie; [|discriminate].
  assert (ti = T). { apply tyck_ty_of in Ti. congruence. } subst ti.
  destruct (const_partial_cmp p T oc ic) as [ord|] eqn:C; [|discriminate].
  pose proof (const_cmp_agrees p T oc ic vc vi Wc Wi Yc Yi Dc Di) as Hc. rewrite C in Hc.
  apply val_cmp_rank3 in Hc as [Ec _]. destruct (vnan vc) eqn:Nc; [discriminate|]. destruct (vnan vi) eqn:Ni; [discriminate|]. cbn in Ec. injection Ec as Ec.
  destruct (vmm_side _ _ _ _ _ NT Yi Yx Ni R') as (Nu & _ & S).
  exists om, oc, oe, vc. repeat (split; [auto; fail|]). apply (vmm_far om vc u v T); auto.
  pose proof (lex3_Lt (rank3 vc) (rank3 vi)) as LL. pose proof (lex3_Gt (rank3 vc) (rank3 vi)) as LG.
  destruct om, im; try discriminate; cbn in D.
  - assert (~ lex_lt (rank3 vc) (rank3 vi)). { intros Q. apply LL in Q. rewrite Q in Ec. subst ord. discriminate. }
    clear -H0 S. destruct (rank3 vc) as [[a1 a2] a3], (rank3 vi) as [[b1 b2] b3], (rank3 u) as [[c1 c2] c3]. cbn in *. lia.
  - assert (~ lex_lt (rank3 vi) (rank3 vc)). { intros Q. apply LG in Q. rewrite Q in Ec. subst ord. discriminate. }
    clear -H0 S. destruct (rank3 vc) as [[a1 a2] a3], (rank3 vi) as [[b1 b2] b3], (rank3 u) as [[c1 c2] c3]. cbn in *. lia.
Qed.

(** ** unnecessary_min_or_max *)
Lemma detect_sem m p rho e mx t z : detect_extrema p e = Some mx -> eval m p rho e = Ok (VI t z) -> z = if mx then imax p t else imin p t.
Proof.
  unfold detect_extrema. intros H Hv. destruct (ty_of e) as [[t0| | |]|] eqn:Te; try discriminate.
  pose proof (eval_wf _ _ _ _ _ Hv) as [W Y]. specialize (Y _ Te). cbn in Y. injection Y as <-.
  destruct (ceval p p e) as [c|] eqn:C; [|discriminate]. pose proof (ceval_sound_denotes _ _ _ _ _ _ C Hv) as D.
  destruct (int_value p c (Some (TI t))) as [fi|] eqn:I; [|discriminate].
  pose proof (int_value_sound p c t z fi W D I) as Hz.
  assert (Sg : match fi with FS _ => ity_signed t = true | FU _ => ity_signed t = false end).
  { destruct c as [u| |]; try contradiction. cbn [int_value] in I. apply Some_inj in I. subst fi. destruct (ity_signed t); auto. }
  destruct fi as [i|i]; cbn [fi_val] in Hz; subst i.
  - assert ((if z =? imin p t then Some false else if z =? imax p t then Some true else None) = Some mx) as H' by (destruct (ity_size t); congruence || discriminate).
    destruct (Z.eqb_spec z (imin p t)); [injection H' as <-; auto|]. destruct (Z.eqb_spec z (imax p t)); [injection H' as <-; auto|discriminate].
  - unfold imin, imax. rewrite Sg. destruct (Z.eqb_spec z (2 ^ bits p t - 1)); [injection H as <-; auto|]. destruct (Z.eqb_spec z 0); [injection H as <-; auto|discriminate].
Qed.
Lemma mm_suggest_sem m p rho (mx : bool) recv arg ord t x y k : k = (if mx then MMax else MMin) -> eval m p rho recv = Ok (VI t x) -> eval m p rho arg = Ok (VI t y) ->
  (match ord with Lt => x <= y | Eq => x = y | Gt => y <= x end) -> forall v, eval m p rho (EM1 k recv arg) = Ok v -> eval m p rho (mm_suggest mx recv arg ord) = Ok v.
Proof.
  intros -> A B O v Hv. cbn [eval] in Hv. rewrite A, B in Hv. cbn [rbind] in Hv.
  assert (v = VI t (if mx then Z.max x y else Z.min x y)) as ->.
  { destruct mx; cbn [sem1] in Hv; rewrite ity_eqb_refl in Hv; congruence. }
  unfold mm_suggest. destruct mx, ord; cbn; rewrite ?A, ?B; do 2 f_equal; lia.
Qed.
Lemma unnecessary_mm_correct m p rho e e' t : unnecessary_min_max p e = Some e' -> tyck p e = Some (TI t) -> preserves m p rho e e'.
Proof.
  unfold unnecessary_min_max. intros H Te v Hv. destruct e as [| | | | | | | | |k recv arg| | |]; try discriminate.
  destruct (mm_kind k) as [mx|] eqn:K; [|discriminate]. apply mm_kind_inv in K. destruct (is_float recv); [discriminate|].
  assert (Kc : k = MMin \/ k = MMax) by (subst k; destruct mx; auto).
  pose proof Te as Te'. apply tyck_mm in Te' as [Tr Ta]; auto; [|right; eauto].
  pose proof (eval_mm _ _ _ _ _ _ _ Kc Hv) as (vr & va & Hr & Ha & _).
  pose proof (tyck_val _ _ _ _ _ _ Tr Hr) as Yr. pose proof (tyck_val _ _ _ _ _ _ Ta Ha) as Ya.
  destruct vr as [tr x| | |]; try discriminate. destruct va as [ta y| | |]; try discriminate. cbn in Yr, Ya. injection Yr as ->. injection Ya as ->.
  pose proof (eval_VI_range _ _ _ _ _ _ Hr) as Rx. pose proof (eval_VI_range _ _ _ _ _ _ Ha) as Ry.
  assert (Fb : match detect_extrema p recv with
              | Some mx0 => Some (mm_suggest mx recv arg (if mx0 then Gt else Lt))
              | None => option_map (fun mx0 : bool => mm_suggest mx recv arg (if mx0 then Lt else Gt)) (detect_extrema p arg)
              end = Some e' -> eval m p rho e' = Ok v).
  { intros F. apply inr_iff in Rx, Ry. destruct (detect_extrema p recv) as [m0|] eqn:D.
    - injection F as <-. apply (detect_sem m p rho _ _ t x) in D; auto. eapply mm_suggest_sem; eauto. destruct m0; lia.
    - destruct (detect_extrema p arg) as [m0|] eqn:D'; [|discriminate]. injection F as <-. apply (detect_sem m p rho _ _ t y) in D'; auto. eapply mm_suggest_sem; eauto. destruct m0; lia. }
  destruct (eval_local p p recv) as [l|] eqn:L; [|auto]. destruct (eval_local p p arg) as [r|] eqn:R; [|auto]. destruct (ty_of recv) as [T|] eqn:TT; [|auto].
  apply eval_local_ceval in L, R. apply tyck_ty_of in Tr. assert (T = TI t) as -> by congruence.
  rewrite (const_partial_cmp_int p t x y l r Rx Ry) in H; [|eapply ceval_sound_denotes; eauto|eapply ceval_sound_denotes; eauto].
  cbn [option_map] in H. injection H as <-. eapply mm_suggest_sem; eauto. destruct (Z.compare_spec x y); lia.
Qed.
