(* Lemmas for P_Mem.v: what the suggestion does. *)
From Coq Require Import List ZArith Bool Lia.
Import ListNotations.
From Verif Require Import MemSpec MemModel MemProofs MemProofs2.
Open Scope Z_scope.

Lemma ev_same : forall s s', (forall x, var s' x = var s x) -> (forall q, size s' q = size s q) ->
  forall e, ev s' e = ev s e.
Proof.
  intros s s' V S; induction e; cbn [ev]; rewrite ?V, ?S, ?IHe1, ?IHe2, ?IHe; reflexivity.
Qed.
Lemma same_res_local : forall x c, same_res (BLocal x) c = true -> c = BLocal x.
Proof. intros x [y|y]; unfold same_res; cbn [res_local_id]; intro Q; [apply PeanoNat.Nat.eqb_eq in Q; subst; reflexivity | discriminate]. Qed.

Lemma base_dec : forall x y : base, {x = y} + {x <> y}.
Proof. decide equality; apply PeanoNat.Nat.eq_dec. Defined.

Section Suggestion.
Variable s0 : st.
Variable alen : base -> option Z.
Variables (lo hi : ix) (closed : bool) (i : nat) (inits : list (nat * ix)) (body : list stmt).
Let cs := get_loop_counters inits body.
Let ss : starts := (i, KRange) :: cs.
Variables a b n : Z.
Hypothesis Hlo : ev s0 lo = Some a.
Hypothesis Hhi : ev s0 hi = Some b.
Hypothesis Hn : n = rounds closed a b.
Hypothesis Hn1 : 0 < n.
Hypothesis Hinit : forall x c, In (x, c) inits -> x <> i /\ ev s0 c = Some (var s0 x).
Hypothesis Hsize : forall q, size s0 q < W.
Hypothesis Halen : forall q z, alen q = Some z -> size s0 q = z.
Hypothesis Hlen : forall q, hi = ILen q -> closed = false /\ exists x, q = BLocal x.
Hypothesis Hroom : forall e x z, In e (indices body) -> In x (vars e) -> In (SAdd x 1) body -> ev s0 e = Some z ->
  0 <= z - var s0 x + b /\ z + b < W.
Notation pos := (pos s0 i inits body a).
Notation known := (known s0 i inits body).
Notation val := (val s0).

Lemma limit_ok : forall q e z, 0 <= z <= size s0 q -> ev s0 e = Some (if closed then z - 1 else z) ->
  bound s0 (print_limit hi closed q e) (size s0 q) = Some z.
Proof.
  intros q e z R E; pose proof (Hsize q) as S.
  assert (D : bound s0 (Some (if closed then madd e (ILit 1) else e)) (size s0 q) = Some z).
  { cbn [bound]; destruct closed; [|exact E].
    replace (Some z) with (Some (z - 1 + 1)) by (f_equal; lia).
    apply madd_ev; [exact E | reflexivity | lia]. }
  unfold print_limit; destruct hi as [m|x|r|u v|u v|u] eqn:Eh; try exact D.
  destruct (same_res r q) eqn:Sr; [|exact D].
  destruct (Hlen r eq_refl) as [Ec [x ->]]; apply same_res_local in Sr; subst q; rewrite Ec in E.
  destruct (ix_eqb e (ILen (BLocal x))) eqn:Ee; cbn [bound]; [|exact E].
  apply ix_eqb_eq in Ee; subst e; cbn [ev] in E; apply fit_some in E; destruct E as [-> _]; reflexivity.
Qed.
Lemma offset_ok : forall e z, ev s0 e = Some z -> bound s0 (print_offset e) 0 = Some z.
Proof.
  intros e z E; unfold print_offset; destruct (ix_eqb e (ILit 0)) eqn:Q; cbn [bound]; [|exact E].
  apply ix_eqb_eq in Q; subst e; cbn [ev] in E; apply fit_some in E; destruct E as [-> _]; reflexivity.
Qed.

Lemma slice_ok : forall q e k o, In e (indices body) -> details ss e = Some (k, o) -> known e ->
  0 <= pos e -> pos e + n <= size s0 q ->
  bound s0 (fst (offset_and_limit lo hi closed q k o)) 0 = Some (pos e) /\
  bound s0 (snd (offset_and_limit lo hi closed q k o)) (size s0 q) = Some (pos e + n).
Proof.
  intros q e k [p o] Je D [k' [p' [o' [w [D' Ew]]]]] P0 P1.
  pose proof (eq_trans (eq_sym D) D') as X.
  injection X as -> -> ->; clear D'.
  assert (Ep : pos e = from s0 a k' + sgn p' w).
  { unfold MemProofs2.pos; fold cs; fold ss; rewrite D; unfold MemProofs2.val; rewrite Ew; reflexivity. }
  pose proof (Hsize q) as S.
  pose proof (ev_fit _ _ _ Hlo) as Ra; pose proof (ev_fit _ _ _ Hhi) as Rb.
  destruct k' as [|c]; cbn [offset_and_limit fst snd from] in *.
  - split.
    + apply offset_ok; rewrite Ep; apply apply_ev; [exact Hlo | exact Ew | lia].
    + apply limit_ok; [lia|].
      assert (Q : b + sgn p' w = if closed then pos e + n - 1 else pos e + n) by (rewrite Ep, Hn; unfold rounds; destruct closed; lia).
      rewrite <- Q; apply apply_ev; [exact Hhi | exact Ew | rewrite Q; destruct closed; lia].
  - destruct (details_ev _ _ _ _ _ D) as [x [Jx [Vx H]]].
    destruct Jx as [Jx|Jx]; [discriminate|].
    destruct (cs_in _ _ _ _ Jx) as [c' [Ec [Ji F]]]; injection Ec as <-.
    pose proof (proj2 (Hinit _ _ Ji)) as Hc.
    assert (Hv : MemProofs2.val s0 c = var s0 x) by (unfold MemProofs2.val; rewrite Hc; reflexivity).
    rewrite Hv in Ep.
    pose proof (ev_fit _ _ _ Hc) as Rc.
    assert (Ee : ev s0 e = Some (pos e)) by (rewrite Ep; apply H; [exact Ew | exact Rc | lia]).
    destruct (incr_once_in _ _ _ F) as [|Inc]; [discriminate|].
    destruct (Hroom _ _ _ Je Vx Inc Ee) as [R1 R2].
    split.
    + apply offset_ok; rewrite Ep; apply apply_ev; [exact Hc | exact Ew | lia].
    + apply limit_ok; [lia|].
      assert (Q : b + sgn p' w + var s0 x - a = if closed then pos e + n - 1 else pos e + n)
        by (rewrite Ep, Hn; unfold rounds; destruct closed; lia).
      rewrite <- Q; apply msub_ev; [|exact Hlo | rewrite Q; destruct closed; lia].
      apply madd_ev; [|exact Hc | lia].
      apply apply_ev; [exact Hhi | exact Ew | lia].
Qed.

Lemma whole_ok : forall q A, is_array_length_equal_to_range alen lo hi q = true -> 0 <= A -> A + n <= size s0 q ->
  A = 0 /\ A + n = size s0 q.
Proof.
  intros q A Q A0 A1; unfold is_array_length_equal_to_range in Q.
  destruct (alen q) as [z|] eqn:E; [|discriminate]; apply Halen in E.
  pose proof Hlo as L; pose proof Hhi as H.
  destruct lo as [x| | | | |]; try discriminate; destruct hi as [y| | | | |]; try discriminate.
  apply Z.eqb_eq in Q; cbn [ev] in L, H; apply fit_some in L; apply fit_some in H.
  unfold rounds in Hn; destruct closed; lia.
Qed.

Lemma build_slices : forall d e kd od q f ks os,
  In e (indices body) -> In f (indices body) ->
  details ss e = Some (kd, od) -> details ss f = Some (ks, os) -> known e -> known f ->
  0 <= pos e -> pos e + n <= size s0 d -> 0 <= pos f -> pos f + n <= size s0 q ->
  let c := build alen lo hi closed d kd od q ks os in
  d_ c = d /\ s_ c = q /\
  slice s0 d (dlo c) (dhi c) = Some (pos e, pos e + n) /\ slice s0 q (slo c) (shi c) = Some (pos f, pos f + n).
Proof.
  intros d e kd od q f ks os Je Jf De Df Ke Kf E0 E1 F0 F1.
  destruct (slice_ok d e kd od Je De Ke E0 E1) as [S1 S2].
  destruct (slice_ok q f ks os Jf Df Kf F0 F1) as [S3 S4].
  pose proof (whole_ok d (pos e)) as Wd; pose proof (whole_ok q (pos f)) as Wq.
  unfold build.
  destruct (offset_and_limit lo hi closed d kd od) as [u v]; destruct (offset_and_limit lo hi closed q ks os) as [x y].
  cbn [fst snd] in *.
  destruct (is_array_length_equal_to_range alen lo hi d), (is_array_length_equal_to_range alen lo hi q);
    cbn [d_ s_ dlo dhi slo shi]; (split; [reflexivity|]; split; [reflexivity|]);
    unfold slice; rewrite ?S1, ?S2, ?S3, ?S4; cbn [bound].
  all: try (destruct (Wd eq_refl E0 E1) as [Wd1 Wd2]).
  all: try (destruct (Wq eq_refl F0 F1) as [Wq1 Wq2]).
  all: split; match goal with |- (if ?c then _ else _) = _ =>
    replace c with true by (symmetry; rewrite !andb_true_iff, !Z.leb_le; lia) end; repeat f_equal; lia.
Qed.

Hypothesis Hnodup : NoDup (dests body).
Hypothesis Hdisj : forall d, In d (dests body) -> ~ In d (sources body).
Hypothesis Hin : forall u, 0 <= u < n -> inside s0 i inits body a u body.
Hypothesis Hplain : forall c, In c body -> plain c = true.
Notation cps := (cps s0 i inits body a).

Lemma copies_ok : forall suf pre s l, body = pre ++ suf ->
  (forall x, var s x = var s0 x) ->
  (forall d A q B, In (d, A, q, B) (cps pre) -> filled (arr s0 d) A (arr s0 q) B n (arr s d)) ->
  (forall d, ~ In d (dests pre) -> arr s d = arr s0 d) ->
  map Some l = map (assignment alen lo hi closed ss) (filter (kept cs) suf) ->
  exists s', run_copies s l = Some s' /\ (forall x, var s' x = var s0 x) /\
    (forall d A q B, In (d, A, q, B) (cps body) -> filled (arr s0 d) A (arr s0 q) B n (arr s' d)) /\
    (forall d, ~ In d (dests body) -> arr s' d = arr s0 d).
Proof.
  induction suf as [|c suf IH]; intros pre s l Eb Hv H1 H2 El.
  - destruct l; [|discriminate]; rewrite app_nil_r in Eb; subst pre.
    exists s; split; [reflexivity|]; split; [exact Hv|]; split; assumption.
  - assert (Eb' : body = (pre ++ [c]) ++ suf) by (rewrite <- app_assoc; exact Eb).
    assert (Jc : In c body) by (rewrite Eb; apply in_or_app; right; left; reflexivity).
    pose proof (Hplain _ Jc) as Pl; destruct c as [d e q f|x k|? ? ?|? ?|? ?]; try discriminate Pl.
    + cbn [filter kept map] in El; destruct l as [|c l]; [discriminate|]; cbn [map] in El; injection El as Ec El.
      cbn [assignment] in Ec.
      destruct (details ss e) as [[kd od]|] eqn:De; [|discriminate].
      destruct (details ss f) as [[ks os]|] eqn:Df; [|discriminate].
      destruct (same_res d q); [discriminate|]; injection Ec as ->.
      destruct (Hin 0 ltac:(lia) _ _ _ _ Jc) as [Re [Rf [Ke Kf]]].
      destruct (Hin (n - 1) ltac:(lia) _ _ _ _ Jc) as [Re' [Rf' _]].
      assert (Ji : In e (indices body) /\ In f (indices body)).
      { split; unfold indices; apply in_flat_map; exists (SCopy d e q f); (split; [exact Jc|]); [left | right; left]; reflexivity. }
      destruct (build_slices d e kd od q f ks os (proj1 Ji) (proj2 Ji) De Df Ke Kf) as [Ed [Eq [S1 S2]]]; try lia.
      set (c := build alen lo hi closed d kd od q ks os) in *.
      assert (Jd : In d (dests body)) by (unfold dests; apply in_flat_map; exists (SCopy d e q f); split; [exact Jc | left; reflexivity]).
      assert (Jq : In q (sources body)) by (unfold sources; apply in_flat_map; exists (SCopy d e q f); split; [exact Jc | left; reflexivity]).
      assert (Hs : forall r, size s r = size s0 r).
      { intro r; unfold size; f_equal.
        destruct (in_dec base_dec r (dests pre)) as [J|J]; [|rewrite (H2 _ J); reflexivity].
        unfold dests in J; apply in_flat_map in J; destruct J as [c' [J K]].
        destruct c' as [d' e' q' f'| | | |]; cbn in K; try contradiction; destruct K as [->|[]].
        apply (H1 r (pos e') q' (pos f')); unfold MemProofs2.cps; apply in_flat_map; exists (SCopy r e' q' f'); split; [exact J | left; reflexivity]. }
      assert (Sl : forall r u v, slice s r u v = slice s0 r u v).
      { intros r u v; unfold slice, bound; rewrite Hs; destruct u as [u|], v as [v|]; rewrite ?(ev_same s0 s Hv Hs); reflexivity. }
      assert (Nd := Hnodup); rewrite Eb, dests_app in Nd; cbn [dests flat_map app] in Nd; fold (dests suf) in Nd.
      assert (Np : ~ In d (dests pre)) by (intro X; apply (NoDup_remove_2 _ _ _ Nd), in_or_app; auto).
      assert (Lq : arr s q = arr s0 q).
      { apply H2; intro X; apply (Hdisj q); [|exact Jq]; rewrite Eb, dests_app; apply in_or_app; left; exact X. }
      assert (Ld : arr s d = arr s0 d) by (apply H2; exact Np).
      assert (Rc : run_copy s c = Some (seta s d (firstn (Z.to_nat (pos e)) (arr s0 d) ++
                                firstn (Z.to_nat n) (skipn (Z.to_nat (pos f)) (arr s0 q)) ++
                                skipn (Z.to_nat (pos e + n)) (arr s0 d)))).
      { unfold run_copy; rewrite Ed, Eq, !Sl, S1, S2, Lq, Ld.
        replace (pos e + n - pos e =? pos f + n - pos f) with true by (symmetry; apply Z.eqb_eq; lia).
        replace (pos f + n - pos f) with n by lia; reflexivity. }
      cbn [run_copies]; rewrite Rc.
      apply (IH (pre ++ [SCopy d e q f]) _ l Eb').
      * exact Hv.
      * intros d' A q' B J; rewrite cps_app in J; apply in_app_or in J; destruct J as [J|[J|[]]].
        -- cbn [seta arr]; rewrite base_eqb_neq; [apply H1; exact J|].
           intros ->; apply Np, (cps_dests _ _ _ _ _ _ _ _ _ _ J).
        -- injection J as <- <- <- <-; cbn [seta arr]; rewrite base_eqb_refl.
           unfold size in *; apply filled_copy; lia.
      * intros d' J; rewrite dests_app in J; cbn [dests flat_map app] in J; cbn [seta arr].
        rewrite base_eqb_neq; [apply H2; intro X; apply J, in_or_app; auto|].
        intros ->; apply J, in_or_app; right; left; reflexivity.
      * exact El.
    + assert (Kc : kept cs (SAdd x k) = false).
      { destruct (kept cs (SAdd x k)) eqn:Kc; [|reflexivity]; exfalso.
        change (filter (kept cs) (SAdd x k :: suf)) with (if kept cs (SAdd x k) then SAdd x k :: filter (kept cs) suf else filter (kept cs) suf) in El.
        rewrite Kc in El; cbn [map assignment] in El; destruct l; discriminate. }
      change (filter (kept cs) (SAdd x k :: suf)) with (if kept cs (SAdd x k) then SAdd x k :: filter (kept cs) suf else filter (kept cs) suf) in El.
      rewrite Kc in El.
      apply (IH (pre ++ [SAdd x k]) s l Eb' Hv).
      * intros d' A q' B J; rewrite cps_app in J; apply in_app_or in J; destruct J as [J|[]]; apply H1; exact J.
      * intros d' J; apply H2; intro X; apply J; rewrite dests_app; apply in_or_app; left; exact X.
      * exact El.
Qed.
End Suggestion.

(* The two together *)
Lemma check_ok : forall alen lo hi closed i inits body l s s' a b,
  check alen lo hi closed i inits body = Some l ->
  (forall q z, alen q = Some z -> size s q = z) ->
  (forall q, size s q < W) ->
  (forall x c, In (x, c) inits -> x <> i /\ ev s c = Some (var s x)) ->
  (forall c, In c body -> plain c = true) ->
  NoDup (dests body) -> (forall d, In d (dests body) -> ~ In d (sources body)) ->
  ev s lo = Some a -> ev s hi = Some b -> 0 < rounds closed a b ->
  (forall q, hi = ILen q -> closed = false /\ exists x, q = BLocal x) ->
  (forall e x z, In e (indices body) -> In x (vars e) -> In (SAdd x 1) body -> ev s e = Some z ->
     0 <= z - var s x + b /\ z + b < W) ->
  loop i lo hi closed body s = Some s' ->
  exists s'', run_copies s l = Some s'' /\ (forall q, arr s'' q = arr s' q) /\
    (forall x, var s'' x = var s x) /\
    (forall x, x <> i -> ~ In (SAdd x 1) body -> var s' x = var s x).
Proof.
  intros alen lo hi closed i inits body l s s' a b C Ha Hs Hi Hp Nd Dj Lo Hi' N1 Hl Hr Q.
  unfold check in C; set (cs := get_loop_counters inits body) in *.
  destruct (all (map (assignment alen lo hi closed ((i, KRange) :: cs)) (filter (kept cs) body))) as [l'|] eqn:Al; [|discriminate].
  assert (l' = l) by (destruct l'; congruence); subst l'; clear C.
  apply all_forall in Al.
  assert (Hk : forall c, In c body -> kept cs c = true -> exists o, assignment alen lo hi closed ((i, KRange) :: cs) c = Some o).
  { intros c J K; assert (X : In (assignment alen lo hi closed ((i, KRange) :: cs) c) (map Some l)).
    { rewrite <- Al; apply in_map, filter_In; auto. }
    apply in_map_iff in X; destruct X as [o [<- _]]; eauto. }
  assert (Hc : forall d e q f, In (SCopy d e q f) body ->
     (exists x, details ((i, KRange) :: cs) e = Some x) /\ (exists x, details ((i, KRange) :: cs) f = Some x)).
  { intros d e q f J; destruct (Hk _ J eq_refl) as [o K]; cbn [assignment] in K.
    destruct (details _ e) as [[? ?]|]; [|discriminate]; destruct (details _ f) as [[? ?]|]; [|discriminate]; eauto. }
  assert (Had : forall x k, In (SAdd x k) body -> exists c, In (x, c) cs).
  { intros x k J; destruct (kept cs (SAdd x k)) eqn:K; [destruct (Hk _ J K); discriminate|].
    cbn [kept] in K; apply negb_false_iff, existsb_exists in K; destruct K as [[y c] [K E]].
    cbn [fst] in E; apply PeanoNat.Nat.eqb_eq in E; subst y; eauto. }
  unfold loop in Q; rewrite Lo, Hi' in Q.
  replace a with (a + 0) in Q at 2 by lia.
  assert (B0 : before s i inits body a 0 s).
  { split; [intros; lia|]; split; [reflexivity|]; split; [|reflexivity].
    intros d A q B _; apply filled_0. }
  destruct (rounds_ok s i inits body a Hi Hp Hc Had Nd Dj _ 0 s s' (Z.le_refl 0) B0 Q) as [Bf In'].
  rewrite Z2Nat.id in * by lia; rewrite Z.add_0_l in *.
  destruct (copies_ok s alen lo hi closed i inits body a b _ Lo Hi' eq_refl N1 Hi Hs Ha Hl Hr Nd Dj In' Hp
              body [] s l eq_refl) as [s'' [R [V [F O]]]].
  - reflexivity.
  - intros d A q B [].
  - reflexivity.
  - symmetry; exact Al.
  - destruct Bf as [B1 [B2 [B3 B4]]].
    exists s''; split; [exact R|]; split; [|split; [exact V|]].
    + intro q; destruct (in_dec base_dec q (dests body)) as [J|J];
        [|rewrite (O _ J), (B4 _ J); reflexivity].
      unfold dests in J; apply in_flat_map in J; destruct J as [c' [J K]].
      destruct c' as [d' e' q' f'| | | |]; cbn in K; try contradiction; destruct K as [->|[]].
      assert (X : In (q, pos s i inits body a e', q', pos s i inits body a f') (cps s i inits body a body)).
      { unfold cps; apply in_flat_map; exists (SCopy q e' q' f'); split; [exact J | left; reflexivity]. }
      apply (filled_eq _ _ _ _ _ _ _ (F _ _ _ _ X) (B3 _ _ _ _ X)).
    + intros x N J; apply B2; [exact N|].
      intros k K; destruct (cs_in _ _ _ _ K) as [c [_ [_ G]]].
      destruct (incr_once_in _ _ _ G) as [|Z]; [discriminate | contradiction].
Qed.
