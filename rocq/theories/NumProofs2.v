(** Proofs about numeric_literal.rs: taking a literal apart. *)
From Coq Require Import Lia.
From Verif Require Export NumProofs.
Local Notation len := (@List.length ascii).

(** *** Characters *)
Lemma all_ascii (P : ascii -> bool) : forallb (fun n => P (ascii_of_nat n)) (seq 0 256) = true -> forall c, P c = true.
Proof.
  intros H c. rewrite forallb_forall in H. specialize (H (nat_of_ascii c)). rewrite ascii_nat_embedding in H. apply H. apply in_seq.
  split; [lia|]. apply nat_ascii_bounded.
Qed.
Lemma ascii_implies (P Q : ascii -> bool) : forallb (fun n => implb (P (ascii_of_nat n)) (Q (ascii_of_nat n))) (seq 0 256) = true -> forall c, P c = true -> Q c = true.
Proof. intros H c HP. pose proof (all_ascii (fun c => implb (P c) (Q c)) H c) as X. cbn beta in X. rewrite HP in X. exact X. Qed.
Definition among (s : text) (c : ascii) : bool := existsb (Ascii.eqb c) s.
Lemma among_false s c d : negb (among s c) = true -> In d s -> c <> d.
Proof. intros H I ->. unfold among in H. apply negb_true_iff in H. assert (X : existsb (Ascii.eqb d) s = true) by (apply existsb_exists; exists d; split; [auto|apply Ascii.eqb_refl]). congruence. Qed.
Lemma dec_chars c : dig_us Decimal c = true -> negb (among (tx ".eE-+xobiuf ") c) = true.
Proof. apply (ascii_implies (dig_us Decimal) (fun c => negb (among (tx ".eE-+xobiuf ") c))). vm_compute. reflexivity. Qed.
Lemma any_chars r c : dig_us r c = true -> negb (among (tx ".-+xoiu ") c) = true.
Proof. apply (ascii_implies (dig_us r) (fun c => negb (among (tx ".-+xoiu ") c))). destruct r; vm_compute; reflexivity. Qed.
Lemma dig_not_us r c : is_dig r c = true -> c <> us.
Proof. intros H. apply (among_false (tx "_")); [|left; reflexivity]. revert c H. apply (ascii_implies (is_dig r) (fun c => negb (among (tx "_") c))). destruct r; vm_compute; reflexivity. Qed.
Lemma dig_not_dash r c : is_dig r c = true -> c <> dash.
Proof. intros H. apply (among_false (tx "-")); [|left; reflexivity]. revert c H. apply (ascii_implies (is_dig r) (fun c => negb (among (tx "-") c))). destruct r; vm_compute; reflexivity. Qed.
Definition plain (c : ascii) : Prop := c <> dot /\ c <> "e"%char /\ c <> "E"%char.
Lemma dec_plain c : dig_us Decimal c = true -> plain c.
Proof. intros H. apply dec_chars in H. repeat split; apply (among_false _ _ _ H); cbn; auto. Qed.
Lemma dec_all_plain t : digits_ok Decimal t -> Forall plain t.
Proof. apply Forall_impl. apply dec_plain. Qed.
Lemma strip_digits r t : digits_ok r t -> Forall (fun c => is_dig r c = true) (strip_us t).
Proof.
  intros H. apply Forall_forall. intros c I. apply filter_In in I as [I N]. unfold digits_ok in H. rewrite Forall_forall in H. specialize (H c I).
  unfold dig_us in H. apply negb_true_iff in N. rewrite N, orb_false_r in H. exact H.
Qed.
Lemma has_digit_strip r t : has_digit r t -> strip_us t <> [].
Proof.
  intros H E. apply Exists_exists in H as (c & I & D). assert (X : In c (strip_us t)). { apply filter_In. split; [auto|]. apply negb_true_iff, Ascii.eqb_neq. eapply dig_not_us; eauto. }
  rewrite E in X. destruct X.
Qed.
Lemma digit_strip_has r t : digits_ok r t -> strip_us t <> [] -> has_digit r t.
Proof.
  intros D N. destruct (strip_us t) as [|c d] eqn:E; [congruence|]. apply Exists_exists. exists c. pose proof (strip_digits r t D) as F. rewrite E in F. inversion F; subst.
  split; [|auto]. assert (I : In c (strip_us t)) by (rewrite E; left; auto). apply filter_In in I. tauto.
Qed.

(** *** A final underscore *)
Lemma ends_snoc t c : ends [us] (t ++ [c]) = Ascii.eqb us c.
Proof. unfold ends, strip_suf. rewrite rev_app_distr. cbn [rev app strip_pre]. destruct (Ascii.eqb us c); reflexivity. Qed.
Lemma ends_nil : ends [us] [] = false.
Proof. reflexivity. Qed.
Lemma ends_app a b : b <> [] -> ends [us] (a ++ b) = ends [us] b.
Proof. intros N. destruct (exists_last N) as (b' & c & ->). now rewrite app_assoc, !ends_snoc. Qed.
Definition drop1 (t : text) : text := if ends [us] t then firstn (len t - 1) t else t.
Definition sepof (t : text) : text := if ends [us] t then [us] else [].
Lemma drop1_sep t : t = drop1 t ++ sepof t.
Proof.
  unfold drop1, sepof. destruct (ends [us] t) eqn:E; [|now rewrite app_nil_r]. apply ends_iff in E as (r & ->). rewrite app_length. cbn [List.length].
  replace (len r + 1 - 1) with (len r) by lia. rewrite firstn_app, firstn_all, Nat.sub_diag. cbn. now rewrite app_nil_r.
Qed.
Lemma drop1_len t : len (drop1 t) = len t - len (sepof t) /\ len (sepof t) <= len t.
Proof. pose proof (f_equal len (drop1_sep t)) as E. rewrite app_length in E. lia. Qed.
Lemma strip_sep t : strip_us (sepof t) = [].
Proof. unfold sepof. destruct (ends [us] t); reflexivity. Qed.
Lemma strip_drop1 t : strip_us (drop1 t) = strip_us t.
Proof. rewrite (drop1_sep t) at 2. rewrite strip_app, strip_sep. now rewrite app_nil_r. Qed.
Lemma drop1_app a b : b <> [] -> drop1 (a ++ b) = a ++ drop1 b.
Proof.
  intros N. unfold drop1. rewrite ends_app by auto. destruct (ends [us] b); [|reflexivity]. rewrite app_length.
  assert (0 < len b) by (destruct b; [congruence|cbn; lia]). rewrite firstn_app. replace (len a + len b - 1 - len a) with (len b - 1) by lia. f_equal. apply firstn_all2. lia.
Qed.
Lemma drop1_chars (P : ascii -> Prop) t : Forall P t -> Forall P (drop1 t).
Proof. intros F. unfold drop1. destruct (ends [us] t); [now apply Forall_firstn'|auto]. Qed.
Lemma drop1_head t : starts_with_digit t -> starts_with_digit (drop1 t).
Proof.
  intros H. unfold drop1. destruct (ends [us] t) eqn:E; [|auto]. destruct t as [|c [|c' t]]; [destruct H| |exact H].
  assert (X : ends [us] ([] ++ [c]) = true) by exact E. rewrite ends_snoc in X. apply Ascii.eqb_eq in X. subst c. discriminate H.
Qed.
Lemma head_nonempty t : starts_with_digit t -> t <> [].
Proof. destruct t; [intros []|discriminate]. Qed.

(** *** Splitting *)
Lemma split_loop_skip digits fr : forall a rest k int, Forall plain a -> split_loop digits (a ++ rest) k int fr = split_loop digits rest (k + len a) int fr.
Proof.
  induction a as [|c a IH]; intros rest k int F; [cbn; now rewrite Nat.add_0_r|]. inversion F as [|? ? (P1 & P2 & P3) F']; subst. cbn [app split_loop List.length].
  apply Ascii.eqb_neq in P1, P2, P3. rewrite P1, P2, P3. cbn [orb]. rewrite IH by auto. f_equal. lia.
Qed.
Lemma skipn_exact {A} (a b : list A) n : n = List.length a -> skipn n (a ++ b) = b.
Proof. intros ->. rewrite skipn_app, skipn_all, Nat.sub_diag. reflexivity. Qed.
Lemma firstn_exact {A} (a b : list A) n : n = List.length a -> firstn n (a ++ b) = a.
Proof. intros ->. rewrite firstn_app, firstn_all, Nat.sub_diag. cbn. apply app_nil_r. Qed.
Definition body (i : text) (f : option text) (e : option (ascii * option ascii * text)) : text := i ++ show_frac f ++ show_exp e.
Definition sgt (sg : option ascii) : text := match sg with Some s => [s] | None => [] end.
Definition e_ok (c : ascii) : Prop := c = "e"%char \/ c = "E"%char.
Lemma split_parts i f e : Forall plain i -> (forall t, f = Some t -> Forall plain t /\ (t <> [] \/ e = None)) -> (forall c sg x, e = Some (c, sg, x) -> e_ok c) ->
  split_loop (body i f e) (body i f e) 0 (body i f e) None =
  match e with
  | None => (i, f, None)
  | Some (c, sg, x) =>
      match f with
      | None => (drop1 i, None, Some (sepof i ++ [c], sgt sg ++ x))
      | Some f => (i, Some (drop1 f), Some (sepof f ++ [c], sgt sg ++ x))
      end
  end.
Proof.
  intros PI PF PE. destruct e as [[[c sg] x]|].
  - specialize (PE c sg x eq_refl). assert (C1 : Ascii.eqb c dot = false) by (destruct PE; subst; reflexivity).
    assert (C2 : Ascii.eqb c "e" || Ascii.eqb c "E" = true) by (destruct PE; subst; reflexivity).
    destruct f as [f|].
    + destruct (PF f eq_refl) as [PF1 [NF|]]; [|discriminate]. set (B := body i (Some f) (Some (c, sg, x))).
      assert (EB : B = i ++ dot :: f ++ c :: sgt sg ++ x) by reflexivity. rewrite EB at 2. rewrite split_loop_skip by auto. cbn [split_loop]. rewrite Ascii.eqb_refl.
      rewrite split_loop_skip by auto. cbn [split_loop]. rewrite C1, C2. cbn [Nat.add].
      assert (E1 : firstn (len i) B = i) by (rewrite EB; now apply firstn_exact).
      assert (E2 : firstn (S (len i + len f)) B = i ++ dot :: f). { rewrite EB. replace (i ++ dot :: f ++ c :: sgt sg ++ x) with ((i ++ dot :: f) ++ c :: sgt sg ++ x) by (rewrite <- app_assoc; reflexivity). apply firstn_exact. rewrite app_length. cbn [List.length]. lia. }
      rewrite E2, E1. replace (i ++ dot :: f) with ((i ++ [dot]) ++ f) by (rewrite <- app_assoc; reflexivity). rewrite ends_app by auto.
      set (st := if ends [us] f then S (len i + len f) - 1 else S (len i + len f)).
      assert (ST : st = S (len i) + len (drop1 f)). { destruct (drop1_len f) as [D1 D2]. rewrite D1. unfold st, sepof in *. destruct (ends [us] f); cbn [List.length] in *; lia. }
      destruct (Nat.ltb_spec st (len i)) as [|_]; [lia|]. f_equal; [f_equal|].
      * f_equal. unfold slice. rewrite ST. replace (S (len i) + len (drop1 f) - (len i + 1)) with (len (drop1 f)) by lia. rewrite EB.
        replace (i ++ dot :: f ++ c :: sgt sg ++ x) with ((i ++ [dot]) ++ drop1 f ++ sepof f ++ c :: sgt sg ++ x) by (rewrite (app_assoc (drop1 f)), <- drop1_sep, <- app_assoc; reflexivity).
        rewrite skipn_exact by (rewrite app_length; cbn; lia). apply firstn_exact. reflexivity.
      * f_equal. f_equal.
        -- unfold slice. rewrite ST. rewrite EB.
           replace (i ++ dot :: f ++ c :: sgt sg ++ x) with ((i ++ dot :: drop1 f) ++ (sepof f ++ [c]) ++ sgt sg ++ x)
             by (rewrite <- !app_assoc; cbn; do 2 f_equal; rewrite (app_assoc (drop1 f)), <- drop1_sep; reflexivity).
           rewrite skipn_exact by (rewrite app_length; cbn; lia). apply firstn_exact. destruct (drop1_len f) as [D1 D2]. rewrite D1, app_length. cbn [List.length]. lia.
        -- rewrite EB. replace (i ++ dot :: f ++ c :: sgt sg ++ x) with ((i ++ dot :: f ++ [c]) ++ sgt sg ++ x) by (rewrite <- app_assoc; cbn; rewrite <- app_assoc; reflexivity).
           apply skipn_exact. rewrite app_length. cbn. rewrite app_length. cbn. lia.
    + clear PF. match goal with |- split_loop ?b _ _ _ _ = _ => set (B := b) end. assert (EB : B = i ++ c :: sgt sg ++ x) by reflexivity. rewrite EB at 2. rewrite split_loop_skip by auto. cbn [split_loop]. rewrite C1, C2.
      cbn [Nat.add]. assert (E1 : firstn (len i) B = i) by (rewrite EB; now apply firstn_exact). rewrite E1.
      set (st := if ends [us] i then len i - 1 else len i).
      assert (ST : st = len (drop1 i)). { destruct (drop1_len i) as [D1 D2]. rewrite D1. unfold st, sepof in *. destruct (ends [us] i); cbn [List.length] in *; lia. }
      assert (LB : st < len B). { rewrite EB, app_length. cbn [List.length]. unfold st. destruct (ends [us] i); lia. }
      apply Nat.ltb_lt in LB. rewrite LB. assert (EB' : B = drop1 i ++ (sepof i ++ [c]) ++ sgt sg ++ x) by (rewrite EB, <- (app_assoc (sepof i)), (app_assoc (drop1 i)), <- drop1_sep; reflexivity).
      f_equal; [f_equal|].
      * rewrite EB', ST. now apply firstn_exact.
      * f_equal. f_equal.
        -- unfold slice. rewrite EB', ST. rewrite skipn_exact by reflexivity. apply firstn_exact. destruct (drop1_len i) as [D1 D2]. rewrite D1, app_length. cbn [List.length]. lia.
        -- rewrite EB. replace (i ++ c :: sgt sg ++ x) with ((i ++ [c]) ++ sgt sg ++ x) by (rewrite <- app_assoc; reflexivity). apply skipn_exact. rewrite app_length. cbn. lia.
  - destruct f as [f|].
    + destruct (PF f eq_refl) as [PF1 _]. set (B := body i (Some f) None). assert (EB : B = i ++ dot :: f ++ []) by reflexivity. rewrite EB at 2.
      rewrite split_loop_skip by auto. cbn [split_loop]. rewrite Ascii.eqb_refl. rewrite split_loop_skip by auto. cbn [split_loop Nat.add]. rewrite EB, app_nil_r. f_equal. f_equal; [now apply firstn_exact|].
      f_equal. replace (i ++ dot :: f) with ((i ++ [dot]) ++ f) by (rewrite <- app_assoc; reflexivity). apply skipn_exact. rewrite app_length. cbn. lia.
    + unfold body. cbn [show_frac show_exp app]. rewrite app_nil_r. pose proof (split_loop_skip i None i [] 0 i PI) as E. rewrite app_nil_r in E. rewrite E. reflexivity.
Qed.

(** *** The whole literal *)
Definition cut_us (s : option text) (t : text) : text := match s with Some _ => drop1 t | None => t end.
Lemma strip_cut s t : strip_us (cut_us s t) = strip_us t.
Proof. destruct s; [apply strip_drop1|reflexivity]. Qed.
(** The parts as [NumericLiteral::new] sees them. *)
Definition seen (l : lit) : lit :=
  match epart l, fpart l with
  | Some (c, sg, x), f => {| base := base l; ipart := ipart l; fpart := f; epart := Some (c, sg, cut_us (tsuf l) x); tsuf := tsuf l |}
  | None, Some f => {| base := base l; ipart := ipart l; fpart := Some (cut_us (tsuf l) f); epart := None; tsuf := tsuf l |}
  | None, None => {| base := base l; ipart := cut_us (tsuf l) (ipart l); fpart := None; epart := None; tsuf := tsuf l |}
  end.
Definition lbody (l : lit) : text := body (ipart l) (fpart l) (epart l).
Lemma cut_app s a b : b <> [] -> cut_us s (a ++ b) = a ++ cut_us s b.
Proof. intros N. destruct s; [now apply drop1_app|reflexivity]. Qed.
Lemma has_digit_nonempty r t : has_digit r t -> t <> [].
Proof. intros H ->. inversion H. Qed.
Lemma seen_body l : wf l -> cut_us (tsuf l) (lbody l) = lbody (seen l).
Proof.
  intros W. unfold lbody, seen, body. destruct (epart l) as [[[c sg] x]|] eqn:E; cbn [ipart fpart epart].
  - destruct (wf_e l W c sg x E) as (_ & _ & _ & HX). apply has_digit_nonempty in HX. cbn [show_exp].
    assert (EQ : forall y, ipart l ++ show_frac (fpart l) ++ c :: match sg with Some s => [s] | None => [] end ++ y = (ipart l ++ show_frac (fpart l) ++ c :: sgt sg) ++ y)
      by (intros y; rewrite <- !app_assoc; reflexivity).
    rewrite !EQ. now apply cut_app.
  - cbn [show_exp]. destruct (fpart l) as [f|] eqn:F; cbn [ipart fpart epart show_frac]; rewrite ?app_nil_r.
    + destruct (wf_f l W f F) as [DF [SF|(-> & _ & TS)]].
      * replace (ipart l ++ dot :: f) with ((ipart l ++ [dot]) ++ f) by (rewrite <- app_assoc; reflexivity). rewrite cut_app by now apply head_nonempty. rewrite <- app_assoc. reflexivity.
      * rewrite TS. reflexivity.
    + reflexivity.
Qed.
Lemma teqb_neq a b : a <> b -> teqb a b = false.
Proof. unfold teqb. destruct (text_eq_dec a b); congruence. Qed.

Lemma show_split l : show l = (prefix_of (base l) ++ lbody l) ++ match tsuf l with Some s => s | None => [] end.
Proof. unfold show, lbody, body. now rewrite <- !app_assoc. Qed.
Lemma split_suffix_show l : split_suffix (show l) (kind_of l) = (prefix_of (base l) ++ lbody l, tsuf l).
Proof.
  rewrite show_split. unfold split_suffix, kind_of. cbn [ksuffix]. destruct (tsuf l) as [s|]; [|now rewrite app_nil_r].
  rewrite app_length. destruct (Nat.leb_spec (len s) (len (prefix_of (base l) ++ lbody l) + len s)) as [_|]; [|lia].
  rewrite Nat.add_sub. now rewrite firstn_exact, skipn_exact by reflexivity.
Qed.
(** The first character is a digit. *)
Lemma unsuffixed_head l : wf l -> exists c r, prefix_of (base l) ++ lbody l = c :: r /\ is_digit c = true.
Proof.
  intros W. destruct (base l) eqn:B; [exists "0"%char; eexists; split; reflexivity|exists "0"%char; eexists; split; reflexivity| |exists "0"%char; eexists; split; reflexivity].
  pose proof (wf_i_dec l W B) as H. unfold lbody, body. destruct (ipart l) as [|c i]; [destruct H|]. exists c. eexists. split; [reflexivity|exact H].
Qed.
(** A decimal literal does not begin like the others. *)
Lemma decimal_second l c : wf l -> base l = Decimal -> In c (tx "xbo") -> starts ["0"%char; c] (lbody l) = false.
Proof.
  intros W B I. destruct (starts ["0"%char; c] (lbody l)) eqn:S; [|reflexivity]. exfalso. apply starts_iff in S as (r & S). cbn [app] in S.
  destruct (wf_i l W) as [DI HI]. rewrite B in DI. pose proof (wf_i_dec l W B) as SD. unfold lbody, body in S. destruct (ipart l) as [|c0 [|c1 i]]; [destruct SD| |].
  - cbn [app] in S. injection S as -> S. destruct (fpart l) as [f|]; [cbn in S; injection S as E _; destruct I as [<-|[<-|[<-|[]]]]; discriminate|].
    destruct (epart l) as [[[e sg] x]|] eqn:EP; [|discriminate]. cbn in S. injection S as -> _. destruct (wf_e l W _ _ _ EP) as ([-> | ->] & _); destruct I as [I|[I|[I|[]]]]; discriminate.
  - cbn [app] in S. injection S as -> -> S. inversion DI as [|? ? _ DI']; subst. inversion DI' as [|? ? D1 _]; subst. apply dec_chars in D1.
    apply (among_false _ _ c D1); [|reflexivity]. destruct I as [<-|[<-|[<-|[]]]]; cbn; auto 12.
Qed.
Definition numlit_of (l : lit) : numlit :=
  let s := seen l in
  {| nradix := base l;
     nprefix := match base l with Decimal => None | r => Some (prefix_of r) end;
     ninteger := match epart s, fpart s with Some _, None => drop1 (ipart s) | _, _ => ipart s end;
     nfraction := match epart s, fpart s with Some _, Some f => Some (drop1 f) | _, f => f end;
     nexponent := match epart s with
                  | Some (c, sg, x) => Some (sepof (match fpart s with Some f => f | None => ipart s end) ++ [c], sgt sg ++ x)
                  | None => None
                  end;
     nsuffix := tsuf l |}.
Lemma seen_base l : base (seen l) = base l.
Proof. unfold seen. destruct (epart l) as [[[c sg] x]|]; [reflexivity|]. destruct (fpart l); reflexivity. Qed.
Lemma seen_digits l : wf l -> digits_ok (base l) (ipart (seen l)) /\ (forall f, fpart (seen l) = Some f -> digits_ok Decimal f /\ (f <> [] \/ epart (seen l) = None)) /\
  (forall c sg x, epart (seen l) = Some (c, sg, x) -> e_ok c).
Proof.
  intros W. destruct (wf_i l W) as [DI _]. pose proof (wf_f l W) as WF. pose proof (wf_e l W) as WE. unfold seen.
  destruct (epart l) as [[[c sg] x]|]; cbn.
  - split; [auto|]. split; [|intros c' sg' x' [= <- <- <-]; apply (WE c sg x eq_refl)]. intros f F. destruct (WF f F) as [H [S|(_ & X & _)]]; [|discriminate]. split; [auto|]. left. now apply head_nonempty.
  - destruct (fpart l) as [f|]; cbn.
    + split; [auto|]. split; [|discriminate]. intros f' [= <-]. split; [|auto]. destruct (WF f eq_refl) as [H _]. destruct (tsuf l); [now apply drop1_chars|auto].
    + split; [|split; [discriminate|discriminate]]. destruct (tsuf l); [now apply drop1_chars|auto].
Qed.
Lemma float_decimal l : wf l -> is_float l = true -> base l = Decimal.
Proof.
  intros W F. destruct (radix_eqb (base l) Decimal) eqn:E; [destruct (base l); try discriminate; reflexivity|]. exfalso.
  assert (N : base l <> Decimal) by (intros H; rewrite H in E; discriminate). destruct (wf_dec l W N) as [F1 F2]. unfold is_float in F. rewrite F1, F2 in F.
  destruct (tsuf l) as [s|] eqn:T; [|discriminate]. destruct (wf_s l W s T) as [[_ H]|[H _]]; [congruence|]. destruct (in_dec text_eq_dec s float_types) as [I|]; [|discriminate].
  cbn in H, I. intuition (subst; discriminate).
Qed.
Lemma nonfloat_parts l : is_float l = false -> fpart l = None /\ epart l = None.
Proof. unfold is_float. destruct (fpart l), (epart l); try discriminate; auto. Qed.

Lemma from_lit_kind_show l : wf l -> from_lit_kind (show l) (kind_of l) = Some (numlit_of l).
Proof.
  intros W. unfold from_lit_kind. destruct (unsuffixed_head l W) as (c & r & H & D).
  assert (SH : show l = c :: r ++ match tsuf l with Some s => s | None => [] end) by (rewrite show_split, H; reflexivity).
  assert (ND : c <> dash) by (intros ->; discriminate).
  replace (strip_pre [dash] (show l)) with (@None text). 2:{ rewrite SH. cbn [strip_pre]. destruct (Ascii.eqb_spec dash c) as [E|]; [exfalso; apply ND; symmetry; exact E|reflexivity]. }
  rewrite SH. rewrite trim_start_id by (cbn; destruct (is_ws c) eqn:WS; [|auto]; exfalso; assert (X : negb (is_digit c) = true) by (apply (ascii_implies is_ws (fun c => negb (is_digit c))); [vm_compute; reflexivity|exact WS]); rewrite D in X; discriminate).
  rewrite D, <- SH, split_suffix_show. cbn [kind_of kfloat]. f_equal. unfold new.
  replace (drop_while (Ascii.eqb dash) (prefix_of (base l) ++ lbody l)) with (prefix_of (base l) ++ lbody l) by (rewrite H; cbn [drop_while]; destruct (Ascii.eqb_spec dash c) as [E|]; [exfalso; apply ND; symmetry; exact E|reflexivity]).
  match goal with |- context [if starts (tx "0x") ?u then _ else _] => assert (R : (if starts (tx "0x") u then Hexadecimal else if starts (tx "0b") u then Binary else if starts (tx "0o") u then Octal else Decimal) = base l) end.
  { destruct (base l) eqn:B; try reflexivity. cbn [prefix_of app]. unfold tx. cbn [list_ascii_of_string]. rewrite !(decimal_second l) by (auto; cbn; auto). reflexivity. }
  rewrite R.
  match goal with |- context [if radix_eqb (base l) Decimal then ?a else ?b] => assert (P : (if radix_eqb (base l) Decimal then a else b)
    = (match base l with Decimal => None | r => Some (prefix_of r) end, lbody l)) by (destruct (base l); reflexivity) end.
  rewrite P. clear P R H SH.
  replace (if match tsuf l with Some _ => true | None => false end && ends [us] (lbody l) then firstn (len (lbody l) - 1) (lbody l) else lbody l) with (cut_us (tsuf l) (lbody l))
    by (destruct (tsuf l); reflexivity).
  rewrite seen_body by auto. destruct (seen_digits l W) as (S1 & S2 & S3). unfold split_digit_parts, numlit_of.
  destruct (is_float l) eqn:F.
  - pose proof (float_decimal l W F) as B. rewrite B in S1. unfold lbody. rewrite split_parts; [| |intros t T; destruct (S2 t T) as [S2a S2b]; split; [now apply dec_all_plain|auto]|exact S3].
    + destruct (epart (seen l)) as [[[e sg] x]|], (fpart (seen l)); reflexivity.
    + now apply dec_all_plain.
  - destruct (nonfloat_parts l F) as [F1 F2]. unfold seen, lbody, body. rewrite F1, F2. cbn. now rewrite app_nil_r.
Qed.
