(** Proofs about literal_representation.rs: the compiler's reading, mistyped suffixes, hexadecimal suggestions. *)
From Coq Require Import Lia.
From Verif Require Export NumProofs5.
Local Notation len := (@List.length ascii).

(** *** The compiler reads back the parts *)
Definition hd_no (f : ascii -> bool) (t : text) : Prop := match t with [] => True | c :: _ => f c = false end.
Lemma take_app f a b : Forall (fun c => f c = true) a -> hd_no f b -> take_while f (a ++ b) = a /\ drop_while f (a ++ b) = b.
Proof.
  intros F H. induction F as [|c a Hc Ha IH]; cbn.
  - destruct b as [|c b]; [auto|]. cbn in *. rewrite H. auto.
  - rewrite Hc. destruct IH as [-> ->]. auto.
Qed.
Definition suf_of (l : lit) : text := match tsuf l with Some s => s | None => [] end.
Lemma suf_head l : wf l -> suf_of l = [] /\ tsuf l = None \/ exists c r, suf_of l = c :: r /\ tsuf l = Some (c :: r) /\ (c = "f"%char /\ base l = Decimal \/ (c = "i"%char \/ c = "u"%char)).
Proof.
  intros W. unfold suf_of. destruct (tsuf l) as [s|] eqn:T; [right|auto]. destruct (wf_s l W s T) as [[I B]|[I _]]; cbn in I;
    repeat (destruct I as [<-|I]; [eexists _, _; split; [reflexivity|]; auto|]); destruct I.
Qed.
Lemma suffix_back l : wf l -> lex_suffix (suf_of l) = tsuf l.
Proof. intros W. destruct (suf_head l W) as [[-> ->]|(c & r & -> & -> & _)]; reflexivity. Qed.
Lemma suf_no_dig l : wf l -> hd_no (dig_us (base l)) (suf_of l).
Proof.
  intros W. destruct (suf_head l W) as [[-> _]|(c & r & -> & _ & [[-> ->]|[->| ->]])]; [exact I|reflexivity| |]; destruct (base l); reflexivity.
Qed.
Lemma suf_no_dec l : wf l -> hd_no (dig_us Decimal) (suf_of l).
Proof. intros W. destruct (suf_head l W) as [[-> _]|(c & r & -> & _ & [[-> _]|[->| ->]])]; [exact I|reflexivity..]. Qed.
Lemma exp_head l : wf l -> forall t, hd_no (dig_us Decimal) t -> hd_no (dig_us Decimal) (show_exp (epart l) ++ t).
Proof.
  intros W t H. destruct (epart l) as [[[c sg] x]|] eqn:E; [|exact H]. destruct (wf_e l W _ _ _ E) as ([->| ->] & _); reflexivity.
Qed.
Lemma lex_exp_show l : wf l -> lex_exp (show_exp (epart l) ++ suf_of l) = (epart l, suf_of l).
Proof.
  intros W. destruct (epart l) as [[[c sg] x]|] eqn:E.
  - destruct (wf_e l W _ _ _ E) as (EC & ES & DX & HX). destruct (take_app (dig_us Decimal) x (suf_of l) DX (suf_no_dec l W)) as [T D].
    cbn [show_exp app]. unfold lex_exp. replace (Ascii.eqb c "e" || Ascii.eqb c "E") with true by (destruct EC as [->| ->]; reflexivity).
    destruct ES as [->|[->| ->]]; cbn [app].
    + destruct x as [|y x]; [inversion HX|]. cbn [app]. inversion DX as [|? ? DY _]; subst. pose proof (dec_chars y DY) as NY.
      assert (N1 : Ascii.eqb y "+" = false) by (apply Ascii.eqb_neq; apply (among_false _ _ _ NY); cbn; tauto).
      assert (N2 : Ascii.eqb y dash = false) by (apply Ascii.eqb_neq; apply (among_false _ _ _ NY); cbn; tauto).
      rewrite N1, N2. cbn [orb]. cbn [app] in T, D. now rewrite T, D.
    + match goal with |- context [if ?b then (Some _, _) else _] => change b with true end. cbn iota. now rewrite T, D.
    + match goal with |- context [if ?b then (Some _, _) else _] => change b with true end. cbn iota. now rewrite T, D.
  - cbn [show_exp app]. destruct (suf_head l W) as [[-> _]|(c & r & -> & _ & [[-> _]|[->| ->]])]; reflexivity.
Qed.
Lemma dig_second i r c : digits_ok Decimal i -> starts_with_digit i -> In c (tx "xbo") -> hd_no (Ascii.eqb c) r -> strip_pre ["0"%char; c] (i ++ r) = None.
Proof.
  intros D S I H. destruct i as [|a [|b i]]; [destruct S| |]; cbn [app strip_pre].
  - destruct (Ascii.eqb "0" a); [|reflexivity]. destruct r as [|z r]; [reflexivity|]. cbn in H. now rewrite H.
  - destruct (Ascii.eqb "0" a); [|reflexivity]. inversion D as [|? ? _ D2]; subst. inversion D2 as [|? ? Db _]; subst. pose proof (dec_chars b Db) as N.
    replace (Ascii.eqb c b) with false; [reflexivity|]. symmetry. apply Ascii.eqb_neq. intros <-. apply (among_false _ _ c N); [|reflexivity]. cbn in I |- *. tauto.
Qed.
Lemma lex_show l : wf l -> lex (show l) = l.
Proof.
  intros W. change (show l) with (prefix_of (base l) ++ ipart l ++ show_frac (fpart l) ++ show_exp (epart l) ++ suf_of l). destruct (wf_i l W) as [DI HI]. destruct (radix_eqb (base l) Decimal) eqn:B.
  - assert (BD : base l = Decimal) by (destruct (base l); try discriminate; reflexivity). clear B. rewrite BD in *. cbn [prefix_of app].
    set (rest := show_frac (fpart l) ++ show_exp (epart l) ++ suf_of l).
    assert (RH : hd_no (dig_us Decimal) rest /\ forall c, In c (tx "xbo") -> hd_no (Ascii.eqb c) rest).
    { unfold rest. destruct (fpart l) as [f|] eqn:F; cbn [show_frac app].
      - split; [reflexivity|]. intros c I. cbn in I. repeat (destruct I as [<-|I]; [reflexivity|]); destruct I.
      - split; [apply exp_head; auto using suf_no_dec|]. intros c I.
        destruct (epart l) as [[[e sg] x]|] eqn:E; cbn [show_exp app].
        + destruct (wf_e l W _ _ _ E) as (EC & _). cbn in I. destruct EC as [->| ->]; cbn; repeat (destruct I as [<-|I]; [reflexivity|]); destruct I.
        + destruct (suf_head l W) as [[-> _]|(z & r & -> & _ & [[-> _]|[->| ->]])]; cbn in I |- *; repeat (destruct I as [<-|I]; [reflexivity|]); try destruct I; exact Logic.I. }
    destruct RH as [RH RX]. pose proof (wf_i_dec l W BD) as SD.
    unfold lex. change (tx "0x") with ["0"%char; "x"%char]. change (tx "0b") with ["0"%char; "b"%char]. change (tx "0o") with ["0"%char; "o"%char].
    rewrite !dig_second by (auto; try (apply RX); cbn; tauto). cbv beta iota zeta. destruct (take_app (dig_us Decimal) (ipart l) rest DI RH) as [-> ->].
    match goal with |- (let '(f, t) := ?m in _) = _ => assert (FR : m = (fpart l, show_exp (epart l) ++ suf_of l)) end.
    { unfold rest. destruct (fpart l) as [f|] eqn:F; cbn [show_frac app].
      - rewrite Ascii.eqb_refl. destruct (wf_f l W f F) as [DF _]. destruct (take_app (dig_us Decimal) f (show_exp (epart l) ++ suf_of l) DF) as [-> ->]; [apply exp_head; auto using suf_no_dec|reflexivity].
      - destruct (epart l) as [[[e sg] x]|] eqn:E; cbn [show_exp app].
        + destruct (wf_e l W _ _ _ E) as (EC & _). destruct EC as [->| ->]; reflexivity.
        + destruct (suf_head l W) as [[-> _]|(z & r & -> & _ & [[-> _]|[->| ->]])]; reflexivity. }
    rewrite FR, lex_exp_show, suffix_back by auto. rewrite <- BD. now destruct l.
  - assert (ND : base l <> Decimal) by (intros Q; rewrite Q in B; discriminate). destruct (wf_dec l W ND) as [F E]. rewrite F, E. cbn [show_frac show_exp app].
    destruct (take_app (dig_us (base l)) (ipart l) (suf_of l) DI (suf_no_dig l W)) as [T D].
    assert (K : lex (prefix_of (base l) ++ ipart l ++ suf_of l) = {| base := base l; ipart := take_while (dig_us (base l)) (ipart l ++ suf_of l); fpart := None; epart := None; tsuf := lex_suffix (drop_while (dig_us (base l)) (ipart l ++ suf_of l)) |}).
    { destruct (base l); [reflexivity|reflexivity|congruence|reflexivity]. }
    rewrite K, T, D, suffix_back by auto. destruct l; cbn in *; congruence.
Qed.

(** *** Mistyped suffix of an integer *)
Definition limits : list (text * Z) :=
  [(tx "i8", 2 ^ 7); (tx "i16", 2 ^ 15); (tx "i32", 2 ^ 31); (tx "i64", 2 ^ 63); (tx "u8", 2 ^ 8); (tx "u16", 2 ^ 16); (tx "u32", 2 ^ 32); (tx "u64", 2 ^ 64)]%Z.
Lemma parse_horner b : forall t acc v, (0 <= acc < 2 ^ 64)%Z -> (0 < b)%Z -> parse_acc b acc t = Some v -> v = fold_left (fun acc c => (acc * b + dval c)%Z) t acc /\ (0 <= v < 2 ^ 64)%Z.
Proof.
  induction t as [|c t IH]; intros acc v A B; cbn [parse_acc fold_left]; [intros [= <-]; auto|]. destruct (digit_value c) as [d|] eqn:D; [|discriminate].
  destruct (d <? b)%Z; [|discriminate]. assert (D0 : (0 <= d)%Z).
  { unfold digit_value, is_digit, code_in in D. destruct ((48 <=? nat_of_ascii c) && (nat_of_ascii c <=? 57)) eqn:Q1; [|destruct ((97 <=? nat_of_ascii c) && (nat_of_ascii c <=? 102)) eqn:Q2;
      [|destruct ((65 <=? nat_of_ascii c) && (nat_of_ascii c <=? 70)) eqn:Q3; [|discriminate]]]; injection D as <-.
    all: match goal with H : _ && _ = true |- _ => apply andb_true_iff in H as [H _]; apply Nat.leb_le in H end; lia. }
  cbv zeta. destruct (acc * b + d <? 2 ^ 64)%Z eqn:L; [|discriminate]. apply Z.ltb_lt in L. intros P. apply IH in P; [|nia|auto]. unfold dval at 2. rewrite D. exact P.
Qed.
Lemma from_str_value t r v : from_str_radix t r = Some v -> v = horner (base_of r) t /\ (0 <= v < 2 ^ 64)%Z /\ t <> [].
Proof.
  unfold from_str_radix. destruct t as [|c t]; [discriminate|]. intros P. apply parse_horner in P; [|lia|destruct r; cbn; lia]. destruct P. split; [auto|]. split; [auto|discriminate].
Qed.
Lemma missing_fits g i c : missing_char g i = Some c -> (0 <= i < 2 ^ 64)%Z ->
  exists lim, In (c :: g, lim) limits /\ (0 <= i < lim)%Z /\ In (c :: g) int_types /\ (c = "u"%char -> (lim <= 2 * i)%Z).
Proof.
  intros M B. assert (K : g = tx "8" \/ g = tx "16" \/ g = tx "32" \/ g = tx "64").
  { unfold missing_char in M. destruct (teqb g (tx "8")) eqn:E1; [apply teqb_eq in E1; auto|]. destruct (teqb g (tx "16")) eqn:E2; [apply teqb_eq in E2; auto|].
    destruct (teqb g (tx "32")) eqn:E3; [apply teqb_eq in E3; auto|]. destruct (teqb g (tx "64")) eqn:E4; [apply teqb_eq in E4; auto 6|]. discriminate. }
  destruct K as [->|[->|[->| ->]]]; unfold missing_char in M;
    repeat match type of M with context [teqb ?a ?b] => let v := eval vm_compute in (teqb a b) in change (teqb a b) with v in M end; cbn [andb] in M.
  - destruct (i <? 2 ^ 7)%Z eqn:L; [|destruct (i <? 2 ^ 8)%Z eqn:L2; [|discriminate]]; injection M as <-; [exists (2 ^ 7)%Z|exists (2 ^ 8)%Z];
      (split; [unfold limits; cbn [In]; tauto|]); (split; [lia|]); (split; [cbn; tauto|]); intros Q; [discriminate|lia].
  - destruct (i <? 2 ^ 15)%Z eqn:L; [|destruct (i <? 2 ^ 16)%Z eqn:L2; [|discriminate]]; injection M as <-; [exists (2 ^ 15)%Z|exists (2 ^ 16)%Z];
      (split; [unfold limits; cbn [In]; tauto|]); (split; [lia|]); (split; [cbn; tauto|]); intros Q; [discriminate|lia].
  - destruct (i <? 2 ^ 31)%Z eqn:L; [|destruct (i <? 2 ^ 32)%Z eqn:L2; [|discriminate]]; injection M as <-; [exists (2 ^ 31)%Z|exists (2 ^ 32)%Z];
      (split; [unfold limits; cbn [In]; tauto|]); (split; [lia|]); (split; [cbn; tauto|]); intros Q; [discriminate|lia].
  - destruct (i <? 2 ^ 63)%Z eqn:L; injection M as <-; [exists (2 ^ 63)%Z|exists (2 ^ 64)%Z];
      (split; [unfold limits; cbn [In]; tauto|]); (split; [lia|]); (split; [cbn; tauto|]); intros Q; [discriminate|lia].
Qed.
