(** Proofs about string literals. *)
From Coq Require Import Lia.
From Verif Require Import LitSpec.
Open Scope Z_scope.

Fixpoint lead (s : codes) : nat := match s with c :: s => if c =? hash then S (lead s) else 0%nat | [] => 0%nat end.
(** The number of hashes a raw string of this content needs. *)
Fixpoint need (s : codes) : nat := match s with c :: r => if c =? quote then Nat.max (S (lead r)) (need r) else need r | [] => 0%nat end.

Lemma lead_hashes s : exists r, s = hashes (lead s) ++ r /\ match r with c :: _ => c <> hash | [] => True end.
Proof.
  induction s as [|c s (r & E & H)]; [exists []; now split|]. cbn [lead]. destruct (Z.eqb_spec c hash) as [->|N].
  - exists r. split; [|exact H]. cbn. f_equal. exact E.
  - exists (c :: s). now split.
Qed.
Lemma hashes_lead k : forall s r, s = hashes k ++ r -> (k <= lead s)%nat.
Proof. induction k; intros s r ->; cbn; [lia|]. unfold hashes in *. specialize (IHk _ r eq_refl). lia. Qed.
Lemma hashes_le k n : (k <= n)%nat -> hashes n = hashes k ++ hashes (n - k).
Proof. intros H. unfold hashes. rewrite <- repeat_app. f_equal. lia. Qed.
Lemma need_iff s k : (k < need s)%nat <-> exists a b, s = a ++ closer k ++ b.
Proof.
  induction s as [|c s IH]; cbn [need].
  - split; [lia|]. intros ([|] & b & E); discriminate.
  - destruct (Z.eqb_spec c quote) as [->|N].
    + split.
      * intros H. destruct (Nat.lt_ge_cases k (need s)) as [L|L].
        -- apply IH in L as (a & b & ->). now exists (quote :: a), b.
        -- destruct (lead_hashes s) as (r & E & _). exists [], (hashes (lead s - k) ++ r). cbn. f_equal.
           rewrite E at 1. rewrite (hashes_le k (lead s)) by lia. now rewrite app_assoc.
      * intros ([|d a] & b & E).
        -- injection E as E. apply hashes_lead in E. lia.
        -- injection E as <- E. assert (k < need s)%nat by (apply IH; exists a, b; exact E). lia.
    + rewrite IH. split; intros (a & b & E).
      * exists (c :: a), b. now rewrite E.
      * destruct a as [|d a]; [injection E as -> _; now destruct N|]. injection E as <- E. exists a, b. exact E.
Qed.

Lemma firstn_app_exact {A} (a b : list A) : firstn (length a) (a ++ b) = a.
Proof. now rewrite firstn_app, firstn_all, Nat.sub_diag, app_nil_r. Qed.
Lemma skipn_app_exact {A} (a b : list A) : skipn (length a) (a ++ b) = b.
Proof. now rewrite skipn_app, skipn_all, Nat.sub_diag. Qed.
Lemma nth_closing (content r : codes) n b a : content ++ quote :: r = a ++ closer n ++ b -> (length a < length content)%nat -> (length a + n < length content)%nat.
Proof.
  intros E L. destruct (Nat.lt_ge_cases (length a + n) (length content)) as [H|H]; [exact H|exfalso].
  assert (E2 : nth_error (content ++ quote :: r) (length content) = nth_error (a ++ closer n ++ b) (length content)) by now rewrite E.
  rewrite nth_error_app2, Nat.sub_diag in E2 by lia. cbn in E2.
  rewrite nth_error_app2 in E2 by lia. unfold closer in E2. cbn [app] in E2.
  replace (length content - length a)%nat with (S (length content - length a - 1)) in E2 by lia. cbn in E2.
  rewrite nth_error_app1 in E2 by (unfold hashes; rewrite repeat_length; lia).
  symmetry in E2. apply nth_error_In, repeat_spec in E2. discriminate.
Qed.
Lemma raw_ends_iff n content rest : raw_ends n (content ++ closer n ++ rest) content rest <-> (need content <= n)%nat.
Proof.
  split.
  - intros (_ & H). destruct (Nat.le_gt_cases (need content) n) as [L|L]; [exact L|exfalso].
    apply need_iff in L as (a & b & E). specialize (H a (b ++ closer n ++ rest)).
    assert (length content <= length a)%nat by (apply H; rewrite E, !app_assoc; reflexivity).
    rewrite E, !app_length in H0. cbn in H0. lia.
  - intros L. split; [reflexivity|]. intros a b E. destruct (Nat.le_gt_cases (length content) (length a)) as [H|H]; [exact H|exfalso].
    pose proof (nth_closing content (hashes n ++ rest) n b a E H) as H2.
    apply (f_equal (firstn (length content))) in E. rewrite firstn_app_exact, app_assoc, (firstn_app (length content) (a ++ closer n)) in E.
    rewrite (@firstn_all2 _ _ (a ++ closer n)) in E by (rewrite app_length; unfold closer, hashes; cbn; rewrite repeat_length; lia).
    rewrite <- app_assoc in E.
    assert (n < need content)%nat by (apply need_iff; eexists; eexists; exact E). lia.
Qed.
Lemma reads_raw_iff prefix n content lit : reads_raw prefix n lit content <-> lit = raw_literal prefix n content /\ (need content <= n)%nat.
Proof.
  unfold reads_raw. split; intros (E & H); (split; [exact E|]).
  - now apply (raw_ends_iff n content []).
  - intros rest. now apply raw_ends_iff.
Qed.

(** ** The count *)
(** No quote is followed by hashes, a quote and more hashes. *)
Definition no_longer_run (s : codes) : Prop := forall a k j b, s = a ++ quote :: hashes k ++ quote :: hashes j ++ b -> (j <= k)%nat.
Lemma no_longer_run_tail c s : no_longer_run (c :: s) -> no_longer_run s.
Proof. intros H a k j b E. apply (H (c :: a) k j b). now rewrite E. Qed.

Lemma count_ok max s : max <= 255 -> Z.of_nat (need s) <= max -> no_longer_run s ->
  (forall req acc, acc <= max -> 0 <= acc -> count_hashes max (s ++ [0]) false req acc = Z.max acc (Z.of_nat (need s))) /\
  (forall req acc, acc <= max -> 0 <= acc -> 1 <= req -> req + Z.of_nat (lead s) <= max ->
     (forall m j b, s = hashes m ++ quote :: hashes j ++ b -> (Z.of_nat j <= req - 1 + Z.of_nat m)) ->
     count_hashes max (s ++ [0]) true req acc = Z.max acc (Z.max (req + Z.of_nat (lead s)) (Z.of_nat (need s)))).
Proof.
  intros M. induction s as [|c s IH]; intros N R.
  - split; intros req acc A A0; cbn; [lia|]. intros R1 R2 _. destruct (Z.eqb_spec req max); lia.
  - specialize (IH ltac:(cbn [need] in N; destruct (c =? quote); lia) (no_longer_run_tail _ _ R)). destruct IH as (IF & IT). split.
    + intros req acc A A0. cbn [app count_hashes need]. rewrite andb_true_r. cbn [need] in N. destruct (Z.eqb_spec c quote) as [->|NQ].
      * rewrite IT; [lia|lia|lia|lia|lia|]. intros m j b E. specialize (R [] m j b). rewrite E in R. specialize (R eq_refl). lia.
      * destruct (Z.eqb_spec c hash) as [->|NH]; now apply IF.
    + intros req acc A A0 R1 R2 H. cbn [app count_hashes need lead] in *. rewrite andb_false_r.
      destruct (Z.eqb_spec c hash) as [->|NH].
      * change (hash =? quote) with false in *. cbv iota in *. cbn [Z.b2z]. rewrite Z.mod_small by lia.
        rewrite IT; [lia|lia|lia|lia|lia|]. intros m j b E. specialize (H (S m) j b). rewrite E in H. specialize (H eq_refl). lia.
      * destruct (Z.eqb_spec req max) as [->|NR].
        { destruct (Z.eqb_spec c quote); lia. }
        rewrite IF by lia. destruct (Z.eqb_spec c quote) as [->|NQ]; [|lia].
        destruct (lead_hashes s) as (r & E & _). specialize (H 0%nat (lead s) r). cbn in H. rewrite <- E in H. specialize (H eq_refl). lia.
Qed.
(** The count never exceeds the need. *)
Lemma count_le max s : Z.of_nat (need s) <= max ->
  (forall req acc, 0 <= acc -> count_hashes max (s ++ [0]) false req acc <= Z.max acc (Z.of_nat (need s))) /\
  (forall req acc, 0 <= acc -> 0 <= req -> count_hashes max (s ++ [0]) true req acc <= Z.max acc (Z.max (req + Z.of_nat (lead s)) (Z.of_nat (need s)))).
Proof.
  induction s as [|c s IH]; intros N.
  - split; intros req acc A; cbn; [lia|]. destruct (Z.eqb_spec req max); lia.
  - specialize (IH ltac:(cbn [need] in N; destruct (c =? quote); lia)). destruct IH as (IF & IT). split.
    + intros req acc A. cbn [app count_hashes need]. rewrite andb_true_r. destruct (Z.eqb_spec c quote) as [->|NQ].
      * specialize (IT 1 acc A). lia.
      * destruct (Z.eqb_spec c hash) as [->|NH]; now apply IF.
    + intros req acc A A0. cbn [app count_hashes need lead] in *. rewrite andb_false_r.
      destruct (Z.eqb_spec c hash) as [->|NH].
      * change (hash =? quote) with false in *. cbv iota in *. cbn [Z.b2z].
        assert (X : 0 <= (req + 1) mod 256 <= req + 1) by (split; [apply Z.mod_pos_bound; lia|apply Z.mod_le; lia]).
        specialize (IT ((req + 1) mod 256) acc A). lia.
      * destruct (Z.eqb_spec req max) as [->|NR]; [destruct (Z.eqb_spec c quote); lia|].
        specialize (IF req (Z.max acc req)). destruct (Z.eqb_spec c quote); lia.
Qed.
Lemma count_nonneg max s : forall f req acc, 0 <= acc -> 0 <= req -> 0 <= count_hashes max s f req acc.
Proof.
  induction s as [|c s IH]; intros f req acc A R; cbn; [exact A|].
  repeat match goal with |- context [if ?x then _ else _] => destruct x end; try apply IH; try lia; apply Z.mod_pos_bound; lia.
Qed.
Lemma required_exact allow max s : max <= 255 -> Z.of_nat (need s) <= max -> no_longer_run s ->
  required allow max s = Z.max (Z.of_nat (need s)) (Z.b2z allow).
Proof.
  intros M N R. unfold required. rewrite (proj1 (count_ok max s M N R)) by lia. destruct allow; cbn; lia.
Qed.
Lemma required_le allow max s : Z.of_nat (need s) <= max -> 0 <= required allow max s <= Z.max (Z.of_nat (need s)) (Z.b2z allow).
Proof.
  intros N. unfold required. pose proof (proj1 (count_le max s N) 0 0 ltac:(lia)). pose proof (count_nonneg max (s ++ [0]) false 0 0).
  destruct allow; cbn; lia.
Qed.

Lemma remove_mid (a b c : codes) lo hi : lo = length a -> hi = (length a + length b)%nat -> remove lo hi (a ++ b ++ c) = a ++ c.
Proof.
  intros -> ->. unfold remove. rewrite firstn_app_exact. f_equal. rewrite app_assoc, <- app_length. apply skipn_app_exact.
Qed.
Lemma remove_hashes_ok prefix n m content : (n <= m)%nat ->
  remove_hashes (raw_literal prefix m content) (length prefix) (Z.of_nat n) (Z.of_nat m) = raw_literal prefix n content.
Proof.
  intros L. unfold remove_hashes. rewrite !Nat2Z.id.
  set (p := prefix ++ hashes m ++ quote :: content ++ [quote]).
  assert (E1 : raw_literal prefix m content = p ++ hashes (m - n) ++ hashes n).
  { unfold raw_literal, p, closer. replace (hashes (m - n) ++ hashes n) with (hashes m) by (unfold hashes; rewrite <- repeat_app; f_equal; lia).
    repeat rewrite <- app_assoc. cbn. repeat rewrite <- app_assoc. reflexivity. }
  assert (LL : length (raw_literal prefix m content) = (length p + m)%nat).
  { rewrite E1, !app_length. unfold hashes. rewrite !repeat_length. lia. }
  rewrite LL, E1, remove_mid by (unfold hashes; rewrite ?repeat_length; lia).
  unfold p, raw_literal. rewrite (hashes_le n m) at 1 by exact L.
  replace ((prefix ++ (hashes n ++ hashes (m - n)) ++ quote :: content ++ [quote]) ++ hashes n)
    with ((prefix ++ hashes n) ++ hashes (m - n) ++ quote :: content ++ closer n).
  2:{ unfold closer. repeat rewrite <- app_assoc. cbn. repeat rewrite <- app_assoc. reflexivity. }
  rewrite remove_mid by (rewrite app_length; unfold hashes; rewrite !repeat_length; lia).
  now rewrite <- app_assoc.
Qed.

Lemma raw_hashes_suggestion allow prefix max content lit new : (max <= 255)%nat -> reads_raw prefix max lit content -> no_longer_run content ->
  needless_raw_string_hashes allow (length prefix) (Z.of_nat max) content lit = Some new ->
  exists n, (n < max)%nat /\ reads_raw prefix n new content /\ (allow = true -> (1 <= n)%nat) /\
    forall m lit', reads_raw prefix m lit' content -> (m < n)%nat -> allow = true /\ m = 0%nat.
Proof.
  intros M H R. apply reads_raw_iff in H as (-> & N). unfold needless_raw_string_hashes. rewrite required_exact by (try exact R; lia).
  destruct (Z.ltb_spec (Z.max (Z.of_nat (need content)) (Z.b2z allow)) (Z.of_nat max)) as [L|]; [|discriminate]. intros [= <-].
  exists (Nat.max (need content) (if allow then 1 else 0)).
  assert (E : Z.max (Z.of_nat (need content)) (Z.b2z allow) = Z.of_nat (Nat.max (need content) (if allow then 1 else 0))) by (destruct allow; cbn; lia).
  rewrite E in *. rewrite remove_hashes_ok by lia. split; [lia|]. split; [apply reads_raw_iff; split; [reflexivity|lia]|].
  split; [intros ->; lia|]. intros m lit' H. apply reads_raw_iff in H as (_ & H). destruct allow; intros; [split; [reflexivity|lia]|lia].
Qed.
Lemma raw_hashes_found allow prefix max content lit : reads_raw prefix max lit content ->
  (exists n lit', (n < max)%nat /\ (allow = true -> (1 <= n)%nat) /\ reads_raw prefix n lit' content) ->
  exists new, needless_raw_string_hashes allow (length prefix) (Z.of_nat max) content lit = Some new.
Proof.
  intros H (n & lit' & L & A & K). apply reads_raw_iff in H as (-> & N). apply reads_raw_iff in K as (-> & K).
  unfold needless_raw_string_hashes. pose proof (required_le allow (Z.of_nat max) content ltac:(lia)) as (_ & Q).
  destruct (Z.ltb_spec (required allow (Z.of_nat max) content) (Z.of_nat max)) as [|X]; [eauto|exfalso].
  destruct allow; cbn [Z.b2z] in Q; [specialize (A eq_refl)|]; lia.
Qed.

Lemma plain_run bytes enc content : existsb (fun b => (b =? backslash) || (b =? quote)) content = false -> ~ In 13 content ->
  run bytes enc Norm content = Some (content, Norm).
Proof.
  induction content as [|c s IH]; [reflexivity|]. cbn. intros H N. apply orb_false_iff in H as (H1 & H2). apply orb_false_iff in H1 as (HB & HQ).
  unfold plain. rewrite HB, HQ. destruct (Z.eqb_spec c 13) as [->|]; [destruct N; now left|]. cbn. rewrite IH; auto.
Qed.
Lemma raw_to_plain bytes enc p max content lit new : reads_raw (p ++ [114]) max lit content -> ~ In 13 content ->
  needless_raw_strings (length (p ++ [114])) (Z.of_nat max) content lit = Some new ->
  new = p ++ quote :: content ++ [quote] /\ string_value bytes enc content = Some content.
Proof.
  intros H N. apply reads_raw_iff in H as (-> & _). unfold needless_raw_strings.
  destruct (existsb _ content) eqn:E; [discriminate|]. intros [= <-]. split.
  - unfold raw_literal, closer. rewrite !Nat2Z.id.
    replace ((p ++ [114]) ++ hashes max ++ quote :: content ++ quote :: hashes max)
      with (((p ++ [114]) ++ hashes max ++ quote :: content ++ [quote]) ++ hashes max ++ []) by (rewrite app_nil_r, <- !app_assoc; cbn; now rewrite <- !app_assoc).
    rewrite remove_mid.
    + rewrite app_nil_r. rewrite <- app_assoc. rewrite (app_assoc [114]). rewrite remove_mid; [reflexivity| |].
      * rewrite app_length. cbn. lia.
      * rewrite !app_length. cbn. unfold hashes. rewrite ?repeat_length. lia.
    + rewrite !app_length. cbn. rewrite !app_length. cbn. unfold hashes. rewrite !repeat_length. lia.
    + rewrite !app_length. cbn. rewrite !app_length. cbn. unfold hashes. rewrite !repeat_length. lia.
  - unfold string_value. now rewrite plain_run.
Qed.

(** ** Octal escapes *)
Section Octal.
  Context (bytes : bool) (enc : Z -> codes).
  Notation run := (run bytes enc). Notation step := (step bytes enc).
  Lemma run_app a : forall st b, run st (a ++ b) =
    match run st a with Some (v, st1) => match run st1 b with Some (w, st2) => Some (v ++ w, st2) | None => None end | None => None end.
  Proof.
    induction a as [|c a IH]; intros st b; cbn.
    - destruct (run st b) as [[w st2]|]; reflexivity.
    - destruct (step st c) as [[v st1]|]; [|reflexivity]. rewrite IH. destruct (run st1 a) as [[w st2]|]; [|reflexivity].
      destruct (run st2 b) as [[x st3]|]; [|reflexivity]. now rewrite app_assoc.
  Qed.
  Lemma step_plain_not_esc st c v st1 : step st c = Some (v, st1) -> c <> backslash -> st1 <> Esc.
  Proof.
    intros H N ->. destruct st; cbn in H; unfold plain in H;
      repeat match type of H with
        | context [c =? backslash] => destruct (Z.eqb_spec c backslash); [contradiction|]
        | context [match ?x with _ => _ end] => destruct x; try discriminate
        end; discriminate.
  Qed.
  Lemma step_esc_not_esc c v st1 : step Esc c = Some (v, st1) -> st1 <> Esc.
  Proof.
    intros H ->. cbn in H. repeat match type of H with context [if ?x then _ else _] => destruct x; try discriminate end.
  Qed.
  Lemma step_backslash st v st1 : st <> Esc -> step st backslash = Some (v, st1) -> ends_ok st = true /\ v = [] /\ st1 = Esc.
  Proof.
    intros N H. destruct st; try discriminate; cbn in H; try (now injection H as <- <-); try now destruct N.
  Qed.
  Lemma step_ok_backslash st : ends_ok st = true -> step st backslash = Some ([], Esc).
  Proof. destruct st; try discriminate; reflexivity. Qed.
  Lemma step_octal st h : ends_ok st = true -> is_octal h = true -> step st h = Some ([h], Norm).
  Proof.
    unfold is_octal. intros S H. apply andb_true_iff in H as (H1 & H2). apply Z.leb_le in H1, H2.
    assert (P : plain h = Some ([h], Norm)).
    { unfold plain, backslash, quote. destruct (Z.eqb_spec h 92), (Z.eqb_spec h 34), (Z.eqb_spec h 13); cbn; try lia. reflexivity. }
    destruct st; try discriminate; cbn; [exact P|]. unfold blank.
    destruct (Z.eqb_spec h 32), (Z.eqb_spec h 9), (Z.eqb_spec h 10), (Z.eqb_spec h 13); cbn; try lia. exact P.
  Qed.
  Definition token (o : octal) : codes := if (len o =? 4)%nat then [backslash; zero; c_hi o; c_lo o] else [backslash; zero; c_lo o].
  Definition digits (o : octal) : codes := if (len o =? 4)%nat then [c_hi o; c_lo o] else [c_lo o].
  Definition octal_fine (o : octal) : Prop :=
    is_octal (c_hi o) = true /\ is_octal (c_lo o) = true /\ (len o = 4%nat \/ len o = 3%nat /\ c_hi o = zero).
  Lemma scan_sound n : forall s i st r, (length s <= n)%nat -> st <> Esc -> run st s = Some r ->
    forall o, In o (scan i s) -> exists pre post st1 v1, s = pre ++ token o ++ post /\ at_ o = (i + length pre)%nat /\
      run st pre = Some (v1, st1) /\ ends_ok st1 = true /\ octal_fine o.
  Proof.
    induction n as [|n IH]; intros s i st r L NE R o I.
    { destruct s; [contradiction|cbn in L; lia]. }
    destruct s as [|c s1]; [contradiction|]. cbn [scan] in I. cbn [length] in L.
    assert (lift : forall (p : codes) s' st' v', run st p = Some (v', st') -> c :: s1 = p ++ s' -> (length s' <= n)%nat -> st' <> Esc -> In o (scan (i + length p) s') ->
      exists pre post st1 v1, c :: s1 = pre ++ token o ++ post /\ at_ o = (i + length pre)%nat /\ run st pre = Some (v1, st1) /\ ends_ok st1 = true /\ octal_fine o).
    { intros p s' st' v' E1 E2 L' N' I'. rewrite E2, run_app, E1 in R. destruct (run st' s') as [[w st2]|] eqn:R2; [|discriminate].
      destruct (IH _ _ _ _ L' N' R2 _ I') as (pre & post & st1 & v1 & -> & A & Rp & Ok & F).
      exists (p ++ pre), post, st1, (v' ++ v1). rewrite E2, run_app, E1, Rp, app_length, A. rewrite <- app_assoc. repeat split; auto; try apply F. lia. }
    destruct (Z.eqb_spec c backslash) as [->|NB].
    - cbn [LitSpec.run] in R. destruct (step st backslash) as [[v0 st0]|] eqn:S0; [|discriminate]. destruct (step_backslash _ _ _ NE S0) as (Ok & -> & ->).
      destruct s1 as [|e s2]; [contradiction|]. cbn [length] in L. cbn [LitSpec.run] in R.
      destruct (step Esc e) as [[v1 st1]|] eqn:S1; [|discriminate].
      assert (Rp : run st [backslash; e] = Some (v1, st1)) by (cbn [LitSpec.run]; rewrite S0, S1; cbn; now rewrite app_nil_r).
      destruct (Z.eqb_spec e zero) as [->|NZ].
      2:{ apply (lift [backslash; e] s2 st1 v1 Rp eq_refl); [lia|now apply step_esc_not_esc in S1|exact I]. }
      injection S1 as <- <-.
      destruct s2 as [|hi s3]; [contradiction|]. cbn [length] in L. destruct (is_octal hi) eqn:Oh.
      2:{ apply (lift [backslash; zero] (hi :: s3) Norm [0] Rp eq_refl); [cbn; lia|discriminate|exact I]. }
      assert (done3 : forall o', o' = {| at_ := i; len := 3; c_hi := zero; c_lo := hi |} -> o = o' ->
        exists pre post st1 v1, backslash :: zero :: hi :: s3 = pre ++ token o ++ post /\ at_ o = (i + length pre)%nat /\ run st pre = Some (v1, st1) /\ ends_ok st1 = true /\ octal_fine o).
      { intros o' -> ->. exists [], s3, st, []. cbn. repeat split; auto. }
      assert (R3 : run st [backslash; zero; hi] = Some ([0; hi], Norm)).
      { change ([backslash; zero; hi]) with ([backslash; zero] ++ [hi]). rewrite run_app, Rp. cbn [LitSpec.run]. now rewrite step_octal by auto. }
      destruct s3 as [|lo tail].
      { destruct I as [<-|[]]. eapply done3; reflexivity. }
      cbn [length] in L. destruct (is_octal lo) eqn:Ol.
      + destruct I as [<-|I].
        * exists [], tail, st, []. cbn. repeat split; auto.
        * apply (lift [backslash; zero; hi; lo] tail Norm [0; hi; lo]); [|reflexivity|lia|discriminate|exact I].
          change ([backslash; zero; hi; lo]) with ([backslash; zero; hi] ++ [lo]). rewrite run_app, R3. cbn [LitSpec.run]. now rewrite step_octal by auto.
      + destruct I as [<-|I]; [eapply done3; reflexivity|].
        apply (lift [backslash; zero; hi] (lo :: tail) Norm [0; hi] R3 eq_refl); [cbn; lia|discriminate|exact I].
    - cbn [LitSpec.run] in R. destruct (step st c) as [[v0 st0]|] eqn:S0; [|discriminate].
      apply (lift [c] s1 st0 v0); [cbn [LitSpec.run]; rewrite S0; cbn; now rewrite app_nil_r|reflexivity|lia|now apply step_plain_not_esc in S0|exact I].
  Qed.
  Lemma scan_complete n : forall pre i st v st1 d post, (length pre <= n)%nat -> st <> Esc -> run st pre = Some (v, st1) -> ends_ok st1 = true -> is_octal d = true ->
    exists o, In o (scan i (pre ++ backslash :: zero :: d :: post)) /\ at_ o = (i + length pre)%nat.
  Proof.
    assert (base : forall i d post, is_octal d = true -> exists o, In o (scan i (backslash :: zero :: d :: post)) /\ at_ o = i).
    { intros i d post D. cbn. rewrite D. destruct post as [|lo t]; [eexists; split; [now left|reflexivity]|].
      destruct (is_octal lo); (eexists; split; [now left|reflexivity]). }
    induction n as [|n IH]; intros pre i st v st1 d post L NE R Ok D.
    { destruct pre; [|cbn in L; lia]. destruct (base i d post D) as (o & I & A). exists o. split; [exact I|cbn; lia]. }
    destruct pre as [|c p1]; [destruct (base i d post D) as (o & I & A); exists o; split; [exact I|cbn; lia]|].
    cbn [length] in L. cbn [LitSpec.run] in R. destruct (step st c) as [[v0 st0]|] eqn:S0; [|discriminate].
    destruct (run st0 p1) as [[w st2]|] eqn:R1; [|discriminate]. injection R as <- <-.
    assert (lift : forall k p' st' v', (length p' <= n)%nat -> st' <> Esc -> run st' p' = Some (v', st2) -> length (c :: p1) = (k + length p')%nat ->
      scan i ((c :: p1) ++ backslash :: zero :: d :: post) = scan (i + k) (p' ++ backslash :: zero :: d :: post) \/
      (exists o, scan i ((c :: p1) ++ backslash :: zero :: d :: post) = o :: scan (i + k) (p' ++ backslash :: zero :: d :: post)) ->
      exists o, In o (scan i ((c :: p1) ++ backslash :: zero :: d :: post)) /\ at_ o = (i + length (c :: p1))%nat).
    { intros k p' st' v' L' N' R' Len E. destruct (IH p' (i + k)%nat st' v' st2 d post L' N' R' Ok D) as (o & I & A). exists o. split.
      - destruct E as [->|(x & ->)]; [exact I|now right].
      - rewrite A, Len. lia. }
    destruct (Z.eqb_spec c backslash) as [->|NB].
    - destruct (step_backslash _ _ _ NE S0) as (_ & _ & ->). destruct p1 as [|e p2]; [injection R1 as <- <-; discriminate Ok|].
      cbn [length] in L. cbn [LitSpec.run] in R1. destruct (step Esc e) as [[v1 st3]|] eqn:S1; [|discriminate].
      destruct (run st3 p2) as [[w2 st4]|] eqn:R2; [|discriminate]. injection R1 as <- <-.
      destruct (Z.eqb_spec e zero) as [->|NZ].
      2:{ apply (lift 2%nat p2 st3 w2); [lia|now apply step_esc_not_esc in S1|exact R2|reflexivity|left]. cbn.
          destruct (Z.eqb_spec e zero); [contradiction|reflexivity]. }
      injection S1 as <- <-. destruct p2 as [|h p3].
      { apply (lift 2%nat [] Norm w2); [cbn; lia|discriminate|exact R2|reflexivity|left; reflexivity]. }
      cbn [length] in L. destruct (is_octal h) eqn:Oh.
      2:{ apply (lift 2%nat (h :: p3) Norm w2); [cbn; lia|discriminate|exact R2|reflexivity|left]. cbn. now rewrite Oh. }
      cbn [LitSpec.run] in R2. rewrite step_octal in R2 by auto. destruct (run Norm p3) as [[w3 st5]|] eqn:R3; [|discriminate]. injection R2 as <- <-.
      destruct p3 as [|l p4].
      { apply (lift 3%nat [] Norm w3); [cbn; lia|discriminate|exact R3|reflexivity|right]. cbn. rewrite Oh. eexists. reflexivity. }
      cbn [length] in L. destruct (is_octal l) eqn:Ol.
      + cbn [LitSpec.run] in R3. rewrite step_octal in R3 by auto. destruct (run Norm p4) as [[w4 st6]|] eqn:R4; [|discriminate]. injection R3 as <- <-.
        apply (lift 4%nat p4 Norm w4); [lia|discriminate|exact R4|reflexivity|right]. cbn. rewrite Oh, Ol. eexists. reflexivity.
      + apply (lift 3%nat (l :: p4) Norm w3); [cbn; lia|discriminate|exact R3|reflexivity|right]. cbn. rewrite Oh, Ol. eexists. reflexivity.
    - apply (lift 1%nat p1 st0 w); [lia|now apply step_plain_not_esc in S0|exact R1|reflexivity|left]. cbn.
      destruct (Z.eqb_spec c backslash); [contradiction|reflexivity].
  Qed.
  Lemma octal_range h : is_octal h = true -> 48 <= h <= 55.
  Proof. unfold is_octal. rewrite andb_true_iff, !Z.leb_le. lia. Qed.
  Lemma run_hex st o : ends_ok st = true -> octal_fine o -> run st (hex_escape o) = Some ([8 * (c_hi o - 48) + (c_lo o - 48)], Norm).
  Proof.
    intros S (H & L & _). apply octal_range in H, L. unfold hex_escape.
    assert (E : Z.lor (Z.shiftl (c_hi o - 48) 3) (c_lo o - 48) = 8 * (c_hi o - 48) + (c_lo o - 48)).
    { generalize dependent (c_hi o). generalize dependent (c_lo o). intros b B a A.
      assert (a = 48 \/ a = 49 \/ a = 50 \/ a = 51 \/ a = 52 \/ a = 53 \/ a = 54 \/ a = 55) as Ca by lia.
      assert (b = 48 \/ b = 49 \/ b = 50 \/ b = 51 \/ b = 52 \/ b = 53 \/ b = 54 \/ b = 55) as Cb by lia.
      repeat destruct Ca as [->|Ca]; repeat destruct Cb as [->|Cb]; subst; reflexivity. }
    rewrite E. set (v := 8 * (c_hi o - 48) + (c_lo o - 48)). assert (V : 0 <= v < 64) by (unfold v; lia). clearbody v.
    cbn [LitSpec.run]. rewrite step_ok_backslash by auto.
    assert (D : forall d, 0 <= d < 16 -> hex_val (hex_lower d) = Some d).
    { intros d B. unfold hex_lower, hex_val. destruct (Z.ltb_spec d 10).
      - replace (48 <=? 48 + d) with true by (symmetry; apply Z.leb_le; lia). replace (48 + d <=? 57) with true by (symmetry; apply Z.leb_le; lia). cbn [andb]. f_equal. lia.
      - replace (87 + d <=? 57) with false by (symmetry; apply Z.leb_gt; lia). rewrite andb_false_r.
        replace (97 <=? 87 + d) with true by (symmetry; apply Z.leb_le; lia). replace (87 + d <=? 102) with true by (symmetry; apply Z.leb_le; lia). cbn [andb]. f_equal. lia. }
    assert (Q : v = 16 * (v / 16) + v mod 16) by (apply Z.div_mod; lia). assert (B1 : 0 <= v mod 16 < 16) by (apply Z.mod_pos_bound; lia).
    cbn -[hex_val hex_lower Z.div Z.modulo Z.mul Z.add Z.ltb]. rewrite D by lia. cbn -[hex_val hex_lower Z.div Z.modulo Z.mul Z.add Z.ltb]. rewrite D by lia. rewrite <- Q. destruct (Z.ltb_spec v 128); [|lia]. rewrite orb_true_r. reflexivity.
  Qed.
  Lemma run_token st o : ends_ok st = true -> octal_fine o -> run st (token o) = Some (0 :: digits o, Norm).
  Proof.
    intros S (H & L & K). unfold token, digits.
    assert (R2 : run st [backslash; zero] = Some ([0], Norm)) by (cbn [LitSpec.run]; rewrite step_ok_backslash by auto; reflexivity).
    destruct (len o =? 4)%nat.
    - change [backslash; zero; c_hi o; c_lo o] with ([backslash; zero] ++ [c_hi o; c_lo o]). rewrite run_app, R2. cbn [LitSpec.run]. now rewrite !step_octal by auto.
    - change [backslash; zero; c_lo o] with ([backslash; zero] ++ [c_lo o]). rewrite run_app, R2. cbn [LitSpec.run]. now rewrite !step_octal by auto.
  Qed.
  Lemma run_null st o : ends_ok st = true -> octal_fine o -> run st (null_escape o) = Some ([0; c_hi o; c_lo o], Norm).
  Proof.
    intros S (H & L & K). unfold null_escape.
    assert (R2 : run st [backslash; 120; 48; 48] = Some ([0], Norm)) by (cbn [LitSpec.run]; rewrite step_ok_backslash by auto; cbn; now rewrite orb_true_r).
    change [backslash; 120; 48; 48; c_hi o; c_lo o] with ([backslash; 120; 48; 48] ++ [c_hi o; c_lo o]). rewrite run_app, R2. cbn [LitSpec.run]. now rewrite !step_octal by auto.
  Qed.
  Lemma octal_sound s v o : string_value bytes enc s = Some v -> In o (octal_escapes s) -> exists vp vq,
    octal_at bytes enc s (at_ o) /\ octal_fine o /\ v = vp ++ (0 :: digits o) ++ vq /\
    string_value bytes enc (replace o (hex_escape o) s) = Some (vp ++ [8 * (c_hi o - 48) + (c_lo o - 48)] ++ vq) /\
    string_value bytes enc (replace o (null_escape o) s) = Some (vp ++ [0; c_hi o; c_lo o] ++ vq).
  Proof.
    unfold string_value, octal_escapes. intros V I. destruct (run Norm s) as [[v0 st0]|] eqn:R; [|discriminate].
    destruct (ends_ok st0) eqn:Ok0; [|discriminate]. injection V as ->.
    destruct (scan_sound (length s) s 0 Norm _ (le_n _) ltac:(discriminate) R o I) as (pre & post & st1 & v1 & -> & A & Rp & Ok & F).
    assert (TL : length (token o) = len o) by (unfold token; destruct F as (_ & _ & [K|(K & _)]); rewrite K; reflexivity).
    rewrite run_app, Rp, run_app, (run_token _ _ Ok F) in R. destruct (run Norm post) as [[w st2]|] eqn:R2; [|discriminate]. injection R as <- <-.
    exists v1, w.
    assert (Re : forall new, replace o new (pre ++ token o ++ post) = pre ++ new ++ post).
    { intros new. unfold replace. rewrite A. cbn [Nat.add]. rewrite firstn_app_exact. f_equal. f_equal.
      rewrite app_assoc, <- TL, <- app_length. apply skipn_app_exact. }
    split; [|split; [exact F|split; [reflexivity|]]].
    - unfold octal_at. destruct F as (F1 & F2 & F3). assert (T : exists d t, token o = backslash :: zero :: d :: t /\ 48 <= d <= 55).
      { unfold token. destruct (len o =? 4)%nat; eexists; eexists; (split; [reflexivity|]); now apply octal_range. }
      destruct T as (d & t & -> & D). exists pre, v1, d, (t ++ post). rewrite A. repeat split; try lia. exists st1. now split.
    - rewrite !Re. split.
      + rewrite run_app, Rp, run_app, (run_hex _ _ Ok F), R2, Ok0. reflexivity.
      + rewrite run_app, Rp, run_app, (run_null _ _ Ok F), R2, Ok0. reflexivity.
  Qed.
  Lemma octal_complete s i : octal_at bytes enc s i -> exists o, In o (octal_escapes s) /\ at_ o = i.
  Proof.
    intros (pre & v & d & post & -> & <- & (st & R & Ok) & D).
    apply (scan_complete (length pre) pre 0 Norm v st d post (le_n _)); [discriminate|exact R|exact Ok|].
    unfold is_octal. apply andb_true_iff. rewrite !Z.leb_le. lia.
  Qed.
End Octal.

(** ** Character literals *)
Lemma utf8_len_pos c : 1 <= utf8_len c.
Proof. unfold utf8_len. destruct (c <? 128), (c <? 2048), (c <? 65536); lia. Qed.
Lemma one_char (ascii_only : bool) (value : codes) : (if ascii_only then fold_right (fun c n => utf8_len c + n) 0 value =? 1 else (length value =? 1)%nat) = true ->
  exists c, value = [c] /\ (ascii_only = true -> c < 128).
Proof.
  destruct ascii_only.
  - intros H. apply Z.eqb_eq in H. destruct value as [|c [|d r]]; cbn in H; [lia| |].
    + exists c. split; [reflexivity|]. intros _. unfold utf8_len in H. destruct (Z.ltb_spec c 128); [assumption|]. destruct (c <? 2048), (c <? 65536); lia.
    + pose proof (utf8_len_pos c). pose proof (utf8_len_pos d).
      assert (0 <= fold_right (fun c n => utf8_len c + n) 0 r) by (clear; induction r as [|x r IH]; cbn; [lia|pose proof (utf8_len_pos x); lia]). lia.
  - intros H. apply Nat.eqb_eq in H. destruct value as [|c [|]]; try discriminate. exists c. split; [reflexivity|discriminate].
Qed.
Lemma body_raw n content : firstn (length (raw_literal [114] n content) - 1 - n - (n + 2)) (skipn (n + 2) (raw_literal [114] n content)) = content.
Proof.
  unfold raw_literal. replace ([114] ++ hashes n ++ quote :: content ++ closer n) with (([114] ++ hashes n ++ [quote]) ++ content ++ closer n)
    by (repeat rewrite <- app_assoc; reflexivity).
  assert (E : (n + 2)%nat = length ([114] ++ hashes n ++ [quote])) by (rewrite !app_length; unfold hashes; rewrite repeat_length; cbn; lia).
  rewrite E at 2. rewrite skipn_app_exact. rewrite app_length, <- E, app_length. unfold closer at 1. cbn [length]. unfold hashes at 1. rewrite repeat_length.
  replace (n + 2 + (length content + S n) - 1 - n - (n + 2))%nat with (length content) by lia. apply firstn_app_exact.
Qed.
Lemma body_plain body : firstn (length (quote :: body ++ [quote]) - 1 - 1) (skipn 1 (quote :: body ++ [quote])) = body.
Proof.
  cbn [skipn length]. rewrite app_length. cbn [length]. replace (S (length body + 1) - 1 - 1)%nat with (length body) by lia. apply firstn_app_exact.
Qed.
Lemma codes_eqb_iff a b : codes_eqb a b = true <-> a = b.
Proof. unfold codes_eqb. destruct (list_eq_dec Z.eq_dec a b); split; congruence. Qed.

Lemma run_no_output s : forall st st1, ~ In 10 s -> (st = Norm \/ st = Skip) -> run false one st s = Some ([], st1) -> ends_ok st1 = true -> st = Norm -> s = [].
Proof.
  intros st st1 N _ R Ok ->. destruct s as [|c s]; [reflexivity|exfalso]. cbn [run step] in R. unfold plain in R.
  destruct (Z.eqb_spec c backslash) as [->|].
  - destruct s as [|e r]; [cbn in R; injection R as <-; discriminate|]. cbn [run] in R.
    destruct (step false one Esc e) as [[v st]|] eqn:S; [|discriminate]. destruct (run false one st r) as [[w st2]|] eqn:R2; [|discriminate].
    injection R as R <-. apply app_eq_nil in R as (-> & ->).
    assert (P : forall q x, run false one x q = Some ([], st2) -> (x = X1 \/ (exists h, x = X2 h) \/ x = U0 \/ exists a n, x = U a n) -> False).
    { clear - Ok. induction q as [|c q IH]; intros x R X.
      - injection R as <-. destruct X as [->|[(h & ->)|[->|(a & n & ->)]]]; discriminate.
      - cbn [run] in R. destruct (step false one x c) as [[v y]|] eqn:S; [|discriminate]. destruct (run false one y q) as [[w z]|] eqn:R2; [|discriminate].
        injection R as R <-. apply app_eq_nil in R as (-> & ->). apply (IH y R2). clear IH R2.
        destruct X as [->|[(h & ->)|[->|(a & n & ->)]]]; cbn in S.
        + destruct (hex_val c); [|discriminate]. injection S as <-. right; left; eauto.
        + destruct (hex_val c); [|discriminate]. match type of S with context [if ?x then _ else _] => destruct x end; discriminate.
        + destruct (c =? 123); [|discriminate]. injection S as <-. right; right; right; eauto.
        + unfold one in S. repeat match type of S with context [match ?x with _ => _ end] => destruct x; try discriminate S end; injection S as <-; right; right; right; eauto. }
    cbn in S. repeat match type of S with context [if ?x then _ else _] => destruct x eqn:?; try discriminate end; injection S as <-.
    + apply (P r X1 R2). now left.
    + apply (P r U0 R2). right; right; now left.
    + apply N. right; left. now apply Z.eqb_eq.
  - destruct ((c =? quote) || (c =? 13)); [discriminate|]. destruct (run false one Norm s) as [[w st2]|]; discriminate.
Qed.
Lemma esc_norm_once e r c st : ~ In 10 (e :: r) -> run false one Esc (e :: r) = Some ([c], st) -> ends_ok st = true -> st = Norm.
Proof.
  intros N R Ok. destruct st; try discriminate; [reflexivity|exfalso].
  assert (G : forall s st v, ~ In 10 s -> st <> Skip -> run false one st s = Some (v, Skip) -> False).
  { clear. induction s as [|x s IH]; intros st v N NS R; [injection R as _ ->; now apply NS|].
    cbn [run] in R. destruct (step false one st x) as [[w st1]|] eqn:S; [|discriminate]. destruct (run false one st1 s) as [[w2 st2]|] eqn:R2; [|discriminate].
    injection R as _ ->. refine (IH st1 _ (fun H => N (or_intror H)) _ R2). intros ->. unfold one in *.
    destruct st; cbn in S; unfold plain in S;
      repeat match type of S with context [match ?q with _ => _ end] => destruct q eqn:?; try discriminate S end; try now apply NS.
    apply N. left. now apply Z.eqb_eq. }
  refine (G _ _ _ N _ R). discriminate.
Qed.
Lemma str_to_char_ok ascii_only raw lit value hint : string_literal raw lit value -> ~ In 10 lit -> ~ In 13 lit -> ~ In 9 lit ->
  str_to_char ascii_only raw lit value = Some hint -> exists c, value = [c] /\ char_literal hint c.
Proof.
  intros SL N10 N13 N9 H. unfold str_to_char in H. destruct (if ascii_only then _ else _) eqn:L; [|discriminate].
  apply one_char in L as (c & -> & _). exists c. split; [reflexivity|]. injection H as <-. unfold char_literal. eexists. split; [reflexivity|].
  destruct raw as [n|].
  - assert (S2 : reads_raw [114] n lit [c]) by exact SL. apply reads_raw_iff in S2 as (-> & _). rewrite body_raw.
    assert (IN : forall x, In x [c] -> In x (raw_literal [114] n [c])).
    { intros x X. unfold raw_literal. apply in_or_app. right. apply in_or_app. right. right. apply in_or_app. now left. }
    destruct (codes_eqb [c] [tick]) eqn:E1; [apply codes_eqb_iff in E1; injection E1 as ->; right; exists tick, []; repeat split; discriminate|].
    destruct (codes_eqb [c] [backslash]) eqn:E2; [apply codes_eqb_iff in E2; injection E2 as ->; right; exists backslash, []; repeat split; discriminate|].
    destruct (codes_eqb [c] [backslash; quote]) eqn:E3; [apply codes_eqb_iff in E3; discriminate|].
    left. split; [reflexivity|]. intros [<-|[<-|[<-|[<-|[<-|[]]]]]]; try discriminate.
    + now apply N10, IN; left.
    + now apply N13, IN; left.
    + now apply N9, IN; left.
  - destruct SL as (body & -> & V). rewrite body_plain. unfold string_value in V. destruct (run false one Norm body) as [[v st]|] eqn:R; [|discriminate].
    destruct (ends_ok st) eqn:Ok; [|discriminate]. injection V as ->.
    assert (IN : forall x, In x body -> In x (quote :: body ++ [quote])) by (intros x X; right; apply in_or_app; now left).
    assert (M10 : ~ In 10 body) by (intros X; now apply N10, IN). assert (M13 : ~ In 13 body) by (intros X; now apply N13, IN). assert (M9 : ~ In 9 body) by (intros X; now apply N9, IN).
    destruct body as [|x body]; [discriminate|]. cbn [run step] in R. unfold plain in R. destruct (Z.eqb_spec x backslash) as [->|NB].
    + destruct (run false one Esc body) as [[w st2]|] eqn:R2; [|discriminate]. injection R as -> ->.
      destruct body as [|e r]; [discriminate R2|].
      assert (ME : ~ In 10 (e :: r)) by (intros X; apply M10; now right). pose proof (esc_norm_once _ _ _ _ ME R2 Ok) as ->.
      destruct (codes_eqb _ [tick]) eqn:E1; [apply codes_eqb_iff in E1; discriminate|].
      destruct (codes_eqb _ [backslash]) eqn:E2; [apply codes_eqb_iff in E2; discriminate|].
      destruct (codes_eqb _ [backslash; quote]) eqn:E3.
      * apply codes_eqb_iff in E3. injection E3 as -> ->. injection R2 as <-. left. split; [reflexivity|]. intros [X|[X|[X|[X|[X|[]]]]]]; discriminate X.
      * right. exists e, r. split; [reflexivity|]. split; [intros ->; apply ME; now left|exact R2].
    + destruct ((x =? quote) || (x =? 13)) eqn:Q; [discriminate|]. destruct (run false one Norm body) as [[w st2]|] eqn:R2; [|discriminate].
      injection R as -> -> ->. assert (B : body = []) by (apply (run_no_output body Norm st); auto; intros X; apply M10; now right). subst body.
      destruct (codes_eqb [c] [tick]) eqn:E1; [apply codes_eqb_iff in E1; injection E1 as ->; right; exists tick, []; repeat split; discriminate|].
      destruct (codes_eqb [c] [backslash]) eqn:E2; [apply codes_eqb_iff in E2; injection E2 as ->; contradiction|].
      destruct (codes_eqb [c] [backslash; quote]) eqn:E3; [apply codes_eqb_iff in E3; discriminate|].
      left. split; [reflexivity|]. intros [<-|[<-|[<-|[<-|[<-|[]]]]]]; try discriminate; try contradiction; try (now apply M10; left); try (now apply M13; left); now apply M9; left.
Qed.
Lemma str_to_char_some ascii_only raw lit c : (ascii_only = true -> c < 128) -> exists hint, str_to_char ascii_only raw lit [c] = Some hint.
Proof.
  intros A. unfold str_to_char. replace (if ascii_only then _ else _) with true; [eauto|]. destruct ascii_only; [|reflexivity].
  cbn. unfold utf8_len. destruct (Z.ltb_spec c 128); [reflexivity|]. specialize (A eq_refl). lia.
Qed.
