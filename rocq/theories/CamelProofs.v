(** Proofs about str_utils.rs. *)
From Coq Require Import Lia Sorted.
From Verif Require Export CamelSpec.
Section Proofs.
  Context {A : chars} (U : unicode A).
  Local Notation str := (list A).

  Lemma blen_app (a b : str) : blen (a ++ b) = blen a + blen b.
  Proof. induction a as [|c a IH]; [reflexivity|]. change (len_utf8 A c + blen (a ++ b) = len_utf8 A c + blen a + blen b). rewrite IH. lia. Qed.
  Lemma blen_cons (c : A) s : blen (c :: s) = len_utf8 A c + blen s.
  Proof. reflexivity. Qed.
  Lemma blen_pos (s : str) : s <> [] -> 0 < blen s.
  Proof. destruct s as [|c s]; [congruence|]. intros _. rewrite blen_cons. pose proof (some_byte U c). lia. Qed.
  Lemma indices_app : forall (a b : str) ci bi, indices_from ci bi (a ++ b) = indices_from ci bi a ++ indices_from (ci + length a) (bi + blen a) b.
  Proof.
    induction a as [|c a IH]; intros b ci bi; cbn [app indices_from length].
    - cbn. now rewrite !Nat.add_0_r.
    - rewrite IH, blen_cons. cbn [app]. f_equal. f_equal. f_equal; lia.
  Qed.
  Lemma indices_rev (a : str) c : rev (indices_from 0 0 (a ++ [c])) = (length a, blen a, c) :: rev (indices_from 0 0 a).
  Proof. rewrite indices_app, rev_app_distr. reflexivity. Qed.
  (** Two prefixes of one string are ordered alike by characters and bytes. *)
  Lemma prefixes (a b a' b' : str) : a ++ b = a' ++ b' -> (exists m, a' = a ++ m /\ b = m ++ b') \/ (exists m, m <> [] /\ a = a' ++ m /\ b' = m ++ b).
  Proof.
    revert a'. induction a as [|c a IH]; intros a' E.
    - left. exists a'. auto.
    - destruct a' as [|c' a']; [right; exists (c :: a); cbn in *; repeat split; [discriminate|auto]|]. cbn in E. injection E as -> E.
      destruct (IH a' E) as [(m & -> & ->)|(m & N & -> & ->)]; [left|right]; exists m; auto.
  Qed.
  Lemma prefix_le (a b a' b' : str) : a ++ b = a' ++ b' -> (length a <= length a' <-> blen a <= blen a') /\ (blen a = blen a' -> a = a').
  Proof.
    intros E. destruct (prefixes a b a' b' E) as [(m & -> & _)|(m & N & -> & _)]; rewrite app_length, blen_app.
    - split; [split; lia|]. intros Q. destruct m as [|c m]; [now rewrite app_nil_r|]. pose proof (blen_pos (c :: m) ltac:(discriminate)). lia.
    - pose proof (blen_pos m N). assert (0 < length m) by (destruct m; [congruence|cbn; lia]). split; [split; lia|lia].
  Qed.
  Lemma snoc_split (a : str) c a0 d b0 : a ++ [c] = a0 ++ d :: b0 -> (b0 = [] /\ a0 = a /\ d = c) \/ (exists b, b0 = b ++ [c] /\ a = a0 ++ d :: b).
  Proof.
    destruct b0 as [|x b0] using rev_ind; intros E.
    - apply app_inj_tail in E as [-> ->]. auto.
    - right. change (a0 ++ d :: b0 ++ [x]) with (a0 ++ (d :: b0) ++ [x]) in E. rewrite app_assoc in E. apply app_inj_tail in E as [-> ->]. eauto.
  Qed.

  (** *** [camel_case_start_from_idx] *)
  Fixpoint scan (start : nat) (it : list (nat * nat * A)) (last : nat * nat) : nat * nat :=
    match it with
    | [] => last
    | (ci, bi, c) :: it =>
        if bi <? start then last else if is_uppercase A c then scan start it (ci, bi) else if is_lowercase A c then scan start it last else last
    end.
  Lemma start_scan start : forall it down last, start_loop start it down last = scan start it last.
  Proof.
    induction it as [|[[ci bi] c] it IH]; intros down last; [reflexivity|]. cbn [start_loop scan]. destruct (bi <? start); [reflexivity|].
    destruct (is_uppercase A c) eqn:UP; [rewrite (one_case U c UP)|]; destruct down; rewrite ?IH; auto; destruct (is_lowercase A c); cbn [negb]; rewrite ?IH; auto.
  Qed.
  Definition upper_at (a a1 : str) : Prop := exists c b, a = a1 ++ c :: b /\ is_uppercase A c = true /\ Forall letter b.
  Lemma scan_spec start : forall a last,
    let r := scan start (rev (indices_from 0 0 a)) last in
    (r = last /\ forall a1, upper_at a a1 -> blen a1 < start) \/
    (exists a1, r = pos a1 /\ upper_at a a1 /\ start <= blen a1 /\ forall a0, upper_at a a0 -> start <= blen a0 -> length a1 <= length a0).
  Proof.
    induction a as [|c a IH] using rev_ind; intros last r; unfold r; clear r.
    - cbn. left. split; [reflexivity|]. intros a1 (c & b & E & _). destruct a1; discriminate.
    - rewrite indices_rev. cbn [scan]. destruct (Nat.ltb_spec (blen a) start) as [L|L].
      + left. split; [reflexivity|]. intros a1 (d & b & E & _). assert (P : a1 ++ d :: b = (a ++ [c]) ++ []) by (rewrite app_nil_r; auto).
        apply snoc_split in E as [(_ & -> & _)|(b' & _ & ->)]; [auto|]. rewrite blen_app in L. lia.
      + assert (EXT : forall a1, upper_at a a1 -> letter c -> upper_at (a ++ [c]) a1).
        { intros a1 (d & b & -> & UD & F) LC. exists d, (b ++ [c]). split; [now rewrite <- app_assoc|]. split; [auto|]. apply Forall_app. auto. }
        assert (RES : forall a0, upper_at (a ++ [c]) a0 -> (a0 = a /\ is_uppercase A c = true) \/ (upper_at a a0 /\ letter c)).
        { intros a0 (d & b & E & UD & F). apply snoc_split in E as [(-> & -> & ->)|(b' & -> & ->)]; [auto|]. apply Forall_app in F as [F1 F2]. inversion F2; subst. right. split; [exists d, b'; auto|auto]. }
        destruct (is_uppercase A c) eqn:UP.
        * assert (LC : letter c) by (left; auto). right. destruct (IH (length a, blen a)) as [[-> N]|(a1 & -> & UA & ST & MIN)].
          -- exists a. split; [reflexivity|]. split; [exists c, []; auto|]. split; [auto|]. intros a0 H0 S0. destruct (RES a0 H0) as [[-> _]|[H1 _]]; [auto|]. pose proof (N a0 H1). lia.
          -- exists a1. split; [reflexivity|]. split; [auto|]. split; [auto|]. intros a0 H0 S0. destruct (RES a0 H0) as [[-> _]|[H1 _]]; [|auto].
             destruct UA as (d & b & E & _). apply (f_equal (@length _)) in E. rewrite app_length in E. lia.
        * destruct (is_lowercase A c) eqn:LO.
          -- assert (LC : letter c) by (right; auto). destruct (IH last) as [[-> N]|(a1 & -> & UA & ST & MIN)].
             ++ left. split; [reflexivity|]. intros a0 H0. destruct (RES a0 H0) as [[_ Q]|[H1 _]]; [discriminate|auto].
             ++ right. exists a1. split; [reflexivity|]. split; [auto|]. split; [auto|]. intros a0 H0 S0. destruct (RES a0 H0) as [[_ Q]|[H1 _]]; [discriminate|auto].
          -- left. split; [reflexivity|]. intros a0 H0. destruct (RES a0 H0) as [[_ Q]|[_ [Q|Q]]]; congruence.
  Qed.
  Lemma component_upper (a : str) z p : is_lowercase A z = true -> starts_component (a ++ [z]) p <-> exists a1, p = pos a1 /\ upper_at a a1.
  Proof.
    intros LZ. split.
    - intros (a1 & c & b & z' & E & -> & UC & F & LZ'). exists a1. split; [reflexivity|]. exists c, b. split; [|auto]. change (a1 ++ c :: b ++ [z']) with (a1 ++ (c :: b) ++ [z']) in E. rewrite app_assoc in E. now apply app_inj_tail in E as [-> _].
    - intros (a1 & -> & c & b & -> & UC & F). exists a1, c, b, z. rewrite <- app_assoc. cbn. auto.
  Qed.
  Lemma from_idx_spec (s : str) start : let r := camel_case_start_from_idx s start in
    (r = pos s /\ forall p, starts_component s p -> snd p < start) \/
    (starts_component s r /\ start <= snd r /\ forall p, starts_component s p -> start <= snd p -> snd r <= snd p).
  Proof.
    cbv zeta. destruct s as [|z s] using rev_ind.
    - left. split; [reflexivity|]. intros p (a & c & b & z & E & _). destruct a; discriminate.
    - clear IHs. unfold camel_case_start_from_idx. rewrite indices_rev. destruct (is_lowercase A z) eqn:LZ; cbn [negb].
      + rewrite start_scan. destruct (scan_spec start s (length (s ++ [z]), blen (s ++ [z]))) as [[-> N]|(a1 & -> & UA & ST & MIN)].
        * left. split; [reflexivity|]. intros p H. apply component_upper in H as (a1 & -> & H); [|auto]. cbn. auto.
        * right. split; [apply component_upper; eauto|]. split; [exact ST|]. intros p H SP. apply component_upper in H as (a0 & -> & H); [|auto]. cbn in *. pose proof (MIN a0 H SP) as L.
          destruct UA as (c & b & E & _). destruct H as (c0 & b0 & E0 & _). rewrite E in E0. apply (prefix_le a1 (c :: b) a0 (c0 :: b0)); auto.
      + left. split; [reflexivity|]. intros p (a & c & b & z' & E & _ & _ & _ & L). exfalso. change (a ++ c :: b ++ [z']) with (a ++ (c :: b) ++ [z']) in E. rewrite app_assoc in E. apply app_inj_tail in E as [_ ->]. congruence.
  Qed.
  Lemma component_lt (s : str) p : starts_component s p -> snd p < blen s.
  Proof.
    intros (a & c & b & z & -> & -> & _). cbn [snd pos]. rewrite blen_app. pose proof (blen_pos (c :: b ++ [z]) ltac:(discriminate)). lia.
  Qed.

  (** *** [camel_case_indices] *)
  Lemma indices_loop_spec (s : str) : forall fuel idx, blen s - snd idx < fuel -> idx = pos s \/ starts_component s idx ->
    exists l, indices_loop fuel s idx = Some (idx :: l) /\ StronglySorted before (idx :: l) /\ forall p, In p (idx :: l) <-> p = pos s \/ (starts_component s p /\ snd idx <= snd p).
  Proof.
    induction fuel as [|fuel IH]; intros idx L I; [lia|]. cbn [indices_loop]. destruct (Nat.ltb_spec (snd idx) (blen s)) as [LT|GE].
    - assert (C : starts_component s idx) by (destruct I as [->|]; [cbn in LT; lia|auto]). set (r := camel_case_start_from_idx s (snd idx + 1)).
      assert (R : (r = pos s \/ starts_component s r) /\ snd idx < snd r /\ forall p, starts_component s p -> snd idx < snd p -> snd r <= snd p).
      { pose proof (from_idx_spec s (snd idx + 1)) as FR. cbv zeta in FR. fold r in FR. destruct FR as [[E N]|(C' & S' & M)].
        - rewrite E. cbn [pos snd]. split; [auto|]. split; [auto|]. intros p H LP. pose proof (N p H). lia.
        - split; [auto|]. split; [lia|]. intros p H LP. apply M; [auto|lia]. }
      destruct R as (R1 & R2 & R3). destruct (IH r ltac:(lia) R1) as (l & E & SS & IN). exists (r :: l). rewrite E. split; [reflexivity|]. split.
      + constructor; [exact SS|]. inversion SS as [|? ? S1 F1]; subst. constructor; [exact R2|]. rewrite Forall_forall in *. intros q Q. pose proof (F1 q Q). unfold before in *. lia.
      + intros p. cbn [In]. change (r = p \/ In p l) with (In p (r :: l)). rewrite IN. split.
        * intros [<-|[->|[H1 H2]]]; [right; auto|auto|right; split; [auto|lia]].
        * intros [->|[H1 H2]]; [auto|]. destruct (Nat.eq_dec (snd idx) (snd p)) as [Q|Q].
          -- left. destruct C as (a & c & b & z & E1 & -> & _). destruct H1 as (a' & c' & b' & z' & E2 & -> & _). cbn [pos snd] in Q. rewrite E1 in E2. now rewrite (proj2 (prefix_le a _ a' _ E2) Q).
          -- right. right. split; [auto|]. apply R3; [auto|lia].
    - assert (E : idx = pos s) by (destruct I as [|C]; [auto|]; apply component_lt in C; lia). exists []. split; [reflexivity|]. split; [repeat constructor|]. intros p. cbn [In]. split.
      + intros [<-|[]]. auto.
      + intros [->|[H1 H2]]; [auto|]. apply component_lt in H1. lia.
  Qed.
  Lemma indices_spec (s : str) : exists l, camel_case_indices s = Some l /\ StronglySorted before l /\ (forall p, In p l <-> p = pos s \/ starts_component s p) /\ l <> [].
  Proof.
    unfold camel_case_indices. assert (I : camel_case_start s = pos s \/ starts_component s (camel_case_start s)) by (destruct (from_idx_spec s 0) as [[E _]|(C & _)]; auto).
    destruct (indices_loop_spec s (S (blen s)) (camel_case_start s) ltac:(lia) I) as (l & E & SS & IN). exists (camel_case_start s :: l). split; [auto|]. split; [auto|]. split; [|discriminate].
    intros p. rewrite IN. split; [tauto|]. intros [->|C]; [auto|]. right. split; [auto|]. destruct (from_idx_spec s 0) as [[_ N]|(_ & _ & M)]; [pose proof (N p C); lia|]. apply M; [auto|lia].
  Qed.

  (** *** [camel_case_split] *)
  Lemma drop_bytes_app (a b : str) : drop_bytes (blen a) (a ++ b) = Some b.
  Proof.
    induction a as [|c a IH]; [destruct b; reflexivity|]. rewrite blen_cons. pose proof (some_byte U c). cbn [app drop_bytes]. destruct (len_utf8 A c + blen a) as [|n] eqn:E; [lia|]. rewrite <- E.
    replace (len_utf8 A c + blen a <? len_utf8 A c) with false by (symmetry; apply Nat.ltb_ge; lia). replace (len_utf8 A c + blen a - len_utf8 A c) with (blen a) by lia. exact IH.
  Qed.
  Lemma take_bytes_app (a b : str) : take_bytes (blen a) (a ++ b) = Some a.
  Proof.
    induction a as [|c a IH]; [destruct b; reflexivity|]. rewrite blen_cons. pose proof (some_byte U c). cbn [app take_bytes]. destruct (len_utf8 A c + blen a) as [|n] eqn:E; [lia|]. rewrite <- E.
    replace (len_utf8 A c + blen a <? len_utf8 A c) with false by (symmetry; apply Nat.ltb_ge; lia). replace (len_utf8 A c + blen a - len_utf8 A c) with (blen a) by lia. now rewrite IH.
  Qed.
  Lemma byte_slice_mid (a m r : str) : byte_slice (a ++ m ++ r) (blen a) (blen (a ++ m)) = Some m.
  Proof.
    unfold byte_slice. rewrite blen_app. replace (blen a + blen m <? blen a) with false by (symmetry; apply Nat.ltb_ge; lia). rewrite drop_bytes_app. replace (blen a + blen m - blen a) with (blen m) by lia. apply take_bytes_app.
  Qed.
  Lemma position (s : str) p : p = pos s \/ starts_component s p -> exists a b, s = a ++ b /\ p = pos a.
  Proof. intros [->|(a & c & b & z & -> & -> & _)]; [exists s, []; now rewrite app_nil_r|eauto]. Qed.
  Lemma no_component_between (s a : str) u m b : starts_component s (pos a) -> s = a ++ u :: m ++ b -> (forall p, starts_component s p -> blen a < snd p -> blen (a ++ u :: m) <= snd p) -> is_uppercase A u = true /\ Forall (fun c => is_lowercase A c = true) m.
  Proof.
    intros (a' & c & b' & z & E & PE & UC & F & LZ) E2 N. assert (a' = a). { rewrite E in E2. change (a' ++ (c :: b' ++ [z]) = a ++ (u :: m ++ b)) in E2. injection PE as _ PE. symmetry in PE. now apply (prefix_le _ _ _ _ E2). }
    subst a'. rewrite E in E2. apply app_inv_head in E2. injection E2 as -> E2. split; [auto|]. apply Forall_forall. intros x X.
    assert (LX : letter x). { assert (FA : Forall letter (b' ++ [z])) by (apply Forall_app; split; [auto|constructor; [right; auto|constructor]]). rewrite E2 in FA. apply Forall_app in FA as [FA _]. rewrite Forall_forall in FA. auto. }
    destruct LX as [UX|]; [exfalso|auto]. apply in_split in X as (m1 & m2 & ->).
    assert (C : starts_component s (pos (a ++ u :: m1))).
    { destruct b as [|y b] using rev_ind.
      - destruct m2 as [|y m2] using rev_ind.
        + rewrite app_nil_r in E2. apply app_inj_tail in E2 as [_ ->]. rewrite (one_case U x UX) in LZ. discriminate.
        + rewrite app_nil_r in E2. change (x :: m2 ++ [y]) with ((x :: m2) ++ [y]) in E2. rewrite app_assoc in E2. apply app_inj_tail in E2 as [-> ->].
          exists (a ++ u :: m1), x, m2, y. rewrite E. split; [cbn [app]; rewrite <- !app_assoc; cbn [app]; rewrite <- ?app_assoc; reflexivity|]. split; [reflexivity|]. split; [auto|]. split; [|auto]. apply Forall_app in F as [_ F]. now inversion F.
      - rewrite app_assoc in E2. apply app_inj_tail in E2 as [-> ->]. exists (a ++ u :: m1), x, (m2 ++ b), y. rewrite E. split; [cbn [app]; rewrite <- !app_assoc; cbn [app]; rewrite <- ?app_assoc; reflexivity|]. split; [reflexivity|]. split; [auto|].
        split; [|auto]. rewrite <- app_assoc in F. apply Forall_app in F as [_ F]. now inversion F. }
    pose proof (N _ C) as Q. cbn [pos snd] in Q. rewrite !blen_app, !blen_cons, !blen_app, !blen_cons in Q. pose proof (some_byte U x). pose proof (some_byte U u). lia.
  Qed.
  Lemma windows_spec (s : str) : forall l a, (forall p, In p l -> p = pos s \/ starts_component s p) -> (forall p, starts_component s p -> blen a < snd p -> In p l) -> (blen a < blen s -> In (pos s) l) ->
    StronglySorted lt (blen a :: map snd l) -> (exists b, s = a ++ b) ->
    exists parts, windows s (blen a :: map snd l) = Some parts /\ s = a ++ concat parts /\ Forall (fun m => m <> []) parts /\
      match parts with [] => True | m :: ms => (starts_component s (pos a) -> is_word m) /\ Forall is_word ms end.
  Proof.
    induction l as [|p l IH]; intros a IN AL EN SS (b & E).
    - exists []. split; [reflexivity|]. cbn. split; [|auto]. destruct b as [|c b]; [now rewrite E|]. destruct (EN); [|contradiction..]. rewrite E, blen_app. pose proof (blen_pos (c :: b) ltac:(discriminate)). lia.
    - destruct (position s p) as (a' & b' & E' & ->); [apply IN; left; auto|]. cbn [map] in *. change (snd (pos a')) with (blen a') in *. apply StronglySorted_inv in SS as [SS' F']. pose proof (Forall_inv F') as LT. pose proof (Forall_inv_tail F') as F''.
      assert (E'' : a ++ b = a' ++ b') by congruence. destruct (prefixes a b a' b' E'') as [(m & -> & ->)|(m & _ & -> & _)]; [|rewrite blen_app in LT; lia].
      assert (MN : m <> []) by (intros ->; rewrite app_nil_r in LT; lia).
      destruct (IH (a ++ m)) as (parts & W & S2 & NE & WD).
      + intros q Q. apply IN. now right.
      + intros q Q L. destruct (AL q Q) as [Z|Z]; [rewrite blen_app in L; lia| |auto]. subst q. cbn [pos snd] in L. lia.
      + intros L. destruct EN as [Z|Z]; [rewrite blen_app in L; lia| |auto]. apply (f_equal snd) in Z. cbn [pos snd] in Z. lia.
      + exact SS'.
      + exists b'. now rewrite <- app_assoc.
      + exists (m :: parts).
        change (windows s (blen a :: blen (a ++ m) :: map snd l)) with (match byte_slice s (blen a) (blen (a ++ m)), windows s (blen (a ++ m) :: map snd l) with Some x, Some xs => Some (x :: xs) | _, _ => None end).
        rewrite W. assert (BS : byte_slice s (blen a) (blen (a ++ m)) = Some m) by (rewrite E; apply byte_slice_mid). rewrite BS. split; [reflexivity|]. split; [rewrite S2 at 1; cbn [concat]; now rewrite <- app_assoc|]. split; [constructor; auto|].
        split.
        * intros C. destruct m as [|u m]; [congruence|]. exists u, m. split; [reflexivity|]. apply (no_component_between s a u m b' C E). intros q Q L. destruct (AL q Q L) as [<-|Z]; [cbn [pos snd]; lia|].
          apply StronglySorted_inv in SS' as [_ F3]. rewrite Forall_forall in F3. apply Nat.lt_le_incl, F3. now apply in_map.
        * destruct parts as [|m' parts]; [constructor|]. destruct WD as [WD1 WD2]. constructor; [|auto]. apply WD1. destruct (IN (pos (a ++ m)) ltac:(left; auto)) as [Z|Z]; [|auto].
          exfalso. apply (f_equal snd) in Z. cbn [pos snd] in Z. rewrite S2 in Z. cbn [concat] in Z. rewrite !blen_app in Z. pose proof (blen_pos m' (Forall_inv NE)). lia.
  Qed.
  Lemma sorted_map l : StronglySorted before l -> StronglySorted lt (map snd l).
  Proof. induction 1 as [|p l SS IH F]; constructor; [auto|]. rewrite Forall_forall in *. intros x X. apply in_map_iff in X as (q & <- & Q). now apply F. Qed.
  Lemma split_spec (s : str) : exists parts, camel_case_split s = Some parts /\ concat parts = s /\ Forall (fun m => m <> []) parts /\
    match parts with [] => True | m :: ms => (starts_component s (0, 0) -> is_word m) /\ Forall is_word ms end.
  Proof.
    unfold camel_case_split. destruct (indices_spec s) as (l & -> & SS & IN & NE). cbv zeta. apply sorted_map in SS as SM.
    assert (K : forall l', (forall p, In p l' -> p = pos s \/ starts_component s p) -> (forall p, starts_component s p -> 0 < snd p -> In p l') -> (0 < blen s -> In (pos s) l') -> StronglySorted lt (0 :: map snd l') ->
      exists parts, windows s (0 :: map snd l') = Some parts /\ concat parts = s /\ Forall (fun m => m <> []) parts /\ match parts with [] => True | m :: ms => (starts_component s (0, 0) -> is_word m) /\ Forall is_word ms end).
    { intros l' H1 H2 H3 H4. destruct (windows_spec s l' [] H1 H2 H3 H4) as (parts & W & E & N & D); [exists s; auto|]. exists parts. split; [exact W|]. split; [exact (eq_sym E)|]. auto. }
    destruct l as [|p l]; [congruence|]. cbn [map]. destruct (snd p) as [|n] eqn:SP.
    - apply K.
      + intros q Q. apply IN. now right.
      + intros q Q L. destruct (proj2 (IN q) (or_intror Q)) as [Z|Z]; [subst q; lia|auto].
      + intros L. destruct (proj2 (IN (pos s)) (or_introl eq_refl)) as [Z|Z]; [subst p; cbn [pos snd] in SP; lia|auto].
      + cbn [map] in SM. now rewrite SP in SM.
    - rewrite <- SP. apply (K (p :: l)).
      + intros q Q. now apply IN.
      + intros q Q _. apply IN. auto.
      + intros _. apply IN. auto.
      + constructor; [exact SM|]. apply Forall_forall. intros x X. cbn [map] in SM, X. apply StronglySorted_inv in SM as [_ F]. rewrite Forall_forall in F. destruct X as [<-|X]; [lia|]. pose proof (F x X). lia.
  Qed.

  (** *** [camel_case_until] *)
  Lemma words_last (w : str) : words w -> w = [] \/ exists x z, w = x ++ [z] /\ is_lowercase A z = true.
  Proof.
    intros [|w' u l W UU N F]; [auto|]. right. destruct (exists_last N) as (l' & z & ->). exists (w' ++ u :: l'), z. rewrite <- app_assoc. split; [reflexivity|]. apply Forall_app in F as [_ F]. now inversion F.
  Qed.
  Lemma words_not_upper (w : str) u : words (w ++ [u]) -> is_lowercase A u = true.
  Proof. intros W. destruct (words_last _ W) as [E|(x & z & E & L)]; [destruct w; discriminate|]. now apply app_inj_tail in E as [_ ->]. Qed.
  Lemma words_more (a : str) c : words a -> a <> [] -> is_lowercase A c = true -> words (a ++ [c]).
  Proof.
    intros [|w u l W UU N F] NE L; [congruence|]. rewrite <- app_assoc. cbn [app]. apply words_snoc; auto; [intros Q; now apply app_eq_nil in Q as [_ Q]|]. apply Forall_app. auto.
  Qed.
  Definition live (a : str) : Prop := words a \/ exists w u, a = w ++ [u] /\ words w /\ is_uppercase A u = true.
  Lemma words_live (w : str) : words w -> forall a b, w = a ++ b -> live a.
  Proof.
    induction 1 as [|w u l W IH UU N F]; intros a b E.
    - destruct a; [left; constructor|discriminate].
    - destruct (prefixes w (u :: l) a b E) as [(m & -> & E2)|(m & _ & -> & _)]; [|now apply (IH a m)].
      destruct m as [|x m]; [rewrite app_nil_r; left; auto|]. cbn in E2. injection E2 as <- ->. apply Forall_app in F as [F _]. destruct m as [|y m]; [right; eauto|]. left. apply words_snoc; auto. discriminate.
  Qed.
  Lemma until_loop_spec (s : str) : forall rest a (up : bool) last, s = a ++ rest ->
    (if up then exists w u, a = w ++ [u] /\ words w /\ is_uppercase A u = true /\ last = pos w else words a /\ a <> []) ->
    exists w r, s = w ++ r /\ until_loop s (indices_from (length a) (blen a) rest) up last = pos w /\ words w /\ forall w' r', s = w' ++ r' -> words w' -> length w' <= length w.
  Proof.
    assert (DEAD : forall (a : str) c rest (w : str), s = a ++ c :: rest -> ~ live (a ++ [c]) -> length a <= S (length w) -> (length a = S (length w) -> ~ words a) -> forall w' r' : str, s = w' ++ r' -> words w' -> length w' <= length w).
    { intros a c rest w E D L1 L2 w' r' E' W'. destruct (Nat.le_gt_cases (length w') (length a)) as [LE|GT].
      - destruct (Nat.eq_dec (length w') (S (length w))) as [Q|]; [|lia]. exfalso. apply L2; [lia|]. assert (w' = a); [|congruence]. rewrite E in E'. apply (prefix_le _ _ _ _ (eq_sym E')). destruct (prefix_le _ _ _ _ E') as [P1 _]. destruct (prefix_le _ _ _ _ (eq_sym E')) as [P2 _]. lia.
      - exfalso. apply D. rewrite E in E'. destruct (prefixes a (c :: rest) w' r' E') as [(m & -> & E2)|(m & _ & -> & _)]; [|rewrite app_length in GT; lia]. destruct m as [|x m]; [rewrite app_nil_r in GT; lia|].
        cbn in E2. injection E2 as <- _. apply (words_live _ W' _ m). now rewrite <- app_assoc. }
    induction rest as [|c rest IH]; intros a up last E I.
    - rewrite app_nil_r in E. cbn [indices_from until_loop]. destruct up.
      + destruct I as (w & u & -> & W & UU & ->). exists w, [u]. split; [auto|]. split; [reflexivity|]. split; [auto|]. intros w' r' E' W'. subst s. destruct (Nat.le_gt_cases (length w') (length w)) as [|GT]; [auto|]. exfalso.
        destruct (prefixes w [u] w' r' E') as [(m & -> & E2)|(m & _ & -> & _)]; [|rewrite app_length in GT; lia]. destruct m as [|x m]; [rewrite app_nil_r in GT; lia|]. injection E2 as <- E2. symmetry in E2. apply app_eq_nil in E2 as [-> _].
        apply words_not_upper in W'. rewrite (one_case U u UU) in W'. discriminate.
      + destruct I as [W _]. exists a, []. rewrite app_nil_r. split; [auto|]. split; [subst s; reflexivity|]. split; [auto|]. intros w' r' E' _. rewrite E in E'. rewrite E', app_length. lia.
    - cbn [indices_from until_loop]. assert (E1 : s = (a ++ [c]) ++ rest) by (rewrite <- app_assoc; auto).
      assert (IX : indices_from (S (length a)) (blen a + len_utf8 A c) rest = indices_from (length (a ++ [c])) (blen (a ++ [c])) rest).
      { rewrite app_length, blen_app. cbn [length]. f_equal; [lia|]. unfold blen at 3. cbn. lia. }
      destruct up.
      + destruct I as (w & u & EA & W & UU & ->). destruct (is_lowercase A c) eqn:LC.
        * rewrite IX. apply IH; [auto|]. split; [|intros Q; now apply app_eq_nil in Q as [_ Q]]. rewrite EA, <- app_assoc. apply (words_snoc w u [c]); auto. discriminate.
        * exists w, (u :: c :: rest). split; [rewrite E, EA, <- app_assoc; reflexivity|]. split; [reflexivity|]. split; [auto|]. assert (NW : ~ words a) by (rewrite EA; intros Q; apply words_not_upper in Q; rewrite (one_case U u UU) in Q; discriminate).
          apply (DEAD a c rest w E); [|rewrite EA, app_length; cbn; lia|auto]. intros [Q|(w0 & u0 & Q & W0 & _)]; [apply words_not_upper in Q; congruence|]. apply app_inj_tail in Q as [<- _]. auto.
      + destruct I as [W NE]. destruct (is_uppercase A c) eqn:UC.
        * rewrite IX. apply IH; [auto|]. exists a, c. auto.
        * destruct (is_lowercase A c) eqn:LC; cbn [negb].
          -- rewrite IX. apply IH; [auto|]. split; [now apply words_more|]. intros Q; now apply app_eq_nil in Q as [_ Q].
          -- exists a, (c :: rest). split; [auto|]. split; [reflexivity|]. split; [auto|]. apply (DEAD a c rest a E); [|lia|lia]. intros [Q|(w0 & u0 & Q & W0 & U0)]; [apply words_not_upper in Q; congruence|]. apply app_inj_tail in Q as [_ <-]. congruence.
  Qed.
  Lemma until_spec (s : str) : exists w r, s = w ++ r /\ camel_case_until s = pos w /\ words w /\ forall w' r', s = w' ++ r' -> words w' -> length w' <= length w.
  Proof.
    unfold camel_case_until. destruct s as [|c s]; cbn [indices_from].
    - exists [], []. split; [auto|]. split; [reflexivity|]. split; [constructor|]. intros w' r' E _. destruct w'; [auto|discriminate].
    - destruct (is_uppercase A c) eqn:UC; cbn [negb].
      + change (indices_from 1 (0 + len_utf8 A c) s) with (indices_from (length [c]) (0 + len_utf8 A c) s). replace (0 + len_utf8 A c) with (blen [c]) by (unfold blen; cbn; lia). apply until_loop_spec; [reflexivity|].
        exists [], c. repeat split; auto. constructor.
      + exists [], (c :: s). split; [auto|]. split; [reflexivity|]. split; [constructor|]. intros w' r' E W. destruct w' as [|x w']; [auto|]. injection E as <- _. exfalso.
        destruct (words_live _ W [c] w' eq_refl) as [Q|(w & u & Q & W' & UU)]; [|destruct w as [|? [|]]; [injection Q as <-; congruence|discriminate..]].
        inversion Q as [|w u l W' UU N F EQ]. destruct w as [|? w]; [injection EQ as -> _; congruence|]. destruct w; discriminate.
  Qed.

  (** *** Counting matches *)
  Lemma chars_from ci bi (s : str) : map (fun p => (fst (fst p), snd p)) (indices_from ci bi s) = match s with [] => [] | c :: s' => (ci, c) :: map (fun p => (fst (fst p), snd p)) (indices_from (S ci) (bi + len_utf8 A c) s') end.
  Proof. destruct s; reflexivity. Qed.
  Lemma match_start_spec : forall (s1 s2 : str) ci b1 c2 bi acc, exists p r1 r2, s1 = p ++ r1 /\ s2 = p ++ r2 /\ differ r1 r2 /\
    let res := last_match (map (fun p => (fst (fst p), snd p)) (indices_from ci b1 s1)) (map (fun p => (snd (fst p), snd p)) (indices_from c2 bi s2)) acc in
    (p = [] /\ res = acc \/ exists q c, p = q ++ [c] /\ res = Some (ci + length q, (bi + blen q, c))).
  Proof.
    induction s1 as [|x s1 IH]; intros s2 ci b1 c2 bi acc.
    - exists [], [], s2. repeat split. left. auto.
    - destruct s2 as [|y s2]; [exists [], (x :: s1), []; repeat split; left; auto|]. cbn [indices_from map fst snd last_match]. destruct (chr_eqb A x y) eqn:EQ.
      + apply (eqb_eq U) in EQ as ->. destruct (IH s2 (S ci) (b1 + len_utf8 A y) (S c2) (bi + len_utf8 A y) (Some (ci, (bi, y)))) as (p & r1 & r2 & -> & -> & D & R). exists (y :: p), r1, r2. split; [auto|]. split; [auto|]. split; [auto|].
        cbv zeta in *. right. destruct R as [[-> ->]|(q & c & -> & ->)].
        * exists [], y. cbn. now rewrite !Nat.add_0_r.
        * exists (y :: q), c. split; [reflexivity|]. rewrite blen_cons. cbn [length]. f_equal. f_equal; [lia|]. f_equal. lia.
      + exists [], (x :: s1), (y :: s2). split; [auto|]. split; [auto|]. split; [|auto]. cbn. intros ->. assert (chr_eqb A y y = true) by (now apply (eqb_eq U)). congruence.
  Qed.
  Lemma rev_chars (s : str) c : rev (chars_of (s ++ [c])) = (length s, c) :: rev (chars_of s).
  Proof. unfold chars_of. rewrite <- !map_rev, indices_rev. reflexivity. Qed.
  Lemma rev_bytes (s : str) c : rev (bytes_of (s ++ [c])) = (blen s, c) :: rev (bytes_of s).
  Proof. unfold bytes_of. rewrite <- !map_rev, indices_rev. reflexivity. Qed.
  Lemma match_end_spec : forall (s1 s2 : str) acc, exists p r1 r2, s1 = r1 ++ p /\ s2 = r2 ++ p /\ differ (rev r1) (rev r2) /\
    let res := last_match (rev (chars_of s1)) (rev (bytes_of s2)) acc in
    (p = [] /\ res = acc \/ exists c q, p = c :: q /\ res = Some (length r1, (blen r2, c))).
  Proof.
    induction s1 as [|x s1 IH] using rev_ind; intros s2 acc.
    - exists [], [], s2. rewrite !app_nil_r. split; [auto|]. split; [auto|]. split; [exact I|]. left. auto.
    - destruct s2 as [|y s2] using rev_ind; [|clear IHs2].
      + exists [], (s1 ++ [x]), []. rewrite !app_nil_r. split; [auto|]. split; [auto|]. split; [rewrite rev_app_distr; cbn; auto|]. left. split; [auto|]. rewrite rev_chars. reflexivity.
      + rewrite rev_chars, rev_bytes. cbn [last_match]. destruct (chr_eqb A x y) eqn:EQ.
        * apply (eqb_eq U) in EQ as ->. destruct (IH s2 (Some (length s1, (blen s2, y)))) as (p & r1 & r2 & E1 & E2 & D & R). exists (p ++ [y]), r1, r2. split; [now rewrite E1, app_assoc|]. split; [now rewrite E2, app_assoc|]. split; [auto|].
          cbv zeta in *. right. destruct R as [[-> ->]|(c & q & -> & ->)].
          -- exists y, []. rewrite app_nil_r in *. subst. auto.
          -- exists c, (q ++ [y]). auto.
        * exists [], (s1 ++ [x]), (s2 ++ [y]). rewrite !app_nil_r. split; [auto|]. split; [auto|]. split; [|auto]. rewrite !rev_app_distr. cbn. intros ->. assert (chr_eqb A y y = true) by (now apply (eqb_eq U)). congruence.
  Qed.

  (** *** Case conversions *)
  Lemma snake_no_upper : (forall c : A, is_uppercase A c = true -> Forall (fun d => is_uppercase A d = false) (to_lowercase A c)) -> is_uppercase A (underscore A) = false ->
    forall (s : str) i, Forall (fun d => is_uppercase A d = false) (snake_loop i s).
  Proof.
    intros L N. induction s as [|c s IH]; intros i; [constructor|]. cbn [snake_loop]. apply Forall_app. split; [|apply IH]. destruct (is_uppercase A c) eqn:UC; [|auto].
    apply Forall_app. split; [|auto]. destruct (Nat.eqb i 0); auto.
  Qed.
  Lemma snake_fixed : forall (s : str) i, Forall (fun d => is_uppercase A d = false) s -> snake_loop i s = s.
  Proof. induction s as [|c s IH]; intros i F; [reflexivity|]. inversion F as [|? ? H F']; subst. cbn [snake_loop]. rewrite H. cbn [app]. now rewrite IH. Qed.
  Lemma round_trip : is_uppercase A (underscore A) = false -> forall (s : str) i up, Forall (fun c => is_uppercase A c = true -> simple_case c) s -> ~ In (underscore A) s ->
    (i = 0 -> up = true /\ match s with c :: _ => is_uppercase A c = true | [] => True end) -> (i <> 0 -> up = false) -> camel_loop (snake_loop i s) up = Some s.
  Proof.
    intros NU. assert (RU : chr_eqb A (underscore A) (underscore A) = true) by (now apply (eqb_eq U)).
    induction s as [|c s IH]; intros i up F N H0 H1; [reflexivity|]. inversion F as [|? ? HC F']; subst. assert (N' : ~ In (underscore A) s) by (intros Q; apply N; now right).
    assert (NEXT : camel_loop (snake_loop (S i) s) false = Some s) by (apply IH; auto; discriminate). cbn [snake_loop]. destruct (is_uppercase A c) eqn:UC.
    - destruct (HC eq_refl) as (l & L1 & L2 & L3 & L4). rewrite L1. assert (NE : chr_eqb A l (underscore A) = false) by (destruct (chr_eqb A l (underscore A)) eqn:Q; [apply (eqb_eq U) in Q; congruence|reflexivity]).
      destruct (Nat.eqb_spec i 0) as [->|NI].
      + destruct (H0 eq_refl) as [-> _]. cbn [app camel_loop]. rewrite L3, NE, NEXT, L2. reflexivity.
      + rewrite (H1 NI). cbn [app camel_loop]. rewrite NU, RU, L3, NE, NEXT, L2. reflexivity.
    - assert (NI : i <> 0) by (intros ->; destruct (H0 eq_refl) as [_ Q]; congruence). rewrite (H1 NI). cbn [app camel_loop]. rewrite UC.
      replace (chr_eqb A c (underscore A)) with false; [now rewrite NEXT|]. symmetry. destruct (chr_eqb A c (underscore A)) eqn:Q; [|reflexivity]. apply (eqb_eq U) in Q. subst c. exfalso. apply N. now left.
  Qed.
End Proofs.
