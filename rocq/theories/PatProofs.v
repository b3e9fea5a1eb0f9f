(** Proofs about the range pattern lints. *)
From Coq Require Import Lia Permutation Sorted.
From Verif Require Export PatModel PatSpec.
Open Scope Z_scope.

(** ** manual_range_patterns *)
Lemma i128_bounds : i128_max = 2 ^ 127 - 1 /\ i128_min = - 2 ^ 127 /\ 0 < 2 ^ 127.
Proof. repeat split; lia. Qed.

(** The interval of values a pattern matches, as scanned. *)
Definition interval (p : pat) : option (Z * Z) :=
  match p with
  | PExpr e => match expr_as_i128 e with Some v => Some (v, v) | None => None end
  | PRange l r k =>
      match expr_as_i128 l, expr_as_i128 r with
      | Some a, Some b => Some (a, match k with Included => b | Excluded => b - 1 end)
      | _, _ => None
      end
  | POther => None
  end.
Lemma expr_as_value e v : expr_as_i128 e = Some v -> lit_value e = Some v.
Proof. destruct e as [neg n|]; [|discriminate]. unfold expr_as_i128. destruct (n <=? i128_max); [auto|discriminate]. Qed.
Lemma interval_matches p lo hi : interval p = Some (lo, hi) -> forall z, matches p z <-> lo <= z <= hi.
Proof.
  intros H z. destruct p as [e|l r k|]; cbn in H; [| |discriminate].
  - destruct (expr_as_i128 e) as [v|] eqn:E; [|discriminate]. injection H as <- <-. cbn. rewrite (expr_as_value _ _ E). split; [intros [= ->]; lia|intros; f_equal; lia].
  - destruct (expr_as_i128 l) as [a|] eqn:A; [|discriminate]. destruct (expr_as_i128 r) as [b|] eqn:B; [|discriminate]. injection H as <- <-.
    apply expr_as_value in A. apply expr_as_value in B. cbn. destruct k; rewrite A, B; split.
    + intros (x & y & [= <-] & [= <-] & L). lia.
    + intros. exists a, b. repeat split; auto; lia.
    + intros (x & y & [= <-] & [= <-] & L). lia.
    + intros. exists a, b. repeat split; auto; lia.
Qed.
Lemma interval_bounds p lo hi : pat_ok p -> interval p = Some (lo, hi) -> - i128_max <= lo <= hi /\ hi <= i128_max.
Proof.
  intros O H. pose proof i128_bounds as (B1 & B2 & B3).
  assert (V : forall e v, (exists neg n, e = PLit neg n /\ 0 <= n) -> expr_as_i128 e = Some v -> - i128_max <= v <= i128_max).
  { intros e v (neg & n & -> & N). unfold expr_as_i128. destruct (Z.leb_spec n i128_max); [|discriminate]. intros [= <-]. destruct neg; lia. }
  assert (NE : exists z, lo <= z <= hi).
  { destruct p as [e|l r k|]; [| |destruct O].
    - cbn in H. destruct (expr_as_i128 e) as [v|]; [|discriminate]. injection H as <- <-. exists v. lia.
    - destruct O as (_ & _ & z & M). exists z. now apply (interval_matches _ _ _ H). }
  destruct NE as (z & Z). destruct p as [e|l r k|]; [| |destruct O].
  - cbn in H. destruct (expr_as_i128 e) as [v|] eqn:E; [|discriminate]. injection H as <- <-. specialize (V _ _ O E). lia.
  - destruct O as (O1 & O2 & _). cbn in H. destruct (expr_as_i128 l) as [a|] eqn:A; [|discriminate]. destruct (expr_as_i128 r) as [b|] eqn:B; [|discriminate]. injection H as <- <-.
    pose proof (V _ _ O1 A). pose proof (V _ _ O2 B). destruct k; lia.
Qed.
Lemma interval_small p : pat_ok p -> (small_literals p <-> interval p <> None).
Proof.
  assert (V : forall e, match e with PLit _ n => n <= 2 ^ 127 - 1 | POtherExpr => False end <-> expr_as_i128 e <> None).
  { intros [neg n|]; [|cbn; tauto]. unfold expr_as_i128, i128_max. destruct (Z.leb_spec n (2 ^ 127 - 1)); split; intros; try discriminate; try lia; congruence. }
  intros _. destruct p as [e|l r k|]; cbn; [| |tauto].
  - rewrite V. destruct (expr_as_i128 e); split; congruence.
  - rewrite !V. destruct (expr_as_i128 l), (expr_as_i128 r); split; try congruence; try tauto; intros _; split; congruence.
Qed.

(** The entries of the scan. *)
Definition entries (s : scan) : list (Z * Z) := map (fun n => (n, n)) (numbers s) ++ ranges s.

Definition scan_inv (s : scan) (ints : list (Z * Z)) : Prop :=
  Permutation (entries s) ints /\
  match ints with
  | [] => s = scan0
  | _ =>
      (exists e, text (smin s) = Some e /\ lit_value e = Some (val (smin s))) /\
      (exists e v, text (smax s) = Some e /\ lit_value e = Some v /\ val (smax s) = match kind s with Included => v | Excluded => v - 1 end) /\
      (forall i, In i ints -> val (smin s) <= fst i /\ snd i <= val (smax s)) /\
      (exists i, In i ints /\ fst i = val (smin s)) /\ (exists i, In i ints /\ snd i = val (smax s))
  end.

Lemma scan_step_inv s ints p : pat_ok p -> scan_inv s ints -> (forall i, In i ints -> - i128_max <= fst i <= snd i /\ snd i <= i128_max) ->
  match scan_step s p, interval p with
  | Some s', Some i => scan_inv s' (ints ++ [i])
  | None, None => True
  | _, _ => False
  end.
Proof.
  intros O [P I] B. pose proof i128_bounds as (B1 & B2 & B3).
  assert (KEY : forall mn mx lo hi k' s', interval p = Some (lo, hi) -> val mn = lo -> (exists e, text mn = Some e /\ lit_value e = Some lo) ->
     val mx = hi -> (exists e v, text mx = Some e /\ lit_value e = Some v /\ hi = match k' with Included => v | Excluded => v - 1 end) ->
     Permutation (entries s') (entries s ++ [(lo, hi)]) -> smin s' = num_min (smin s) mn ->
     (smax s' = mx /\ kind s' = k' /\ val (smax s) <= hi \/ smax s' = smax s /\ kind s' = kind s /\ ints <> [] /\ hi <= val (smax s)) ->
     scan_inv s' (ints ++ [(lo, hi)])).
  { intros mn mx lo hi k' s' IV V1 T1 V2 T2 PE S1 S2. split; [etransitivity; [exact PE|]; now apply Permutation_app_tail|].
    pose proof (interval_bounds _ _ _ O IV) as IB.
    destruct (ints ++ [(lo, hi)]) as [|i0 l0] eqn:Q; [destruct ints; discriminate|]. rewrite <- Q. clear Q i0 l0.
    destruct ints as [|i0 ints].
    - subst s. unfold num_min in S1. cbn [scan0 smin smax val kind] in *. rewrite V1 in S1. replace (i128_max <? lo) with false in S1 by lia.
      destruct S2 as [(S2 & S3 & _)|(_ & _ & X & _)]; [|contradiction]. rewrite S1, S2, S3, V1, V2. cbn [app].
      split; [exact T1|]. split; [exact T2|]. split; [|split; exists (lo, hi); split; cbn; auto].
      intros i [<-|[]]. cbn. lia.
    - destruct I as (I1 & I2 & I3 & I4 & I5). rewrite S1. unfold num_min.
      assert (MIN : exists e, text (if val (smin s) <? val mn then smin s else mn) = Some e /\ lit_value e = Some (val (if val (smin s) <? val mn then smin s else mn))).
      { destruct (val (smin s) <? val mn); [exact I1|]. now rewrite V1. }
      assert (MV : val (if val (smin s) <? val mn then smin s else mn) = Z.min (val (smin s)) lo) by (destruct (Z.ltb_spec (val (smin s)) (val mn)); lia).
      split; [exact MIN|]. rewrite MV.
      assert (XV : (exists e v, text (smax s') = Some e /\ lit_value e = Some v /\ val (smax s') = match kind s' with Included => v | Excluded => v - 1 end)
                   /\ val (smax s') = Z.max (val (smax s)) hi).
      { destruct S2 as [(S2 & S3 & S4)|(S2 & S3 & _ & S4)]; rewrite S2, S3; (split; [|lia]); [rewrite V2; exact T2|exact I2]. }
      destruct XV as [XV1 XV2]. split; [exact XV1|]. rewrite XV2. split; [|split].
      + intros i IN. apply in_app_iff in IN as [IN|[<-|[]]]; [specialize (I3 _ IN); lia|cbn; lia].
      + destruct (Z.min_spec (val (smin s)) lo) as [[_ ->]|[_ ->]]; [destruct I4 as (i & I4 & <-); exists i; split; [apply in_app_iff; auto|auto]|].
        exists (lo, hi). split; [apply in_app_iff; right; left; auto|auto].
      + destruct (Z.max_spec (val (smax s)) hi) as [[_ ->]|[_ ->]]; [exists (lo, hi); split; [apply in_app_iff; right; left; auto|auto]|].
        destruct I5 as (i & I5 & <-); exists i; split; [apply in_app_iff; auto|auto]. }
  assert (DUM : ints = [] -> val (smax s) = i128_min) by (intros ->; subst s; reflexivity).
  destruct p as [e|l r k|]; [| |destruct O].
  - cbn [scan_step interval]. unfold num_new. destruct (expr_as_i128 e) as [v|] eqn:E; [|exact Logic.I].
    assert (IV : interval (PExpr e) = Some (v, v)) by (cbn; now rewrite E). pose proof (interval_bounds _ _ _ O IV) as IB. apply expr_as_value in E.
    eapply (KEY {| val := v; text := Some e |} {| val := v; text := Some e |} v v Included); try reflexivity; cbn [val text smin smax kind]; eauto.
    + unfold entries. cbn [numbers ranges map]. cbn [app]. apply Permutation_cons_append.
    + destruct (Z.leb_spec (val (smax s)) v); [left; auto|right]. repeat split; auto; [|lia]. intros ->. rewrite (DUM eq_refl) in *. lia.
  - cbn [scan_step interval]. unfold num_new. destruct (expr_as_i128 l) as [a|] eqn:A; [|exact Logic.I]. destruct (expr_as_i128 r) as [b|] eqn:B'; [|exact Logic.I].
    set (hi := match k with Included => b | Excluded => b - 1 end).
    assert (IV : interval (PRange l r k) = Some (a, hi)) by (cbn; now rewrite A, B'). pose proof (interval_bounds _ _ _ O IV) as IB.
    apply expr_as_value in A. apply expr_as_value in B'.
    assert (RV : val match k with Excluded => {| val := b - 1; text := Some r |} | Included => {| val := b; text := Some r |} end = hi) by (destruct k; reflexivity).
    cbn [val text].
    eapply (KEY {| val := a; text := Some l |} match k with Excluded => {| val := b - 1; text := Some r |} | Included => {| val := b; text := Some r |} end a hi k);
      try reflexivity; cbn [smin smax kind]; eauto.
    + exists l. auto.
    + exists r, b. destruct k; auto.
    + unfold entries. cbn [numbers ranges]. rewrite RV. rewrite app_assoc. reflexivity.
    + rewrite RV. destruct (Z.ltb_spec (val (smax s)) hi); [left; repeat split; lia|right]. repeat split; auto. intros ->. rewrite (DUM eq_refl) in *. lia.
Qed.

Lemma scan_all_inv : forall l s ints, Forall pat_ok l -> scan_inv s ints -> (forall i, In i ints -> - i128_max <= fst i <= snd i /\ snd i <= i128_max) ->
  match scan_all s l with
  | Some s' => exists ints', Forall2 (fun p i => interval p = Some i) l ints' /\ scan_inv s' (ints ++ ints')
  | None => exists p, In p l /\ interval p = None
  end.
Proof.
  induction l as [|p l IH]; intros s ints F I B; [exists []; split; [constructor|now rewrite app_nil_r]|].
  apply Forall_inv in F as O. apply Forall_inv_tail in F. cbn [scan_all]. pose proof (scan_step_inv s ints p O I B) as S.
  destruct (scan_step s p) as [s1|], (interval p) as [i|] eqn:IV; try contradiction.
  - assert (B' : forall j, In j (ints ++ [i]) -> - i128_max <= fst j <= snd j /\ snd j <= i128_max).
    { intros j J. apply in_app_iff in J as [J|[<-|[]]]; [auto|]. destruct i as [lo hi]. exact (interval_bounds _ _ _ O IV). }
    specialize (IH s1 (ints ++ [i]) F S B'). destruct (scan_all s1 l) as [s'|].
    + destruct IH as (ints' & IH1 & IH2). exists (i :: ints'). split; [now constructor|]. rewrite <- app_assoc in IH2. exact IH2.
    + destruct IH as (q & Q & QI). exists q. split; [right; auto|auto].
  - exists p. split; [left; auto|auto].
Qed.

Definition inside (n : Z) (i : Z * Z) : Prop := fst i <= n <= snd i.
Lemma best_range_spec rs n : match best_range rs n with Some r => In r rs /\ inside n r | None => forall r, In r rs -> ~ inside n r end.
Proof.
  unfold best_range.
  assert (G : forall l acc, (match acc with Some r => In r rs /\ inside n r | None => True end) -> (forall r, In r l -> In r rs) ->
    match fold_left (fun best r => if (fst r <=? n) && (n <=? snd r) then match best with Some b => if snd b <=? snd r then Some r else best | None => Some r end else best) l acc with
    | Some r => In r rs /\ inside n r | None => acc = None /\ forall r, In r l -> ~ inside n r end).
  { induction l as [|x l IH]; intros acc A L; cbn [fold_left]; [destruct acc; auto|].
    set (acc' := if (fst x <=? n) && (n <=? snd x) then _ else _).
    assert (A' : match acc' with Some r => In r rs /\ inside n r | None => acc = None /\ ~ inside n x end).
    { subst acc'. destruct (Z.leb_spec (fst x) n), (Z.leb_spec n (snd x)); cbn [andb]; try (destruct acc; [exact A|split; [auto|unfold inside; lia]]).
      assert (In x rs /\ inside n x) by (split; [apply L; left; auto|unfold inside; lia]). destruct acc as [b|]; [destruct (snd b <=? snd x)|]; auto. }
    specialize (IH acc'). destruct (fold_left _ l acc') as [r|].
    - apply IH; [destruct acc'; [auto|auto]|intros; apply L; right; auto].
    - destruct IH as [E IH]; [destruct acc'; auto|intros; apply L; right; auto|]. rewrite E in A'. destruct A' as [-> A']. split; [auto|].
      intros r [<-|R]; auto. }
  specialize (G rs None Logic.I (fun r H => H)). destruct (fold_left _ rs None); [exact G|]. apply G.
Qed.

Lemma numbers_spec s n : existsb (Z.eqb n) (numbers s) = true <-> In (n, n) (map (fun n => (n, n)) (numbers s)).
Proof.
  rewrite existsb_exists, in_map_iff. split.
  - intros (x & X & E). apply Z.eqb_eq in E. subst x. eauto.
  - intros (x & [= -> _] & X). exists n. split; [auto|apply Z.eqb_refl].
Qed.

(** One turn of the loop. *)
Definition next_num (s : scan) (n : Z) : option Z :=
  if existsb (Z.eqb n) (numbers s) then Some (succ_i128 n)
  else match best_range (ranges s) n with Some r => Some (succ_i128 (snd r)) | None => None end.
Lemma next_num_spec s n : match next_num s n with
  | Some n' => exists i, In i (entries s) /\ inside n i /\ n' = succ_i128 (snd i)
  | None => forall i, In i (entries s) -> (forall k, In (k, k) (map (fun n => (n, n)) (numbers s)) -> True) -> ~ inside n i
  end.
Proof.
  unfold next_num, entries. destruct (existsb (Z.eqb n) (numbers s)) eqn:E.
  - apply numbers_spec in E. exists (n, n). split; [apply in_app_iff; auto|]. split; [unfold inside; cbn; lia|reflexivity].
  - pose proof (best_range_spec (ranges s) n) as B. destruct (best_range (ranges s) n) as [r|].
    + exists r. split; [apply in_app_iff; tauto|]. split; [tauto|reflexivity].
    + intros i I _ N. apply in_app_iff in I as [I|I]; [|now apply (B i)].
      apply in_map_iff in I as (k & <- & K). unfold inside in N. cbn in N. assert (n = k) by lia. subst k.
      enough (existsb (Z.eqb n) (numbers s) = true) by congruence. apply existsb_exists. exists n. split; [auto|apply Z.eqb_refl].
Qed.
Lemma covers_S f s n : covers f s n = if n <=? val (smax s) then match f with O => false | S f => match next_num s n with Some n' => covers f s n' | None => false end end else true.
Proof. destruct f as [|f]; cbn [covers]; [reflexivity|]. unfold next_num. destruct (existsb _ _); [reflexivity|]. destruct (best_range _ _); reflexivity. Qed.

Lemma covers_min f s n : (forall i, In i (entries s) -> - i128_max <= fst i) -> n = i128_min -> n <= val (smax s) -> covers f s n = false.
Proof.
  intros B -> L. rewrite covers_S. replace (i128_min <=? val (smax s)) with true by lia. destruct f; [reflexivity|].
  pose proof (next_num_spec s i128_min) as N. destruct (next_num s i128_min); [|reflexivity]. destruct N as (i & I & IN & _). specialize (B i I).
  unfold inside in IN. unfold i128_max, i128_min in *. lia.
Qed.
Lemma covers_sound s : (forall i, In i (entries s) -> - i128_max <= fst i <= snd i /\ snd i <= val (smax s)) -> val (smax s) <= i128_max ->
  i128_min <= val (smax s) ->
  forall f n, covers f s n = true -> (n <= val (smax s) -> val (smax s) < i128_max) /\ forall z, n <= z <= val (smax s) -> exists i, In i (entries s) /\ inside z i.
Proof.
  intros B M M'. induction f as [|f IH]; intros n C; rewrite covers_S in C; destruct (Z.leb_spec n (val (smax s))) as [L|L]; try discriminate; try (split; [lia|intros; lia]).
  pose proof (next_num_spec s n) as N. destruct (next_num s n) as [n'|] eqn:NN; [|discriminate]. destruct N as (i & I & IN & ->).
  assert (Q : snd i <> i128_max).
  { intros Q. unfold succ_i128 in C. rewrite Q, Z.eqb_refl in C. rewrite (covers_min f s i128_min) in C; [discriminate| |reflexivity|exact M']. intros j J. apply B in J. lia. }
  unfold succ_i128 in C. replace (snd i =? i128_max) with false in C by lia. destruct (IH _ C) as [IH1 IH2]. split.
  - intros _. destruct (Z.le_gt_cases (snd i + 1) (val (smax s))) as [X|X]; [auto|]. specialize (B i I). lia.
  - intros z Z. destruct (Z.le_gt_cases z (snd i)) as [X|X]; [exists i; split; [auto|unfold inside in *; lia]|apply IH2; lia].
Qed.
(** The fuel: entries that end at or after [n]. *)
Definition pending (s : scan) (n : Z) : nat := length (filter (fun i => n <=? snd i) (entries s)).
Lemma filter_len {A} (f g : A -> bool) l : (forall x, f x = true -> g x = true) -> (length (filter f l) <= length (filter g l))%nat.
Proof. intros H. induction l as [|x l IH]; cbn; [lia|]. destruct (f x) eqn:F; [rewrite (H _ F); cbn; lia|destruct (g x); cbn; lia]. Qed.
Lemma filter_lt {A} (f g : A -> bool) l x : (forall x, f x = true -> g x = true) -> In x l -> g x = true -> f x = false -> (length (filter f l) < length (filter g l))%nat.
Proof.
  intros H. induction l as [|y l IH]; intros I G F; [destruct I|]. cbn. destruct I as [->|I].
  - rewrite G, F. cbn. pose proof (filter_len f g l H). lia.
  - specialize (IH I G F). destruct (f y) eqn:Y; [rewrite (H _ Y); cbn; lia|destruct (g y); cbn; lia].
Qed.
Lemma covers_complete s : val (smax s) < i128_max -> (forall i, In i (entries s) -> snd i <= val (smax s)) ->
  forall f n, (pending s n <= f)%nat -> (forall z, n <= z <= val (smax s) -> exists i, In i (entries s) /\ inside z i) -> covers f s n = true.
Proof.
  intros M B. induction f as [|f IH]; intros n P C; rewrite covers_S; destruct (Z.leb_spec n (val (smax s))) as [L|L]; try reflexivity.
  - exfalso. destruct (C n) as (i & I & IN); [lia|]. unfold pending in P. assert (In i (filter (fun i => n <=? snd i) (entries s))) as F by (apply filter_In; split; [auto|unfold inside in IN; lia]).
    destruct (filter _ (entries s)); [destruct F|cbn in P; lia].
  - pose proof (next_num_spec s n) as N. destruct (next_num s n) as [n'|] eqn:NN.
    + destruct N as (i & I & IN & ->). specialize (B i I) as Bi. unfold succ_i128. replace (snd i =? i128_max) with false by lia. apply IH.
      * unfold pending in *. assert (length (filter (fun j => (snd i + 1 <=? snd j)%Z) (entries s)) < length (filter (fun j => (n <=? snd j)%Z) (entries s)))%nat; [|lia].
        unfold inside in IN. apply filter_lt with (x := i); auto; intros; lia.
      * intros z Z. apply C. unfold inside in IN. lia.
    + exfalso. destruct (C n) as (i & I & IN); [lia|]. exact (N i I (fun _ _ => Logic.I) IN).
Qed.

Lemma forall2_in {A B} (R : A -> B -> Prop) l l' : Forall2 R l l' -> (forall x, In x l -> exists y, In y l' /\ R x y) /\ (forall y, In y l' -> exists x, In x l /\ R x y).
Proof.
  induction 1 as [|x y l l' XY F IH]; [split; intros ? []|]. destruct IH as [IH1 IH2]. split.
  - intros a [<-|A0]; [exists y; split; [left|]; auto|]. destruct (IH1 _ A0) as (b & B1 & B2). exists b. split; [right|]; auto.
  - intros b [<-|B0]; [exists x; split; [left|]; auto|]. destruct (IH2 _ B0) as (a & A1 & A2). exists a. split; [right|]; auto.
Qed.

Lemma Forall2_len {A B} (R : A -> B -> Prop) l l' : Forall2 R l l' -> length l = length l'.
Proof. induction 1; cbn; congruence. Qed.
(** What the scan has found. *)
Lemma scan_spec l s : Forall pat_ok l -> l <> [] -> scan_all scan0 l = Some s ->
  (forall z, any_matches l z <-> exists i, In i (entries s) /\ inside z i) /\
  (forall i, In i (entries s) -> - i128_max <= fst i <= snd i /\ snd i <= val (smax s)) /\ - i128_max <= val (smin s) /\ val (smin s) <= val (smax s) <= i128_max /\
  any_matches l (val (smin s)) /\ any_matches l (val (smax s)) /\ (forall z, any_matches l z -> val (smin s) <= z <= val (smax s)) /\
  length (entries s) = length l /\
  exists mn mx, text (smin s) = Some mn /\ text (smax s) = Some mx /\ forall z, matches (PRange mn mx (kind s)) z <-> val (smin s) <= z <= val (smax s).
Proof.
  intros F NE S. pose proof (scan_all_inv l scan0 [] F) as H. rewrite S in H.
  destruct H as (ints & F2 & P & I); [split; [constructor|reflexivity]|intros i []|]. cbn [app] in *.
  assert (IN : forall i, In i (entries s) <-> In i ints) by (intros i; split; [apply Permutation_in; auto|apply Permutation_in; now symmetry]).
  destruct (forall2_in _ _ _ F2) as [A1 A2]. rewrite Forall_forall in F.
  assert (B : forall i, In i ints -> - i128_max <= fst i <= snd i /\ snd i <= i128_max).
  { intros i II. destruct (A2 _ II) as (p & PI & PE). destruct i as [lo hi]. exact (interval_bounds _ _ _ (F _ PI) PE). }
  assert (AM : forall z, any_matches l z <-> exists i, In i (entries s) /\ inside z i).
  { intros z. split.
    - intros (p & PI & M). destruct (A1 _ PI) as ([lo hi] & II & PE). exists (lo, hi). split; [now apply IN|]. now apply (interval_matches _ _ _ PE).
    - intros ([lo hi] & II & M). apply IN in II. destruct (A2 _ II) as (p & PI & PE). exists p. split; [auto|]. now apply (interval_matches _ _ _ PE). }
  destruct ints as [|i0 ints]; [inversion F2; subst; contradiction|]. destruct I as (I1 & I2 & I3 & (i1 & I4 & E4) & (i2 & I5 & E5)).
  split; [exact AM|]. split; [intros i II; apply IN in II; specialize (B i II); specialize (I3 i II); lia|].
  pose proof (B _ I4). pose proof (B _ I5). pose proof (I3 _ I4). split; [lia|]. split; [lia|].
  split; [apply AM; exists i1; split; [now apply IN|unfold inside; lia]|]. split; [apply AM; exists i2; split; [now apply IN|unfold inside; lia]|].
  split. { intros z M. apply AM in M as (i & II & M). apply IN in II. specialize (I3 _ II). unfold inside in M. lia. }
  split. { apply Permutation_length in P. apply Forall2_len in F2. congruence. }
  destruct I1 as (mn & T1 & V1). destruct I2 as (mx & v & T2 & V2 & K). exists mn, mx. split; [auto|]. split; [auto|]. intros z. cbn [matches].
  destruct (kind s); rewrite V1, V2; split.
  - intros (a & b & [= <-] & [= <-] & L). lia.
  - intros L. do 2 eexists. repeat split; lia.
  - intros (a & b & [= <-] & [= <-] & L). lia.
  - intros L. do 2 eexists. repeat split; lia.
Qed.

Lemma manual_range_guard l : (3 <=? length l)%nat || ((1 <? length l)%nat && existsb is_range l) = true <->
  (3 <= length l)%nat \/ ((2 <= length l)%nat /\ exists a b k, In (PRange a b k) l).
Proof.
  rewrite orb_true_iff, andb_true_iff, Nat.leb_le, Nat.ltb_lt, existsb_exists. split.
  - intros [A|(A & p & P & Q)]; [auto|]. right. split; [lia|]. destruct p as [|a b k|]; try discriminate. eauto.
  - intros [A|(A & a & b & k & P)]; [auto|]. right. split; [lia|]. exists (PRange a b k). auto.
Qed.

Lemma manual_range_sound l r : Forall pat_ok l -> manual_range_patterns l = Some r -> forall z, matches r z <-> any_matches l z.
Proof.
  intros F H z. unfold manual_range_patterns in H. destruct (_ || _) eqn:G; [|discriminate].
  assert (NE : l <> []) by (intros ->; discriminate G).
  destruct (scan_all scan0 l) as [s|] eqn:S; [|discriminate]. destruct (scan_spec _ _ F NE S) as (AM & B & M1 & M2 & _ & _ & M3 & _ & mn & mx & T1 & T2 & RM).
  destruct (covers (length l) s (val (smin s))) eqn:C; [|discriminate]. rewrite T1, T2 in H. injection H as <-. rewrite RM. split; [|apply M3].
  intros Z. apply AM. pose proof i128_bounds. destruct (covers_sound s B ltac:(lia) ltac:(unfold i128_min, i128_max in *; lia) _ _ C) as [_ CS]. now apply CS.
Qed.

Lemma manual_range_exact l : Forall pat_ok l ->
  ((exists r, manual_range_patterns l = Some r) <->
   ((3 <= length l)%nat \/ ((2 <= length l)%nat /\ exists a b k, In (PRange a b k) l)) /\ Forall small_literals l /\
   exists lo hi, lo <= hi < 2 ^ 127 - 1 /\ forall z, any_matches l z <-> lo <= z <= hi).
Proof.
  intros F. pose proof i128_bounds as (B1 & B2 & B3). unfold manual_range_patterns. rewrite <- manual_range_guard.
  destruct (_ || _) eqn:G; [|split; [intros (r & H); discriminate|intros [H _]; discriminate]].
  assert (NE : l <> []) by (intros ->; discriminate G).
  pose proof (scan_all_inv l scan0 [] F) as H. destruct (scan_all scan0 l) as [s|] eqn:S.
  - destruct H as (ints & F2 & _); [split; [constructor|reflexivity]|intros i []|].
    assert (SM : Forall small_literals l). { apply Forall_forall. intros p P. rewrite Forall_forall in F. apply interval_small; [auto|]. destruct (proj1 (forall2_in _ _ _ F2) p P) as (i & _ & ->). discriminate. }
    destruct (scan_spec _ _ F NE S) as (AM & B & M1 & M2 & MN & MX & M3 & LEN & mn & mx & T1 & T2 & RM). rewrite T1, T2. split.
    + intros (r & R). split; [reflexivity|]. split; [exact SM|]. destruct (covers (length l) s (val (smin s))) eqn:C; [|discriminate].
      destruct (covers_sound s B ltac:(lia) ltac:(unfold i128_min, i128_max in *; lia) _ _ C) as [C1 C2].
      exists (val (smin s)), (val (smax s)). split; [rewrite <- B1; lia|]. intros z. split; [apply M3|]. intros Z. apply AM. now apply C2.
    + intros (_ & _ & lo & hi & LH & IFF). apply IFF in MN. apply IFF in MX.
      assert (CO : covers (length l) s (val (smin s)) = true).
      { apply covers_complete; [lia|intros i II; apply B; auto| |].
        - unfold pending. rewrite <- LEN. clear. induction (entries s) as [|x l IH]; cbn; [lia|]. destruct (_ <=? _); cbn; lia.
        - intros z Z. apply AM. apply IFF. lia. }
      rewrite CO. eauto.
  - split; [intros (r & R); discriminate|]. intros (_ & SM & _). exfalso.
    destruct H as (p & P & IV); [split; [constructor|reflexivity]|intros i []|]. rewrite Forall_forall in F, SM. apply (proj1 (interval_small p (F p P)) (SM p P)). exact IV.
Qed.
