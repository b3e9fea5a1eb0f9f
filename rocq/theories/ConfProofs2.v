(** Proofs about the layout of value lists and the item ordering groups. *)
From Coq Require Import List String Ascii Arith Bool Lia Permutation.
From Verif Require Import CliModel ConfModel ConfSpec.
Import ListNotations.
Local Open Scope nat_scope.
Local Open Scope list_scope.

Lemma str_app_length : forall a b, String.length (a ++ b) = String.length a + String.length b.
Proof. induction a as [|c a IH]; intros b; cbn; [reflexivity|]. now rewrite IH. Qed.

Lemma spaces_length : forall k, String.length (string_of_list_ascii (repeat " "%char k)) = k.
Proof. induction k as [|k IH]; cbn; congruence. Qed.

Lemma str_app_assoc : forall a b c, ((a ++ b) ++ c = a ++ b ++ c)%string.
Proof. induction a as [|x a IH]; intros b c; cbn; [reflexivity|]. now rewrite IH. Qed.

Lemma spaces_app : forall a b,
  (string_of_list_ascii (repeat " "%char a) ++ string_of_list_ascii (repeat " "%char b)
   = string_of_list_ascii (repeat " "%char (a + b)))%string.
Proof. induction a as [|a IH]; intros b; cbn; [reflexivity|]. now rewrite IH. Qed.

Lemma str_app_nil : forall s, (s ++ "" = s)%string.
Proof. induction s as [|c s IH]; cbn; congruence. Qed.

Lemma div_ceil_ge : forall n c, 1 <= c -> n <= div_ceil n c * c.
Proof.
  intros n c H. unfold div_ceil. pose proof (Nat.div_mod (n + c - 1) c ltac:(lia)) as E.
  pose proof (Nat.mod_upper_bound (n + c - 1) c ltac:(lia)). nia.
Qed.

Lemma div_ceil_le : forall n c, 1 <= c -> div_ceil n c <= n.
Proof.
  intros n c H. unfold div_ceil. destruct n as [|n].
  - rewrite Nat.div_small; lia.
  - apply Nat.lt_succ_r. apply Nat.div_lt_upper_bound; nia.
Qed.

Lemma start_size_ok : forall n k c rc, 2 <= c -> n <= rc * (c - 1) -> rc <= n ->
  match start_size n rc (seq c k) with
  | inl x => n <= x * (c - 1 + k) /\ x <= n
  | inr (x, c') => n <= x * c' /\ c - 1 <= c' < c + k /\ x <= n
  end.
Proof.
  intros n k. induction k as [|k IH]; intros c rc Hc H Hn; cbn [seq start_size].
  - split; [now rewrite Nat.add_0_r|assumption].
  - destruct (div_ceil n c + 3 <=? rc).
    + pose proof (div_ceil_ge n c ltac:(lia)) as G.
      specialize (IH (S c) (div_ceil n c) ltac:(lia) ltac:(replace (S c - 1) with c by lia; exact G)
        (div_ceil_le n c ltac:(lia))).
      destruct (start_size n (div_ceil n c) (seq (S c) k)) as [x|[x c']].
      * replace (c - 1 + S k) with (S c - 1 + k) by lia. exact IH.
      * lia.
    + lia.
Qed.

Lemma widen_col_ok : forall limit vals w total w' total',
  widen_col limit vals w total = Some (w', total') -> total <= limit ->
  total' + w = total + w' /\ total' <= limit /\ w <= w' /\ forall v, In v vals -> String.length v <= w'.
Proof.
  induction vals as [|v vals IH]; intros w total w' total' H L; cbn [widen_col] in H.
  - injection H as <- <-. repeat split; try lia. intros ? [].
  - destruct (w <? String.length v) eqn:E.
    + apply Nat.ltb_lt in E. destruct (limit <? total + (String.length v - w)) eqn:F; [discriminate|].
      apply Nat.ltb_ge in F. apply IH in H as (A & B & C & D); [|assumption].
      repeat split; try lia. intros u [<- | Hu]; [lia|auto].
    + apply Nat.ltb_ge in E. apply IH in H as (A & B & C & D); [|assumption].
      repeat split; try lia. intros u [<- | Hu]; [lia|auto].
Qed.

Lemma widen_cols_ok : forall limit cols ws total ws',
  widen_cols limit cols ws total = Some ws' -> total <= limit ->
  List.length ws' = List.length ws /\ total + sum ws' <= limit + sum ws /\
  forall i c w, nth_error cols i = Some c -> nth_error ws' i = Some w ->
    forall v, In v c -> String.length v <= w.
Proof.
  induction cols as [|c cols IH]; intros ws total ws' H L; cbn [widen_cols] in H.
  - injection H as <-. split; [reflexivity|]. split; [lia|]. intros i ? ? X. destruct i; discriminate X.
  - destruct ws as [|w ws].
    + injection H as <-. cbn. split; [reflexivity|]. split; [lia|]. intros i ? ? _ X. destruct i; discriminate X.
    + destruct (widen_col limit c w total) as [[w1 t1]|] eqn:E; [|discriminate].
      apply widen_col_ok in E as (A & B & C & D); [|assumption].
      destruct (widen_cols limit cols ws t1) as [ws1|] eqn:F; [|discriminate].
      injection H as <-. apply IH in F as (P & Q & R); [|assumption]. cbn. fold (sum ws) (sum ws1).
      split; [lia|]. split; [lia|]. intros [|i] c0 w0 X Y; cbn in X, Y.
      * injection X as ->. injection Y as ->. exact D.
      * now apply R with i.
Qed.

Lemma skipn_add : forall (A : Type) a b (l : list A), skipn a (skipn b l) = skipn (b + a) l.
Proof.
  induction b as [|b IH]; intros l; cbn; [reflexivity|]. destruct l; [now rewrite skipn_nil|apply IH].
Qed.

Lemma nth_error_chunks : forall (A : Type) k (l : list A) i fuel, 1 <= k -> i * k < List.length l ->
  List.length l <= fuel ->
  nth_error (chunks_fuel fuel k l) i = Some (firstn k (skipn (i * k) l)).
Proof.
  intros A k l i. revert l. induction i as [|i IH]; intros l fuel K H F; destruct fuel as [|fuel];
    try (destruct l; cbn in *; lia); cbn [chunks_fuel]; (destruct l as [|x l0]; [cbn in H; lia|]).
  - reflexivity.
  - set (l := x :: l0) in *. cbn [nth_error].
    rewrite IH; [|assumption|rewrite skipn_length; cbn [Nat.mul] in H; lia|rewrite skipn_length; lia].
    f_equal. f_equal. cbn [Nat.mul]. apply skipn_add.
Qed.

Lemma fit_ok : forall fuel limit mw values rows cols,
  cols < fuel -> List.length values <= rows * cols \/ cols <= 1 -> rows <= List.length values ->
  (2 <= cols -> cols * (mw + 4) + NOTE_LEN <= limit) ->
  match fit fuel limit mw values rows cols with
  | OnePerLine => True
  | Columns r ws =>
      List.length values <= r * List.length ws /\ sum ws + 4 * List.length ws + NOTE_LEN <= limit /\
      (1 <= r -> forall j w v i, nth_error ws j = Some w -> nth_error values (i + j * r) = Some v ->
         i < r -> String.length v <= w) /\ 2 <= cols /\ r <= List.length values
  | OutOfFuel => False
  end.
Proof.
  induction fuel as [|fuel IH]; intros limit mw values rows cols HF HN HR HW; [lia|]. cbn [fit].
  destruct (cols <=? 1) eqn:E; [exact I|]. apply Nat.leb_gt in E.
  destruct (widen_cols limit (chunks rows values) (repeat mw cols)
                (cols * (mw + String.length TBL_SEP) + NOTE_LEN)) as [ws|] eqn:F.
  - change (String.length TBL_SEP) with 4 in F.
    apply widen_cols_ok in F as (A & B & C); [|now apply HW].
    rewrite repeat_length in A.
    assert (S : sum (repeat mw cols) = cols * mw).
    { clear. induction cols as [|c IHc]; cbn; [reflexivity|]. fold (sum (repeat mw c)). lia. }
    split; [rewrite A; lia|]. split; [rewrite A; nia|]. split; [|split; [lia|assumption]].
    intros R j w v i Hw Hv Hi. apply C with (i := j) (c := firstn rows (skipn (j * rows) values)); auto.
    + unfold chunks. apply nth_error_chunks; auto.
      assert (i + j * rows < List.length values) by (apply nth_error_Some; congruence). lia.
    + apply nth_error_In with i.
      assert (G : nth_error (skipn (j * rows) values) i = Some v).
      { rewrite <- Hv. clear. revert values. induction (j * rows) as [|m IHm]; intros values; cbn.
        - now rewrite Nat.add_0_r.
        - rewrite Nat.add_succ_r. destruct values; [now destruct i|]. cbn. apply IHm. }
      revert G Hi. generalize (skipn (j * rows) values). clear. intros l. revert i rows.
      induction l as [|x l IHl]; intros i r G Hi.
      * destruct i; discriminate.
      * destruct r; [lia|]. cbn. destruct i; cbn in *; [assumption|]. apply IHl; [assumption|lia].
  - assert (G := IH limit mw values (div_ceil (List.length values) (cols - 1)) (cols - 1)).
    assert (H1 : cols - 1 < fuel) by lia.
    assert (H2 : List.length values <= div_ceil (List.length values) (cols - 1) * (cols - 1)
                 \/ cols - 1 <= 1).
    { left. apply div_ceil_ge. lia. }
    assert (H3 : 2 <= cols - 1 -> (cols - 1) * (mw + 4) + NOTE_LEN <= limit).
    { intros H. specialize (HW ltac:(lia)).
      assert ((cols - 1) * (mw + 4) <= cols * (mw + 4)) by (apply Nat.mul_le_mono_r; lia). lia. }
    specialize (G H1 H2 (div_ceil_le (List.length values) (cols - 1) ltac:(lia)) H3). destruct (fit fuel _ _ _ _ _); auto.
    destruct G as (G1 & G2 & G3 & G4 & G5). repeat split; auto; lia.
Qed.

Lemma step_by_in : forall fuel i n k x, 1 <= k -> n - i <= fuel ->
  (In x (step_by fuel i n k) <-> exists j, x = i + j * k /\ x < n).
Proof.
  induction fuel as [|fuel IH]; intros i n k x K F; cbn [step_by].
  - split; [intros []|]. intros (j & -> & H). nia.
  - destruct (i <? n) eqn:E.
    + apply Nat.ltb_lt in E. cbn [In]. rewrite IH by lia. split.
      * intros [<- | (j & -> & H)]; [exists 0; lia|exists (S j); cbn; lia].
      * intros ([|j] & -> & H); [left; lia|right; exists j; cbn in *; lia].
    + apply Nat.ltb_ge in E. split; [intros []|]. intros (j & -> & H). nia.
Qed.

Lemma step_by_nth : forall fuel i n k j, 1 <= k -> n - i <= fuel ->
  nth_error (step_by fuel i n k) j = if i + j * k <? n then Some (i + j * k) else None.
Proof.
  induction fuel as [|fuel IH]; intros i n k j K F; cbn [step_by].
  - replace (i + j * k <? n) with false by (symmetry; apply Nat.ltb_ge; nia). now destruct j.
  - destruct (i <? n) eqn:E.
    + apply Nat.ltb_lt in E. destruct j as [|j]; cbn [nth_error].
      * rewrite Nat.mul_0_l, Nat.add_0_r. replace (i <? n) with true by (symmetry; now apply Nat.ltb_lt). reflexivity.
      * rewrite IH by lia. now replace (i + k + j * k) with (i + S j * k) by (cbn; lia).
    + apply Nat.ltb_ge in E. replace (i + j * k <? n) with false by (symmetry; apply Nat.ltb_ge; nia).
      now destruct j.
Qed.

Lemma step_by_nodup : forall fuel i n k, 1 <= k -> NoDup (step_by fuel i n k).
Proof.
  intros fuel i n k K. revert i. induction fuel as [|fuel IH]; intros i; cbn [step_by]; [constructor|].
  destruct (i <? n); [|constructor]. constructor; [|apply IH]. intros H.
  assert (G : forall fuel i x, In x (step_by fuel i n k) -> i <= x).
  { clear. induction fuel as [|fuel IH]; intros i x; cbn [step_by]; [intros []|].
    destruct (i <? n); [|intros []]. intros [<- | H]; [lia|]. apply IH in H. lia. }
  apply G in H. lia.
Qed.

Lemma nodup_flat_map : forall (A B : Type) (f : A -> list B) l, NoDup l ->
  (forall x, In x l -> NoDup (f x)) ->
  (forall x y z, In x l -> In y l -> In z (f x) -> In z (f y) -> x = y) -> NoDup (flat_map f l).
Proof.
  induction l as [|x l IH]; intros N H1 H2; cbn; [constructor|].
  inversion N as [|? ? Nx N']; subst.
  assert (G : forall a b, NoDup a -> NoDup b -> (forall z : B, In z a -> ~ In z b) -> NoDup (a ++ b)).
  { clear. induction a as [|y a IH]; intros b Na Nb H; cbn; [assumption|].
    inversion Na; subst. constructor.
    - rewrite in_app_iff. intros [?|?]; [contradiction|]. now apply (H y); [left|].
    - apply IH; auto. intros z Hz. apply H. now right. }
  apply G; [apply H1; now left| |].
  - apply IH; auto.
    + intros y Hy. apply H1. now right.
    + intros a b z Ha Hb. apply H2; now right.
  - intros z Hz Hf. apply in_flat_map in Hf as (y & Hy & Hz'). apply Nx.
    rewrite (H2 x y z); auto; [now left|now right].
Qed.

Lemma steps_permutation : forall n k, (n = 0 \/ 1 <= k) ->
  Permutation (flat_map (fun r => step_by n r n k) (seq 0 k)) (seq 0 n).
Proof.
  intros n k [-> | K].
  { replace (flat_map _ _) with (@nil nat); [constructor|].
    induction (seq 0 k) as [|x l IH]; cbn; auto. }
  apply NoDup_Permutation.
  - apply nodup_flat_map.
    + apply seq_NoDup.
    + intros. now apply step_by_nodup.
    + intros x y z Hx Hy Ix Iy. apply in_seq in Hx, Hy.
      apply step_by_in in Ix as (j & -> & _); [|lia|lia]. apply step_by_in in Iy as (j' & E & _); [|lia|lia].
      assert (j = j') by nia. nia.
  - apply seq_NoDup.
  - intros x. rewrite in_flat_map, in_seq. split.
    + intros (r & Hr & H). apply step_by_in in H as (j & E & H); [|lia|lia]. lia.
    + intros H. exists (x mod k). split.
      * apply in_seq. pose proof (Nat.mod_upper_bound x k ltac:(lia)). lia.
      * apply step_by_in; [lia|lia|]. exists (x / k). split; [|lia].
        pose proof (Nat.div_mod x k ltac:(lia)). lia.
Qed.

Lemma map_nth_seq : forall (l : list string) d, map (fun i => nth i l d) (seq 0 (List.length l)) = l.
Proof.
  induction l as [|x l IH]; intros d; cbn [List.length seq map]; [reflexivity|].
  rewrite <- seq_shift, map_map. cbn [nth]. now rewrite IH.
Qed.

(** One row: its cells are laid out in it, and its width is bounded. *)
Lemma row_ok : forall values rows fuel i ws,
  1 <= rows -> List.length values - i <= fuel -> i < List.length values ->
  List.length (step_by fuel i (List.length values) rows) <= List.length ws ->
  (forall j w v, nth_error ws j = Some w -> nth_error values (i + j * rows) = Some v ->
     String.length v <= w) ->
  let line := join TBL_SEP (map (fun iw : nat * nat => let '(i, w) := iw in
     pad (if i + rows <? List.length values then w else 0) (nth i values ""%string))
     (combine (step_by fuel i (List.length values) rows) ws)) in
  laid_out (map (fun i => nth i values ""%string) (step_by fuel i (List.length values) rows)) line /\
  String.length line + 4 <= sum ws + 4 * List.length ws.
Proof.
  intros values rows. induction fuel as [|fuel IH]; intros i ws R F I L W; [lia|].
  cbn [step_by] in *. pose proof (proj2 (Nat.ltb_lt _ _) I) as Ib. rewrite Ib in *.
  cbn [List.length] in L. destruct ws as [|w ws]; cbn [List.length] in L; [lia|].
  assert (V : nth_error values i = Some (nth i values ""%string)) by now apply nth_error_nth'.
  pose proof (W 0 w _ eq_refl ltac:(rewrite Nat.mul_0_l, Nat.add_0_r; exact V)) as W0.
  set (v := nth i values ""%string) in *.
  cbn [combine map]. fold v.
  destruct (i + rows <? List.length values) eqn:E.
  - apply Nat.ltb_lt in E.
    destruct (IH (i + rows) ws R ltac:(lia) E ltac:(lia)) as [A B].
    { intros j w' v' H1 H2. apply (W (S j) w' v'); [exact H1|].
      now replace (i + S j * rows) with (i + rows + j * rows) by (cbn; lia). }
    set (steps := step_by fuel (i + rows) (List.length values) rows) in *.
    set (rest := map _ (combine steps ws)) in *.
    assert (NE : rest <> []).
    { unfold rest, steps. destruct fuel; [lia|]. cbn [step_by].
      rewrite (proj2 (Nat.ltb_lt _ _) E). destruct ws; [|discriminate].
      unfold steps in L. cbn [step_by] in L. rewrite (proj2 (Nat.ltb_lt _ _) E) in L. cbn in L. lia. }
    cbn zeta in *. cbn [join]. destruct rest as [|r0 rest0] eqn:Q; [congruence|].
    assert (P : (pad w v ++ TBL_SEP ++ join TBL_SEP (r0 :: rest0) =
                 v ++ string_of_list_ascii (repeat " "%char (w - String.length v + 4)) ++ join TBL_SEP (r0 :: rest0))%string).
    { unfold pad. rewrite <- spaces_app, !str_app_assoc. reflexivity. }
    rewrite P. split.
    + constructor; [lia|exact A].
    + rewrite !str_app_length, spaces_length. cbn [sum fold_right List.length]. fold (sum ws). lia.
  - apply Nat.ltb_ge in E.
    assert (S : step_by fuel (i + rows) (List.length values) rows = []).
    { destruct fuel; cbn [step_by]; [reflexivity|]. now rewrite (proj2 (Nat.ltb_ge _ _) E). }
    rewrite S. cbn [combine map join]. unfold pad. cbn [Nat.sub repeat string_of_list_ascii].
    rewrite str_app_nil. split; [constructor|]. cbn [sum fold_right List.length]. fold (sum ws). lia.
Qed.

Lemma inline_join : forall values,
  inline values (join INLINE_SEP (map (fun x => "`" ++ x ++ "`")%string values)) /\
  String.length (join INLINE_SEP (map (fun x => "`" ++ x ++ "`")%string values))
    <= sum (map (fun x => String.length x + String.length INLINE_SEP + 2) values).
Proof.
  induction values as [|v vs [A B]]; [split; [constructor|cbn; lia]|].
  destruct vs as [|v' vs].
  - cbn [map join]. split; [constructor|]. rewrite !str_app_length. cbn. lia.
  - set (g := fun x => ("`" ++ x ++ "`")%string) in *.
    set (f := fun x => String.length x + String.length INLINE_SEP + 2) in *.
    cbn [map]. cbn [map] in A, B.
    change (join INLINE_SEP (g v :: g v' :: map g vs))
      with (g v ++ INLINE_SEP ++ join INLINE_SEP (g v' :: map g vs))%string.
    split.
    + replace (g v ++ INLINE_SEP ++ join INLINE_SEP (g v' :: map g vs))%string
        with ("`" ++ v ++ "`, " ++ join INLINE_SEP (g v' :: map g vs))%string.
      * constructor. exact A.
      * change (g v) with ("`" ++ v ++ "`")%string.
        rewrite !str_app_assoc. reflexivity.
    + change (sum (f v :: f v' :: map f vs)) with (f v + sum (f v' :: map f vs)).
      change (g v) with ("`" ++ v ++ "`")%string. unfold f at 1. rewrite !str_app_length.
      change (String.length "`") with 1. lia.
Qed.

Lemma listing_single : forall width values,
  listing width values ("possible values:"%string :: values).
Proof.
  intros width values. right. exists (map (fun v => [v]) values), values.
  split; [reflexivity|]. split.
  { induction values as [|v values IH]; cbn; constructor; [constructor|assumption]. }
  split.
  { replace (List.concat (map (fun v => [v]) values)) with values; [reflexivity|].
    induction values as [|v values IH]; cbn; [reflexivity|]. now rewrite <- IH. }
  split.
  { intros r j cells c H1 H2. rewrite nth_error_map in H1.
    destruct (nth_error values r) as [v|] eqn:E; [|discriminate]. injection H1 as <-.
    destruct j as [|j]; cbn in H2; [|destruct j; discriminate]. injection H2 as <-.
    now rewrite Nat.mul_0_l, Nat.add_0_r. }
  intros (cells & I & L). apply in_map_iff in I as (v & <- & _). cbn in L. lia.
Qed.

Lemma value_list_ok : forall width pretty values,
  listing width values (create_value_list_msg width pretty values).
Proof.
  intros width pretty values. unfold create_value_list_msg.
  destruct (_ && _) eqn:E.
  - apply andb_prop in E as [E1 E2]. apply Nat.leb_le in E1, E2. left.
    destruct (inline_join values) as [A B].
    eexists. split; [reflexivity|]. split; [exact A|]. split; [exact E1|].
    change NOTE_WITH_MSG_LEN with 28 in E2. lia.
  - clear E. destruct pretty; [|apply listing_single].
    set (n := List.length values). set (mw := min_len values).
    set (max_col := (width - NOTE_WITH_MSG_LEN) / (mw + String.length TBL_SEP)).
    pose proof (start_size_ok n (max_col - 1) 2 n ltac:(lia) ltac:(lia) ltac:(lia)) as SS.
    assert (M : max_col * (mw + 4) <= width - 28).
    { unfold max_col. change (String.length TBL_SEP) with 4. change NOTE_WITH_MSG_LEN with 28.
      rewrite Nat.mul_comm. apply Nat.mul_div_le. lia. }
    destruct (match start_size n n (seq 2 (max_col - 1)) with inl x => (x, max_col) | inr x => x end)
      as [rows cols] eqn:RC.
    assert (K : (n <= rows * cols \/ cols <= 1) /\ (2 <= cols -> cols <= max_col) /\ rows <= n).
    { destruct (start_size n n (seq 2 (max_col - 1))) as [x|[x c]]; injection RC as <- <-.
      - destruct SS as [SS SS']. split; [|lia]. destruct max_col as [|[|mc]]; [lia|lia|left].
        replace (S (S mc)) with (2 - 1 + (S (S mc) - 1)) by lia. exact SS.
      - lia. }
    destruct K as (K1 & K2 & K3).
    pose proof (fit_ok (S cols) width mw values rows cols ltac:(lia) K1 K3) as FO.
    assert (HW : 2 <= cols -> cols * (mw + 4) + NOTE_LEN <= width).
    { intros H. specialize (K2 H). change NOTE_LEN with 11.
      assert (cols * (mw + 4) <= max_col * (mw + 4)) by (apply Nat.mul_le_mono_r; lia). nia. }
    specialize (FO HW). destruct (fit (Datatypes.S cols) width mw values rows cols) as [|r ws|];
      [apply listing_single| |destruct FO].
    destruct FO as (N & T & W & C2 & Rn). fold n in N, Rn.
    assert (R1 : 1 <= r).
    { destruct r; [|lia]. exfalso. assert (Z : n = 0) by lia. clear N W. rewrite Z in RC.
      destruct max_col as [|[|mc]]; cbn in RC; injection RC as <- <-; lia. }
    right. set (cells := fun row => map (fun i => nth i values ""%string) (step_by n row n r)).
    exists (map cells (seq 0 r)), (map (fun row => join TBL_SEP (row_cells values r ws row)) (seq 0 r)).
    split; [reflexivity|].
    assert (G : forall row, In row (seq 0 r) ->
      laid_out (cells row) (join TBL_SEP (row_cells values r ws row)) /\
      String.length (join TBL_SEP (row_cells values r ws row)) + 4 <= sum ws + 4 * List.length ws).
    { intros row Hr. apply in_seq in Hr. unfold cells, row_cells. fold n.
      apply (row_ok values r n row ws); fold n; try lia.
      - destruct (Nat.le_gt_cases (List.length (step_by n row n r)) (List.length ws)) as [H|H]; [assumption|].
        exfalso. apply nth_error_Some in H. rewrite step_by_nth in H by lia.
        destruct (row + List.length ws * r <? n) eqn:E; [|congruence]. apply Nat.ltb_lt in E. nia.
      - intros j w v Hw Hv. apply (W R1 j w v row); auto. lia. }
    split.
    { revert G. generalize (seq 0 r). intros l. induction l as [|x l IH]; intros G; cbn; constructor.
      - apply G. now left.
      - apply IH. intros y Hy. apply G. now right. }
    split.
    { rewrite <- (map_nth_seq values ""%string) at 1. fold n.
      rewrite <- (steps_permutation n r) by lia. unfold cells.
      replace (List.concat (map (fun row => map (fun i => nth i values ""%string) (step_by n row n r)) (seq 0 r)))
        with (map (fun i => nth i values ""%string) (flat_map (fun row => step_by n row n r) (seq 0 r))); [reflexivity|].
      generalize (seq 0 r). intros l. induction l as [|x l IH]; cbn; [reflexivity|].
      now rewrite map_app, IH. }
    split.
    { intros row j cs c H1 H2. rewrite map_length, seq_length. rewrite nth_error_map in H1.
      destruct (nth_error (seq 0 r) row) as [x|] eqn:X; [|discriminate]. injection H1 as <-.
      assert (Hr : row < r) by (rewrite <- (seq_length r 0); apply nth_error_Some; congruence).
      assert (x = row). { rewrite (nth_error_nth' _ 0) in X by now rewrite seq_length. rewrite seq_nth in X by assumption. cbn in X. congruence. }
      subst x. unfold cells in H2. rewrite nth_error_map, step_by_nth in H2 by lia.
      destruct (row + j * r <? n) eqn:E; [|discriminate]. apply Nat.ltb_lt in E. injection H2 as <-.
      now apply nth_error_nth'. }
    intros _ line Hl. apply in_map_iff in Hl as (row & <- & Hr). destruct (G row Hr) as [_ B].
    change NOTE_LEN with 11 in T. lia.
Qed.

(** ** Item ordering groups *)

Lemma item_kind_eqb_eq : forall a b, item_kind_eqb a b = true <-> a = b.
Proof. intros a b. unfold item_kind_eqb. destruct (item_kind_eq_dec a b); split; congruence. Qed.

Lemma fold_insert : forall (x : nat * string) items acc k,
  fold_left (fun a it => fun k => if item_kind_eqb it k then Some x else a k) items acc k =
  if in_dec item_kind_eq_dec k items then Some x else acc k.
Proof.
  induction items as [|it items IH]; intros acc k; [reflexivity|].
  cbn [fold_left]. rewrite IH.
  destruct (in_dec item_kind_eq_dec k items) as [I|N], (in_dec item_kind_eq_dec k (it :: items)) as [I'|N'];
    try reflexivity.
  - exfalso. apply N'. now right.
  - destruct I' as [-> | I']; [|contradiction]. now rewrite (proj2 (item_kind_eqb_eq k k) eq_refl).
  - destruct (item_kind_eqb it k) eqn:E; [|reflexivity]. apply item_kind_eqb_eq in E. exfalso. apply N'. now left.
Qed.

Lemma build_lut_ok : forall g i acc k,
  match build_lut i g acc k with
  | Some (j, name) => (acc k = Some (j, name) /\ ~ In k (List.concat (map snd g))) \/
                      exists j', j = i + j' /\ in_group g j' name k
  | None => acc k = None /\ ~ In k (List.concat (map snd g))
  end.
Proof.
  induction g as [|[name items] g IH]; intros i acc k; cbn [build_lut map snd concat].
  - destruct (acc k) as [[j name]|]; auto.
  - specialize (IH (S i) (fold_left (fun a it => fun k => if item_kind_eqb it k then Some (i, name) else a k) items acc) k).
    rewrite fold_insert in IH.
    destruct (build_lut (S i) g _ k) as [[j nm]|].
    + destruct IH as [[E N]|(j' & -> & (its & H1 & H2))].
      * destruct (in_dec item_kind_eq_dec k items) as [I|NI].
        -- injection E as <- <-. right. exists 0. split; [lia|]. exists items. auto.
        -- left. split; [assumption|]. rewrite in_app_iff. tauto.
      * right. exists (S j'). split; [lia|]. exists its. auto.
    + destruct IH as [E N]. destruct (in_dec item_kind_eq_dec k items); [discriminate|].
      split; [assumption|]. rewrite in_app_iff. tauto.
Qed.

Lemma in_group_in : forall g i name k, in_group g i name k -> In k (List.concat (map snd g)).
Proof.
  intros g i name k (items & H & I). apply in_concat. exists items. split; [|assumption].
  apply nth_error_In in H. change items with (snd (name, items)). now apply in_map.
Qed.

Lemma nodup_app_not : forall (A : Type) (a b : list A) x, NoDup (a ++ b) -> In x a -> ~ In x b.
Proof.
  induction a as [|y a IH]; intros b x N I; [destruct I|]. inversion N as [|? ? Ny N']; subst.
  destruct I as [<- | I]; [|now apply IH]. intros J. apply Ny. apply in_app_iff. now right.
Qed.

Lemma in_group_unique : forall g i j n m k, NoDup (List.concat (map snd g)) ->
  in_group g i n k -> in_group g j m k -> i = j /\ n = m.
Proof.
  induction g as [|[name items] g IH]; intros i j n m k N (a & Ha & Ia) (b & Hb & Ib).
  - destruct i; discriminate.
  - cbn in N. destruct i as [|i], j as [|j]; cbn in Ha, Hb.
    + injection Ha as -> ->. injection Hb as -> ->. auto.
    + injection Ha as -> ->. exfalso. eapply nodup_app_not; eauto. eapply in_group_in. exists b. eauto.
    + injection Hb as -> ->. exfalso. eapply nodup_app_not; eauto. eapply in_group_in. exists a. eauto.
    + assert (N' : NoDup (List.concat (map snd g))) by (revert N; clear; induction items as [|x items IH]; cbn; auto; intros N; inversion N; auto).
      destruct (IH i j n m k N') as [-> ->]; [exists a; auto|exists b; auto|auto].
Qed.

Lemma sum_concat : forall g : groups,
  sum (map (fun p => List.length (snd p)) g) = List.length (List.concat (map snd g)).
Proof.
  induction g as [|[n its] g IH]; [reflexivity|]. cbn. fold (sum (map (fun p : string * list item_kind => List.length (snd p)) g)).
  rewrite app_length. lia.
Qed.

Lemma all_variants_nodup : NoDup all_variants.
Proof. repeat constructor; cbn; intuition discriminate. Qed.
Lemma all_variants_all : forall k, In k all_variants.
Proof. intros []; cbn; tauto. Qed.

Lemma count_perm : forall l, (forall k, count_occ item_kind_eq_dec l k = 1) <-> Permutation all_variants l.
Proof.
  intros l. rewrite (Permutation_count_occ item_kind_eq_dec). split; intros H k; specialize (H k).
  - rewrite H. now destruct k.
  - rewrite <- H. now destruct k.
Qed.

Lemma filter_nil_all : forall (A : Type) (f : A -> bool) l, filter f l = [] -> forall x, In x l -> f x = false.
Proof.
  induction l as [|y l IH]; intros H x I; [destruct I|]. cbn in H. destruct (f y) eqn:E; [discriminate|].
  destruct I as [<- | I]; auto.
Qed.

Lemma check_groups_ok : forall g,
  match check_groups g with
  | GOk g' lut => g' = g /\ groups_ok g /\
      forall k i name, lut k = Some (i, name) <-> in_group g i name k
  | GInternal => False
  | _ => ~ groups_ok g
  end.
Proof.
  intros g. unfold check_groups. rewrite sum_concat.
  set (items := List.concat (map snd g)). set (lut := build_lut 0 g (fun _ => None)).
  pose proof (fun k => build_lut_ok g 0 (fun _ => None) k) as B. fold lut items in B.
  set (expected := filter _ all_variants).
  assert (NOK : List.length items <> List.length all_variants -> ~ groups_ok g).
  { intros L [H _]. fold items in H. apply count_perm in H. apply Permutation_length in H. congruence. }
  destruct (match expected with [] => true | _ => false end) eqn:E; cbn [andb].
  - destruct (List.length items =? List.length all_variants) eqn:L; cbn [negb].
    + apply Nat.eqb_eq in L. destruct expected eqn:EX; [|discriminate].
      assert (ALL : incl all_variants items).
      { intros k _. pose proof (filter_nil_all _ _ _ EX k (all_variants_all k)) as F. cbn in F.
        specialize (B k). destruct (lut k) as [[j nm]|]; [|discriminate].
        destruct B as [[B _]|(j' & _ & G)]; [discriminate|]. eapply in_group_in; eauto. }
      assert (P : Permutation all_variants items).
      { apply NoDup_Permutation_bis; [apply all_variants_nodup|lia|assumption]. }
      assert (ND : NoDup items) by (eapply Permutation_NoDup; [exact P|apply all_variants_nodup]).
      assert (LUT : forall k i name, lut k = Some (i, name) <-> in_group g i name k).
      { intros k i name. split.
        - intros Hk. specialize (B k). rewrite Hk in B. destruct B as [[B _]|(j' & -> & G)]; [discriminate|exact G].
        - intros G. specialize (B k). destruct (lut k) as [[j nm]|].
          + destruct B as [[B _]|(j' & -> & G')]; [discriminate|].
            destruct (in_group_unique _ _ _ _ _ _ ND G G') as [-> ->]. reflexivity.
          + destruct B as [_ B]. exfalso. apply B. eapply in_group_in; eauto. }
      destruct (lut KUse) as [[i nm]|] eqn:U.
      * pose proof (proj1 (LUT KUse i nm) U) as (its & Hi & Iu). rewrite Hi.
        destruct (1 <? List.length its) eqn:LL.
        -- apply Nat.ltb_lt in LL. intros [_ (name & H)]. apply In_nth_error in H as (j & H).
           destruct (in_group_unique g i j nm name KUse ND) as [-> ->].
           ++ exists its. auto.
           ++ exists [KUse]. split; [assumption|now left].
           ++ rewrite Hi in H. injection H as ->. cbn in LL. lia.
        -- apply Nat.ltb_ge in LL. split; [reflexivity|]. split; [|exact LUT].
           split; [apply count_perm; exact P|]. exists nm.
           destruct its as [|x [|y its]]; cbn in LL; [destruct Iu| |lia].
           destruct Iu as [-> | []]. now apply nth_error_In with i.
      * specialize (B KUse). rewrite U in B. destruct B as [_ B]. apply B. apply ALL. apply all_variants_all.
    + apply Nat.eqb_neq in L. now apply NOK.
  - destruct (List.length items =? List.length all_variants) eqn:L; cbn [negb].
    + intros [H _]. fold items in H. apply count_perm in H.
      assert (X : expected = []); [|rewrite X in E; discriminate].
      unfold expected. apply Bool.not_true_iff_false in E.
      destruct (filter _ all_variants) as [|k l] eqn:F; [reflexivity|exfalso].
      assert (I : In k (filter (fun i => match lut i with Some _ => false | None => true end) all_variants))
        by (rewrite F; now left).
      apply filter_In in I as [_ I]. specialize (B k). destruct (lut k) as [?|]; [discriminate|].
      destruct B as [_ B]. apply B. apply (Permutation_in k H). apply all_variants_all.
    + apply Nat.eqb_neq in L. now apply NOK.
Qed.
