(** Proofs about `tabs_in_doc_comments`, and the notions in which the result is stated. *)
From Verif Require Export TabsModel.
From Coq Require Import Lia.

(** ** Specification *)
(** Non-overlapping edits in increasing order, applied to a text of which [at_] bytes are already done. *)
Fixpoint apply (edits : list (nat * nat * text)) (at_ : nat) (s : text) : text :=
  match edits with
  | [] => s
  | (lo, hi, new) :: r => firstn (lo - at_) s ++ new ++ apply r hi (skipn (hi - at_) s)
  end.
Definition untabbed (s : text) : text := flat_map (fun c => if Ascii.eqb c tab then tx "    " else [c]) s.
(** A run of tabs that can be extended on neither side. *)
Definition maximal_run (s : text) (lo hi : nat) : Prop :=
  lo < hi /\ (forall i, lo <= i < hi -> nth_error s i = Some tab) /\ nth_error s hi <> Some tab /\ (forall i, lo = S i -> nth_error s i <> Some tab).

(** ** Proofs *)
Arguments tab : simpl never.
Lemma memchr_none s : memchr s = None -> ~ In tab s.
Proof.
  induction s as [|c s IH]; cbn; [auto|]. destruct (Ascii.eqb_spec c tab) as [->|N]; [intros H; discriminate H|]. destruct (memchr s); [intros H; discriminate H|]. intros _ [E|J]; [congruence|]. apply IH; auto.
Qed.
Lemma memchr_some s : forall i, memchr s = Some i -> exists a b, s = a ++ tab :: b /\ List.length a = i /\ ~ In tab a.
Proof.
  induction s as [|c s IH]; intros i; cbn; [discriminate|]. destruct (Ascii.eqb_spec c tab) as [->|N].
  - intros [= <-]. exists [], s. auto.
  - destruct (memchr s) as [j|]; [|discriminate]. intros [= <-]. destruct (IH j eq_refl) as (a & b & -> & L & F). exists (c :: a), b. cbn. rewrite L. repeat split; auto. intros [E|J]; auto.
Qed.
Lemma tabs_decomp s : exists k b, s = repeat tab k ++ b /\ List.length (take_while (fun x => Ascii.eqb x tab) s) = k /\ hd_error b <> Some tab.
Proof.
  induction s as [|c s (k & b & E & L & H)]; [exists 0, []; repeat split; discriminate|]. cbn. destruct (Ascii.eqb_spec c tab) as [->|N].
  - exists (S k), b. cbn. rewrite <- E, L. auto.
  - exists 0, (c :: s). cbn. repeat split. congruence.
Qed.
(** One step of the loop: text without tabs, a run, the rest. *)
Lemma chunk_step s i : memchr s = Some i -> exists a k b, s = a ++ repeat tab (S k) ++ b /\ List.length a = i /\ ~ In tab a /\ hd_error b <> Some tab /\
  List.length (take_while (fun x => Ascii.eqb x tab) (skipn (i + 1) s)) = k /\ skipn (i + (1 + k)) s = b.
Proof.
  intros H. destruct (memchr_some s i H) as (a & r & -> & L & F). destruct (tabs_decomp r) as (k & b & -> & Lk & Hb). exists a, k, b. repeat split; auto.
  - rewrite <- L. rewrite skipn_app. rewrite skipn_all2 by lia. replace (List.length a + 1 - List.length a) with 1 by lia. exact Lk.
  - rewrite <- L, skipn_app, skipn_all2 by lia. replace (List.length a + (1 + k) - List.length a) with (S k) by lia. cbn. rewrite skipn_app, repeat_length, Nat.sub_diag, skipn_all2; [reflexivity|]. rewrite repeat_length. auto.
Qed.
Lemma untabbed_app a b : untabbed (a ++ b) = untabbed a ++ untabbed b.
Proof. unfold untabbed. apply flat_map_app. Qed.
Lemma untabbed_none a : ~ In tab a -> untabbed a = a.
Proof.
  induction a as [|c a IH]; intros H; [reflexivity|]. cbn. destruct (Ascii.eqb_spec c tab) as [->|N]; [destruct H; left; reflexivity|]. cbn. f_equal. apply IH. intros J. apply H. right. exact J.
Qed.
Lemma untabbed_tabs k : untabbed (repeat tab k) = concat (repeat (tx "    ") k).
Proof. induction k as [|k IH]; [reflexivity|]. cbn [repeat concat]. rewrite <- IH. reflexivity. Qed.
Lemma firstn_exact {A} (a b : list A) n : n = List.length a -> firstn n (a ++ b) = a.
Proof. intros ->. rewrite firstn_app, Nat.sub_diag, firstn_all. cbn. apply app_nil_r. Qed.
Lemma skipn_exact {A} (a b : list A) n : n = List.length a -> skipn n (a ++ b) = b.
Proof. intros ->. rewrite skipn_app, Nat.sub_diag, skipn_all. reflexivity. Qed.
Lemma loop_apply fuel : forall off s rest d, List.length s < fuel ->
  apply (map (fun '(lo, hi) => (d + lo, d + hi, concat (repeat (tx "    ") (hi - lo)))) (chunks_loop fuel off s)) (d + off) (s ++ rest) = untabbed s ++ rest.
Proof.
  induction fuel as [|fuel IH]; intros off s rest d L; [lia|]. cbn [chunks_loop]. destruct (memchr s) as [i|] eqn:M.
  - destruct (chunk_step s i M) as (a & k & b & E & La & Fa & Hb & Lk & Sk). rewrite Lk, Sk. cbn [map apply].
    assert (R : skipn (d + (off + i + (1 + k)) - (d + off)) (s ++ rest) = b ++ rest).
    { replace (d + (off + i + (1 + k)) - (d + off)) with (i + (1 + k)) by lia. subst s. rewrite <- app_assoc, skipn_app, skipn_all2 by lia. cbn [app]. rewrite La. replace (i + (1 + k) - i) with (S k) by lia.
      rewrite <- app_assoc. apply skipn_exact. now rewrite repeat_length. }
    rewrite R, IH.
    + replace (off + i + (1 + k) - (off + i)) with (S k) by lia. replace (d + (off + i) - (d + off)) with i by lia.
      rewrite E, !untabbed_app, (untabbed_none a Fa), untabbed_tabs, <- !app_assoc. f_equal. apply firstn_exact. auto.
    + subst s. rewrite !app_length, repeat_length in L. lia.
  - cbn. rewrite untabbed_none; [reflexivity|]. apply memchr_none, M.
Qed.
Lemma nth_tabs a k b j : nth_error (a ++ repeat tab k ++ b) j = if j <? List.length a then nth_error a j else if j <? List.length a + k then Some tab else nth_error b (j - List.length a - k).
Proof.
  destruct (Nat.ltb_spec j (List.length a)).
  - apply nth_error_app1. auto.
  - rewrite nth_error_app2 by auto. destruct (Nat.ltb_spec j (List.length a + k)).
    + rewrite nth_error_app1 by (rewrite repeat_length; lia). apply nth_error_repeat. lia.
    + rewrite nth_error_app2 by (rewrite repeat_length; lia). rewrite repeat_length. reflexivity.
Qed.
Lemma loop_runs fuel : forall pre s, List.length s < fuel -> (forall i, List.length pre = S i -> nth_error pre i = Some tab -> hd_error s <> Some tab) -> forall lo hi,
  In (lo, hi) (chunks_loop fuel (List.length pre) s) <-> (maximal_run (pre ++ s) lo hi /\ List.length pre <= lo).
Proof.
  induction fuel as [|fuel IH]; intros pre s L PT lo hi; [lia|]. cbn [chunks_loop]. destruct (memchr s) as [i|] eqn:M.
  - destruct (chunk_step s i M) as (a & k & b & E & La & Fa & Hb & Lk & Sk). rewrite Lk, Sk. cbn [In].
    assert (LP : List.length (pre ++ a ++ repeat tab (S k)) = List.length pre + i + (1 + k)) by (rewrite !app_length, repeat_length; lia).
    rewrite <- LP, IH. 2:{ subst s. rewrite !app_length, repeat_length in L. lia. } 2:{ intros. exact Hb. }
    rewrite LP. rewrite <- !app_assoc, <- E. clear IH LP.
    assert (NTH : forall j, nth_error (pre ++ s) j = if j <? List.length (pre ++ a) then nth_error (pre ++ a) j else if j <? List.length (pre ++ a) + S k then Some tab else nth_error b (j - List.length (pre ++ a) - S k)).
    { intros j. rewrite E, app_assoc. apply nth_tabs. }
    rewrite app_length, La in NTH.
    assert (NA : forall j, List.length pre <= j < List.length pre + i -> nth_error (pre ++ s) j <> Some tab).
    { intros j J H. rewrite NTH in H. destruct (Nat.ltb_spec j (List.length pre + i)); [|lia]. rewrite nth_error_app2 in H by lia. apply Fa. eapply nth_error_In, H. }
    assert (NB : nth_error (pre ++ s) (List.length pre + i + S k) <> Some tab).
    { rewrite NTH. destruct (Nat.ltb_spec (List.length pre + i + S k) (List.length pre + i)); [lia|]. destruct (Nat.ltb_spec (List.length pre + i + S k) (List.length pre + i + S k)); [lia|].
      replace (List.length pre + i + S k - (List.length pre + i) - S k) with 0 by lia. destruct b; [discriminate|exact Hb]. }
    assert (IN : forall j, List.length pre + i <= j < List.length pre + i + S k -> nth_error (pre ++ s) j = Some tab).
    { intros j J. rewrite NTH. destruct (Nat.ltb_spec j (List.length pre + i)); [lia|]. destruct (Nat.ltb_spec j (List.length pre + i + S k)); [reflexivity|lia]. }
    split.
    + intros [Q|[R LE]].
      * injection Q as <- <-. split; [|lia]. split; [lia|]. split; [intros j J; apply IN; lia|]. split; [replace (List.length pre + i + (1 + k)) with (List.length pre + i + S k) by lia; exact NB|].
        intros j J. destruct (Nat.eq_dec i 0) as [->|Z]; [|apply NA; lia]. intros H. rewrite nth_error_app1 in H by lia. apply (PT j); [lia|exact H|]. rewrite E. destruct a; [reflexivity|discriminate La].
      * split; [exact R|lia].
    + intros [R LE]. destruct R as (R1 & R2 & R3 & R4). destruct (Nat.le_gt_cases (List.length pre + i + (1 + k)) lo) as [G|G]; [right; repeat split; auto|left].
      assert (lo = List.length pre + i).
      { destruct (Nat.lt_trichotomy lo (List.length pre + i)) as [Q|[Q|Q]]; [|exact Q|].
        - exfalso. apply (NA lo); [lia|]. apply R2. lia.
        - exfalso. destruct lo as [|lo]; [lia|]. apply (R4 lo eq_refl). apply IN. lia. }
      subst lo. f_equal. destruct (Nat.lt_trichotomy hi (List.length pre + i + (1 + k))) as [Q|[Q|Q]]; [|auto|].
      * exfalso. apply R3, IN. lia.
      * exfalso. apply NB, R2. lia.
  - split; [intros []|]. intros [(R1 & R2 & _) LE]. exfalso. apply (memchr_none s M). assert (H : nth_error (pre ++ s) lo = Some tab) by (apply R2; lia). rewrite nth_error_app2 in H by auto. eapply nth_error_In, H.
Qed.
