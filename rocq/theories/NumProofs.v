(** Proofs about numeric_literal.rs: grouping digits. *)
From Coq Require Import Lia.
From Verif Require Export NumSpec.
Local Notation len := (@List.length ascii).

(** *** Underscores *)
Lemma strip_app a b : strip_us (a ++ b) = strip_us a ++ strip_us b.
Proof. apply filter_app. Qed.
Lemma strip_id d : ~ In us d -> strip_us d = d.
Proof.
  induction d as [|c d IH]; intros H; [reflexivity|]. unfold strip_us. cbn [filter]. destruct (Ascii.eqb_spec c us) as [->|N]; [destruct H; left; auto|].
  cbn [negb]. f_equal. apply IH. intros I. apply H. right. auto.
Qed.
Lemma strip_lacks t : ~ In us (strip_us t).
Proof. intros H. apply filter_In in H as [_ H]. rewrite Ascii.eqb_refl in H. discriminate. Qed.
Lemma strip_strip t : strip_us (strip_us t) = strip_us t.
Proof. apply strip_id, strip_lacks. Qed.
Lemma digits_of_strip t : digits_of t = strip_us t.
Proof. reflexivity. Qed.
Lemma In_firstn {A} (x : A) n l : In x (firstn n l) -> In x l.
Proof. intros H. rewrite <- (firstn_skipn n l). apply in_app_iff. auto. Qed.
Lemma In_skipn {A} (x : A) n l : In x (skipn n l) -> In x l.
Proof. intros H. rewrite <- (firstn_skipn n l). apply in_app_iff. auto. Qed.

Section Grouping.
  Variable g : nat.
  Hypothesis gpos : 0 < g.
  Lemma group_rest_mid : forall l i, 0 < i < g -> group_rest g i l = firstn (g - i) l ++ group_rest g 0 (skipn (g - i) l).
  Proof.
    induction l as [|c l IH]; intros i H; [rewrite firstn_nil, skipn_nil; reflexivity|]. destruct (g - i) as [|k] eqn:K; [lia|].
    cbn [firstn skipn]. cbn [group_rest]. destruct (Nat.eqb_spec i 0) as [Z|]; [lia|]. destruct (Nat.eqb_spec (S i) g) as [E|N].
    - assert (k = 0) as -> by lia. reflexivity.
    - rewrite IH by lia. replace (g - S i) with k by lia. reflexivity.
  Qed.
  Lemma group_rest_chunk l : l <> [] -> group_rest g 0 l = us :: firstn g l ++ group_rest g 0 (skipn g l).
  Proof.
    destruct l as [|c l]; [congruence|]. intros _. destruct g as [|[|g']] eqn:G; [lia|reflexivity|]. rewrite <- G in *.
    cbn [group_rest]. rewrite Nat.eqb_refl. destruct (Nat.eqb_spec 1 g) as [E|N]; [lia|]. rewrite group_rest_mid by lia. rewrite G. cbn [firstn skipn]. replace (S (S g') - 1) with (S g') by lia. reflexivity.
  Qed.
  Lemma strip_rest : forall l i, ~ In us l -> strip_us (group_rest g i l) = l.
  Proof.
    induction l as [|c l IH]; intros i H; [reflexivity|]. cbn [group_rest]. rewrite strip_app, IH by (intros I; apply H; right; auto).
    assert (N : c <> us) by (intros ->; apply H; left; auto). apply Ascii.eqb_neq in N.
    unfold strip_us. destruct (Nat.eqb i 0); cbn [filter]; rewrite ?Ascii.eqb_refl, N; reflexivity.
  Qed.
  (** Sizes of the groups that follow. *)
  Lemma sizes_rest : forall n l x, len l <= n -> ~ In us x -> ~ In us l ->
    exists S, group_sizes (x ++ group_rest g 0 l) = len x :: S /\ (l = [] -> S = []) /\
      (l <> [] -> exists others last, S = others ++ [last] /\ Forall (fun k => k = g) others /\ 1 <= last <= g /\ (len l mod g = 0 -> last = g)).
  Proof.
    induction n as [|n IH]; intros l x L NX NL.
    - destruct l; [|cbn in L; lia]. exists []. cbn [group_rest]. rewrite app_nil_r. unfold group_sizes. rewrite split_at_last by auto. repeat split; congruence.
    - destruct (list_eq_dec ascii_dec l []) as [->|NE]; [exists []; cbn [group_rest]; rewrite app_nil_r; unfold group_sizes; rewrite split_at_last by auto; repeat split; congruence|].
      rewrite group_rest_chunk by auto. unfold group_sizes. rewrite split_at_piece by auto. cbn [map].
      assert (NF : ~ In us (firstn g l)) by (intros I; apply NL; eapply In_firstn; eauto).
      assert (NS : ~ In us (skipn g l)) by (intros I; apply NL; eapply In_skipn; eauto).
      assert (LL : 0 < len l) by (destruct l; [congruence|cbn; lia]).
      destruct (IH (skipn g l) (firstn g l)) as (S & E & S1 & S2); [rewrite skipn_length; lia|auto|auto|].
      unfold group_sizes in E. rewrite E. exists (len (firstn g l) :: S). split; [reflexivity|]. split; [congruence|]. intros _.
      destruct (list_eq_dec ascii_dec (skipn g l) []) as [Z|NZ].
      + rewrite S1 by auto. exists [], (len (firstn g l)). split; [reflexivity|]. split; [constructor|]. pose proof (skipn_length g l) as SL. rewrite Z in SL. cbn in SL.
        rewrite firstn_length. split; [lia|]. intros M. destruct (Nat.eq_dec (len l) g) as [|NG]; [lia|]. rewrite Nat.mod_small in M by lia. lia.
      + destruct (S2 NZ) as (others & last & -> & F & B & M). exists (len (firstn g l) :: others), last.
        assert (GL : g < len l). { destruct (Nat.le_gt_cases (len l) g) as [C|]; [|auto]. apply (skipn_all2 l) in C. congruence. }
        split; [reflexivity|]. split; [constructor; [rewrite firstn_length; lia|auto]|]. split; [auto|]. intros K. apply M. rewrite skipn_length.
        replace (len l) with ((len l - g) + 1 * g) in K by lia. rewrite Nat.mod_add in K by lia. auto.
  Qed.

  (** The right-aligned form. *)
  Definition first_of (d : text) : nat := (len d - 1) mod g + 1.
  Definition G (d : text) : text := firstn (first_of d) d ++ group_rest g 0 (skipn (first_of d) d).
  Lemma first_bounds d : 1 <= first_of d <= g.
  Proof. unfold first_of. pose proof (Nat.mod_upper_bound (len d - 1) g). lia. Qed.
  Lemma first_rest d : d <> [] -> first_of d <= len d /\ (len d - first_of d) mod g = 0.
  Proof.
    intros N. assert (0 < len d) by (destruct d; [congruence|cbn; lia]). unfold first_of. pose proof (Nat.div_mod_eq (len d - 1) g) as E.
    pose proof (Nat.mod_le (len d - 1) g ltac:(lia)). split; [lia|]. replace (len d - ((len d - 1) mod g + 1)) with (((len d - 1) / g) * g) by lia. apply Nat.mod_mul. lia.
  Qed.
  Lemma strip_G d : ~ In us d -> strip_us (G d) = d.
  Proof.
    intros N. unfold G. rewrite strip_app, strip_rest by (intros I; apply N; eapply In_skipn; eauto). rewrite strip_id by (intros I; apply N; eapply In_firstn; eauto). apply firstn_skipn.
  Qed.
  Lemma G_aligned d : d <> [] -> ~ In us d -> exists others, group_sizes (G d) = first_of d :: others /\ Forall (fun n => n = g) others.
  Proof.
    intros NE N. destruct (first_rest d NE) as [B M]. destruct (sizes_rest _ (skipn (first_of d) d) (firstn (first_of d) d) (le_n _)) as (S & E & S1 & S2);
      [intros I; apply N; eapply In_firstn; eauto|intros I; apply N; eapply In_skipn; eauto|].
    exists S. unfold G. rewrite E, firstn_length, Nat.min_l by auto. split; [reflexivity|].
    destruct (list_eq_dec ascii_dec (skipn (first_of d) d) []) as [Z|NZ]; [rewrite S1 by auto; constructor|].
    destruct (S2 NZ) as (others & last & -> & F & _ & K). apply Forall_app. split; [auto|]. constructor; [|constructor]. apply K. now rewrite skipn_length.
  Qed.
  Lemma G_head c d : exists r, G (c :: d) = c :: r.
  Proof. unfold G. pose proof (first_bounds (c :: d)). destruct (first_of (c :: d)) as [|k]; [lia|]. cbn [firstn app]. eauto. Qed.
  Lemma group_rest_chars (P : ascii -> Prop) i l : P us -> Forall P l -> Forall P (group_rest g i l).
  Proof.
    intros U F. revert i. induction F as [|c l Hc Hl IH]; intros i; [constructor|]. cbn [group_rest]. apply Forall_app. split; [|apply IH].
    destruct (Nat.eqb i 0); repeat constructor; auto.
  Qed.
  Lemma Forall_firstn' {A} (P : A -> Prop) n l : Forall P l -> Forall P (firstn n l).
  Proof. rewrite !Forall_forall. intros F x X. apply F. eapply In_firstn; eauto. Qed.
  Lemma Forall_skipn' {A} (P : A -> Prop) n l : Forall P l -> Forall P (skipn n l).
  Proof. rewrite !Forall_forall. intros F x X. apply F. eapply In_skipn; eauto. Qed.
  Lemma G_chars (P : ascii -> Prop) d : P us -> Forall P d -> Forall P (G d).
  Proof. intros U F. apply Forall_app. split; [now apply Forall_firstn'|apply group_rest_chars; [auto|now apply Forall_skipn']]. Qed.
  (** The last character is the last digit. *)
  Lemma group_rest_last : forall l i c, exists r, group_rest g i (l ++ [c]) = r ++ [c].
  Proof.
    induction l as [|x l IH]; intros i c.
    - cbn. destruct (Nat.eqb i 0); [exists [us]|exists []]; reflexivity.
    - cbn [app group_rest]. destruct (IH (if Nat.eqb (S i) g then 0 else S i) c) as (r & ->). exists ((if Nat.eqb i 0 then [us; x] else [x]) ++ r). now rewrite app_assoc.
  Qed.
  Lemma G_last d c : exists r, G (d ++ [c]) = r ++ [c].
  Proof.
    unfold G. pose proof (first_bounds (d ++ [c])) as B. assert (NE : d ++ [c] <> []) by (destruct d; discriminate). destruct (first_rest _ NE) as [L _]. rewrite app_length in L. cbn [List.length] in L.
    destruct (Nat.eq_dec (first_of (d ++ [c])) (len d + 1)) as [E|NE'].
    - exists d. rewrite firstn_all2, skipn_all2 by (rewrite app_length; cbn [List.length]; lia). cbn. apply app_nil_r.
    - rewrite firstn_app, skipn_app. replace (first_of (d ++ [c]) - len d) with 0 by lia. cbn [firstn skipn]. rewrite app_nil_r.
      destruct (group_rest_last (skipn (first_of (d ++ [c])) d) 0 c) as (r & ->). exists (firstn (first_of (d ++ [c])) d ++ r). now rewrite app_assoc.
  Qed.
  (** The left-aligned form. *)
  Definition Lf (d : text) : text := firstn g d ++ group_rest g 0 (skipn g d).
  Lemma strip_Lf d : ~ In us d -> strip_us (Lf d) = d.
  Proof.
    intros N. unfold Lf. rewrite strip_app, strip_rest by (intros I; apply N; eapply In_skipn; eauto). rewrite strip_id by (intros I; apply N; eapply In_firstn; eauto). apply firstn_skipn.
  Qed.
  Lemma Lf_aligned d : d <> [] -> ~ In us d -> exists others last, group_sizes (Lf d) = others ++ [last] /\ 1 <= last <= g /\ Forall (fun n => n = g) others.
  Proof.
    intros NE N. destruct (sizes_rest _ (skipn g d) (firstn g d) (le_n _)) as (S & E & S1 & S2);
      [intros I; apply N; eapply In_firstn; eauto|intros I; apply N; eapply In_skipn; eauto|]. unfold Lf. rewrite E.
    assert (LD : 0 < len d) by (destruct d; [congruence|cbn; lia]).
    destruct (list_eq_dec ascii_dec (skipn g d) []) as [Z|NZ].
    - rewrite S1 by auto. exists [], (len (firstn g d)). split; [reflexivity|]. split; [rewrite firstn_length; lia|constructor].
    - destruct (S2 NZ) as (others & last & -> & F & B & _). exists (len (firstn g d) :: others), last. split; [reflexivity|]. split; [auto|]. constructor; [|auto].
      rewrite firstn_length. destruct (Nat.le_gt_cases (len d) g) as [C|]; [|lia]. apply (skipn_all2 d) in C. congruence.
  Qed.
  Lemma Lf_head c d : exists r, Lf (c :: d) = c :: r.
  Proof. unfold Lf. destruct g as [|k]; [lia|]. cbn [firstn app]. eauto. Qed.
  Lemma Lf_chars (P : ascii -> Prop) d : P us -> Forall P d -> Forall P (Lf d).
  Proof. intros U F. apply Forall_app. split; [now apply Forall_firstn'|apply group_rest_chars; [auto|now apply Forall_skipn']]. Qed.
  Lemma Lf_last d c : exists r, Lf (d ++ [c]) = r ++ [c].
  Proof.
    unfold Lf. destruct (Nat.le_gt_cases (len d + 1) g) as [L|L].
    - exists d. rewrite firstn_all2, skipn_all2 by (rewrite app_length; cbn [List.length]; lia). cbn. apply app_nil_r.
    - rewrite firstn_app, skipn_app. replace (g - len d) with 0 by lia. cbn [firstn skipn]. rewrite app_nil_r.
      destruct (group_rest_last (skipn g d) 0 c) as (r & ->). exists (firstn g d ++ r). now rewrite app_assoc.
  Qed.
  (** Padding to whole groups. *)
  Definition pad (d : text) : text := repeat "0"%char (g - first_of d).
  Lemma padded d : d <> [] -> first_of (pad d ++ d) = g /\ G (pad d ++ d) = pad d ++ G d.
  Proof.
    intros NE. destruct (first_rest d NE) as [L M]. pose proof (first_bounds d) as B.
    assert (E : len (pad d ++ d) - 1 = (g - 1) + ((len d - first_of d) / g) * g).
    { pose proof (Nat.div_mod_eq (len d - first_of d) g) as D. rewrite M in D. unfold pad. rewrite app_length, repeat_length. lia. }
    assert (F : first_of (pad d ++ d) = g). { unfold first_of at 1. rewrite E, Nat.mod_add by lia. rewrite Nat.mod_small by lia. lia. }
    split; [exact F|]. unfold G at 1. rewrite F, firstn_app, skipn_app. unfold pad at 2 4. rewrite repeat_length.
    assert (LP : len (pad d) = g - first_of d) by apply repeat_length.
    rewrite firstn_all2 by lia. rewrite skipn_all2 by lia. replace (g - (g - first_of d)) with (first_of d) by lia. cbn [app]. unfold G. now rewrite app_assoc.
  Qed.
  Lemma pad_lacks d : ~ In us (pad d).
  Proof. intros I. apply repeat_spec in I. discriminate. Qed.
End Grouping.

(** [group_digits] in these terms. *)
Lemma group_digits_right t g zp c d : strip_us t = c :: d -> c <> dash ->
  group_digits t g true zp = Some ((if zp then pad g (c :: d) else []) ++ G g (c :: d)).
Proof.
  intros E N. unfold group_digits. rewrite E. apply Ascii.eqb_neq in N. rewrite N. cbn [List.length Nat.eqb andb app]. destruct zp; reflexivity.
Qed.
Lemma group_digits_minus t g zp c d : strip_us t = dash :: c :: d ->
  group_digits t g true zp = Some (dash :: (if zp then pad g (c :: d) else []) ++ G g (c :: d)).
Proof.
  intros E. unfold group_digits. rewrite E. rewrite Ascii.eqb_refl. cbn [List.length Nat.eqb andb app]. destruct zp; reflexivity.
Qed.
Lemma group_digits_left t g c d : strip_us t = c :: d -> c <> dash -> group_digits t g false false = Some (Lf g (c :: d)).
Proof. intros E N. unfold group_digits. rewrite E. apply Ascii.eqb_neq in N. rewrite N. reflexivity. Qed.
Lemma group_digits_left_nil t g : strip_us t = [] -> group_digits t g false false = Some [].
Proof. intros E. unfold group_digits. rewrite E. cbn. now rewrite firstn_nil, skipn_nil. Qed.
