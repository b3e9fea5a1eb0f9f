(** Texts as lists of bytes, with the functions of Rust's [str] that the text-processing parts of
    /repo use.  A Rust string is a UTF-8 byte string; every function below searches for or tests
    ASCII bytes only, for which working on bytes and on characters agree, except that [is_ws]
    covers the ASCII part of [char::is_whitespace] and not the non-ASCII blanks. *)
From Coq Require Export Strings.Ascii Strings.String List Bool Arith.
From Coq Require Import Lia.
Export ListNotations.
Open Scope list_scope.

Definition text := list ascii.
(** Literals. *)
Definition tx (s : string) : text := list_ascii_of_string s.
Definition newline : ascii := ascii_of_nat 10.

Definition text_eq_dec : forall a b : text, {a = b} + {a <> b} := list_eq_dec ascii_dec.
Definition teqb (a b : text) : bool := if text_eq_dec a b then true else false.

(** [u8::is_ascii_*] and the ASCII part of [char::is_whitespace]. *)
Definition code_in (lo hi : nat) (c : ascii) : bool :=
  Nat.leb lo (nat_of_ascii c) && Nat.leb (nat_of_ascii c) hi.
Definition is_ws (c : ascii) : bool := code_in 9 13 c || Ascii.eqb c " "%char.
Definition is_digit (c : ascii) : bool := code_in 48 57 c.
Definition is_upper (c : ascii) : bool := code_in 65 90 c.
Definition is_lower (c : ascii) : bool := code_in 97 122 c.
Definition is_alnum (c : ascii) : bool := is_digit c || is_upper c || is_lower c.
Definition upper (c : ascii) : ascii := if is_lower c then ascii_of_nat (nat_of_ascii c - 32) else c.
Definition lower (c : ascii) : ascii := if is_upper c then ascii_of_nat (nat_of_ascii c + 32) else c.

(** [str::strip_prefix], [str::starts_with], [str::ends_with], [str::strip_suffix]. *)
Fixpoint strip_pre (p s : text) : option text :=
  match p, s with
  | [], _ => Some s
  | a :: p', b :: s' => if Ascii.eqb a b then strip_pre p' s' else None
  | _ :: _, [] => None
  end.
Definition starts (p s : text) : bool := match strip_pre p s with Some _ => true | None => false end.
Definition strip_suf (p s : text) : option text := option_map (@rev _) (strip_pre (rev p) (rev s)).
Definition ends (p s : text) : bool := match strip_suf p s with Some _ => true | None => false end.

(** [str::split_once] with a string, and with a character. *)
Fixpoint cut_str (p s : text) : option (text * text) :=
  match strip_pre p s with
  | Some r => Some ([], r)
  | None =>
      match s with
      | [] => None
      | c :: r => option_map (fun '(a, b) => (c :: a, b)) (cut_str p r)
      end
  end.
Fixpoint cut (c : ascii) (s : text) : option (text * text) :=
  match s with
  | [] => None
  | d :: r => if Ascii.eqb c d then Some ([], r) else option_map (fun '(a, b) => (d :: a, b)) (cut c r)
  end.

(** [str::split(char)]. *)
Fixpoint split_at (c : ascii) (s : text) : list text :=
  match s with
  | [] => [[]]
  | d :: r =>
      if Ascii.eqb c d then [] :: split_at c r
      else match split_at c r with x :: l => (d :: x) :: l | [] => [[d]] end
  end.
(** [slice::join] with a string separator. *)
Fixpoint join (sep : text) (l : list text) : text :=
  match l with
  | [] => []
  | [x] => x
  | x :: r => x ++ sep ++ join sep r
  end.

(** [str::trim_start_matches(pred)], [trim_end_matches], [trim]. *)
Fixpoint drop_while (f : ascii -> bool) (s : text) : text :=
  match s with [] => [] | c :: r => if f c then drop_while f r else s end.
Fixpoint take_while (f : ascii -> bool) (s : text) : text :=
  match s with [] => [] | c :: r => if f c then c :: take_while f r else [] end.
Definition drop_while_end (f : ascii -> bool) (s : text) : text := rev (drop_while f (rev s)).
Definition trim_start := drop_while is_ws.
Definition trim_end := drop_while_end is_ws.
Definition trim (s : text) : text := trim_end (trim_start s).

(** [str::lines]: split at newlines; a final empty piece is not a line, and a carriage return
    before the newline is dropped. *)
Definition drop_last_cr (s : text) : text :=
  match rev s with c :: r => if Ascii.eqb c (ascii_of_nat 13) then rev r else s | [] => s end.
Fixpoint lines_tail (l : list text) : list text :=
  match l with
  | [] => []
  | [[]] => []
  | [x] => [x]
  | x :: r => drop_last_cr x :: lines_tail r
  end.
Definition tlines (s : text) : list text := lines_tail (split_at newline s).

(** ** Facts *)
Lemma teqb_eq a b : teqb a b = true <-> a = b.
Proof. unfold teqb. destruct (text_eq_dec a b); split; congruence. Qed.
Lemma teqb_refl a : teqb a a = true.
Proof. now apply teqb_eq. Qed.

Lemma strip_pre_some p : forall s r, strip_pre p s = Some r <-> s = p ++ r.
Proof.
  induction p as [|a p IH]; intros s r; cbn; [split; congruence|].
  destruct s as [|b s]; [split; discriminate|].
  destruct (Ascii.eqb_spec a b) as [->|N].
  - rewrite IH. split; congruence.
  - split; congruence.
Qed.
Lemma strip_pre_none p s : strip_pre p s = None <-> forall r, s <> p ++ r.
Proof.
  split.
  - intros H r E. apply strip_pre_some in E. congruence.
  - intros H. destruct (strip_pre p s) eqn:E; [|reflexivity]. apply strip_pre_some in E. now apply H in E.
Qed.
Lemma strip_pre_app p r : strip_pre p (p ++ r) = Some r.
Proof. now apply strip_pre_some. Qed.
Lemma starts_iff p s : starts p s = true <-> exists r, s = p ++ r.
Proof.
  unfold starts. destruct (strip_pre p s) eqn:E; split; intros H; try discriminate; try reflexivity.
  - apply strip_pre_some in E. eauto.
  - destruct H as [r H]. apply strip_pre_some in H. congruence.
Qed.
Lemma strip_suf_some p s r : strip_suf p s = Some r <-> s = r ++ p.
Proof.
  unfold strip_suf. destruct (strip_pre (rev p) (rev s)) as [x|] eqn:E; cbn.
  - apply strip_pre_some in E. apply (f_equal (@rev _)) in E.
    rewrite rev_involutive, rev_app_distr, rev_involutive in E. subst s. split.
    + intros [= <-]. reflexivity.
    + intros H. apply app_inv_tail in H. now subst.
  - split; [discriminate|]. intros ->. rewrite rev_app_distr in E.
    rewrite strip_pre_app in E. discriminate.
Qed.
Lemma ends_iff p s : ends p s = true <-> exists r, s = r ++ p.
Proof.
  unfold ends. destruct (strip_suf p s) eqn:E; split; intros H; try discriminate; try reflexivity.
  - apply strip_suf_some in E. eauto.
  - destruct H as [r H]. apply strip_suf_some in H. congruence.
Qed.

Lemma cut_app c a b : ~ In c a -> cut c (a ++ c :: b) = Some (a, b).
Proof.
  induction a as [|d a IH]; intros N; cbn.
  - now rewrite Ascii.eqb_refl.
  - destruct (Ascii.eqb_spec c d) as [->|]; [destruct N; now left|].
    rewrite IH; [reflexivity|]. intros H; apply N; now right.
Qed.
Lemma cut_some c s a b : cut c s = Some (a, b) <-> s = a ++ c :: b /\ ~ In c a.
Proof.
  split.
  - revert a. induction s as [|d s IH]; intros a H; cbn in H; [discriminate|].
    destruct (Ascii.eqb_spec c d) as [->|N].
    + injection H as <- <-. split; [reflexivity|]. now intros [].
    + destruct (cut c s) as [[a' b']|] eqn:E; cbn in H; [|discriminate]. injection H as <- <-.
      destruct (IH a' eq_refl) as [-> NI]. split; [reflexivity|]. intros [->|HI]; tauto.
  - intros [-> N]. now apply cut_app.
Qed.
Lemma cut_none c s : cut c s = None <-> ~ In c s.
Proof.
  split.
  - intros H HI. apply in_split in HI.
    revert H. induction s as [|d s IH]; [destruct HI as (a & b & H); destruct a; discriminate|].
    cbn. destruct (Ascii.eqb_spec c d); [discriminate|]. destruct (cut c s) as [[? ?]|]; cbn; [discriminate|].
    intros _. apply IH; [|reflexivity]. destruct HI as ([|x a] & b & H); cbn in H; [injection H as -> _; congruence|]. injection H as _ ->. eauto.
  - intros N. destruct (cut c s) as [[a b]|] eqn:E; [|reflexivity]. apply cut_some in E. destruct E as [-> _].
    destruct N. apply in_or_app. right; now left.
Qed.

(** [cut_str] finds the first occurrence. *)
Definition first_at (p s a b : text) : Prop :=
  s = a ++ p ++ b /\ forall a' b', s = a' ++ p ++ b' -> List.length a <= List.length a'.

Lemma cut_str_sound p s : forall a b, cut_str p s = Some (a, b) -> first_at p s a b.
Proof.
  induction s as [|c s IH]; intros a b; cbn [cut_str].
  - destruct (strip_pre p []) eqn:E; [|discriminate]. intros [= <- <-].
    apply strip_pre_some in E. split; [assumption|]. cbn; intros; lia.
  - destruct (strip_pre p (c :: s)) eqn:E.
    + intros [= <- <-]. apply strip_pre_some in E. split; [assumption|]. cbn; intros; lia.
    + destruct (cut_str p s) as [[a' b']|] eqn:F; cbn; [|discriminate]. intros [= <- <-].
      destruct (IH _ _ eq_refl) as [-> M]. split; [reflexivity|].
      intros [|d a''] b'' H.
      * now apply (proj1 (strip_pre_none _ _) E) in H.
      * injection H as <- H. cbn. specialize (M _ _ H). lia.
Qed.
Lemma cut_str_none p s : cut_str p s = None <-> forall a b, s <> a ++ p ++ b.
Proof.
  split.
  - induction s as [|c s IH]; cbn [cut_str]; (destruct (strip_pre p _) eqn:E; [discriminate|]);
      intros H a b X.
    + destruct a; [|discriminate]. now apply (proj1 (strip_pre_none _ _) E) in X.
    + destruct (cut_str p s) as [[? ?]|]; [discriminate|].
      destruct a as [|d a]; [now apply (proj1 (strip_pre_none _ _) E) in X|].
      injection X as <- X. now apply (IH eq_refl a b).
  - intros H. destruct (cut_str p s) as [[a b]|] eqn:E; [|reflexivity].
    apply cut_str_sound in E. destruct E as [E _]. now apply H in E.
Qed.
Lemma app_eq_len (A : Type) (a b c d : list A) : a ++ b = c ++ d -> List.length a = List.length c -> a = c /\ b = d.
Proof.
  revert c. induction a as [|x a IH]; intros [|y c] H L; try discriminate; [now split|].
  cbn in *. injection H as -> H. destruct (IH c H) as [-> ->]; [lia|now split].
Qed.
Lemma cut_str_some p s a b : cut_str p s = Some (a, b) <-> first_at p s a b.
Proof.
  split; [apply cut_str_sound|]. intros [H M].
  destruct (cut_str p s) as [[a' b']|] eqn:E.
  - apply cut_str_sound in E. destruct E as [H' M'].
    assert (List.length a = List.length a') by (apply Nat.le_antisymm; eauto).
    rewrite H in H'. apply app_eq_len in H'; [|assumption]. destruct H' as [-> H']. apply app_inv_head in H'. congruence.
  - now apply (proj1 (cut_str_none _ _) E) in H.
Qed.

(** Splitting and joining. *)
Lemma split_at_nonempty c s : split_at c s <> [].
Proof. destruct s as [|d s]; cbn; [discriminate|]. destruct (Ascii.eqb c d); [discriminate|]. destruct (split_at c s); discriminate. Qed.
Lemma split_at_lacks c s : Forall (fun l => ~ In c l) (split_at c s).
Proof.
  induction s as [|d s IH]; cbn; [repeat constructor; now intros []|].
  destruct (Ascii.eqb_spec c d) as [->|N]; [constructor; [now intros []|assumption]|].
  destruct (split_at c s) as [|x l]; [repeat constructor; intros [->|[]]; congruence|].
  inversion IH; subst. constructor; [|assumption]. intros [->|H]; [congruence|contradiction].
Qed.
Lemma join_split c s : join [c] (split_at c s) = s.
Proof.
  induction s as [|d s IH]; cbn; [reflexivity|].
  destruct (Ascii.eqb_spec c d) as [->|N].
  - destruct (split_at d s) eqn:E; [now apply split_at_nonempty in E|]. rewrite <- IH. reflexivity.
  - destruct (split_at c s) as [|x l] eqn:E; [now apply split_at_nonempty in E|].
    rewrite <- IH. destruct l; reflexivity.
Qed.
Lemma split_at_piece c x r : ~ In c x -> split_at c (x ++ c :: r) = x :: split_at c r.
Proof.
  induction x as [|d x IH]; intros N; cbn; [now rewrite Ascii.eqb_refl|].
  destruct (Ascii.eqb_spec c d) as [->|]; [destruct N; now left|].
  rewrite IH; [reflexivity|]. intros H; apply N; now right.
Qed.
Lemma split_at_last c x : ~ In c x -> split_at c x = [x].
Proof.
  induction x as [|d x IH]; intros N; cbn; [reflexivity|].
  destruct (Ascii.eqb_spec c d) as [->|]; [destruct N; now left|].
  rewrite IH; [reflexivity|]. intros H; apply N; now right.
Qed.
Lemma split_join c l : l <> [] -> Forall (fun x => ~ In c x) l -> split_at c (join [c] l) = l.
Proof.
  induction l as [|x l IH]; [congruence|]. intros _ F. inversion F as [|? ? Hx Hl]; subst.
  destruct l as [|y l]; [now apply split_at_last|].
  change (join [c] (x :: y :: l)) with (x ++ c :: join [c] (y :: l)).
  rewrite split_at_piece by assumption. now rewrite IH.
Qed.
Lemma join_app c l1 l2 : l1 <> [] -> l2 <> [] -> join [c] (l1 ++ l2) = join [c] l1 ++ c :: join [c] l2.
Proof.
  intros H1 H2. induction l1 as [|x l1 IH]; [congruence|].
  destruct l1 as [|y l1].
  - cbn. destruct l2; [congruence|reflexivity].
  - change (join [c] ((x :: y :: l1) ++ l2)) with (x ++ c :: join [c] ((y :: l1) ++ l2)).
    rewrite IH by discriminate. change (join [c] (x :: y :: l1)) with (x ++ c :: join [c] (y :: l1)).
    now rewrite <- app_assoc.
Qed.

(** Trimming. *)
Lemma drop_while_app f s : s = take_while f s ++ drop_while f s.
Proof. induction s as [|c s IH]; cbn; [reflexivity|]. destruct (f c); [cbn; now rewrite <- IH|reflexivity]. Qed.
Lemma take_while_all f s : Forall (fun c => f c = true) (take_while f s).
Proof. induction s as [|c s IH]; cbn; [constructor|]. destruct (f c) eqn:E; [now constructor|constructor]. Qed.
Lemma drop_while_skip f a s : Forall (fun c => f c = true) a -> drop_while f (a ++ s) = drop_while f s.
Proof. induction 1 as [|c a H F IH]; cbn; [reflexivity|]. now rewrite H. Qed.
Definition hd_not (f : ascii -> bool) (s : text) : Prop := match s with [] => True | c :: _ => f c = false end.
Lemma drop_while_id f s : hd_not f s -> drop_while f s = s.
Proof. destruct s as [|c s]; cbn; [reflexivity|]. now intros ->. Qed.
Lemma drop_while_hd f s : hd_not f (drop_while f s).
Proof. induction s as [|c s IH]; cbn; [exact I|]. destruct (f c) eqn:E; [assumption|exact E]. Qed.
Lemma trim_start_decomp s : exists w, s = w ++ trim_start s /\ Forall (fun c => is_ws c = true) w /\ hd_not is_ws (trim_start s).
Proof. exists (take_while is_ws s). split; [apply drop_while_app|]. split; [apply take_while_all|apply drop_while_hd]. Qed.
Lemma trim_end_decomp s : exists w, s = trim_end s ++ w /\ Forall (fun c => is_ws c = true) w /\ hd_not is_ws (rev (trim_end s)).
Proof.
  destruct (trim_start_decomp (rev s)) as (w & H & F & N). exists (rev w).
  unfold trim_end, drop_while_end. fold trim_start. rewrite rev_involutive. split; [|split].
  - apply (f_equal (@rev _)) in H. rewrite rev_involutive, rev_app_distr in H. exact H.
  - now apply Forall_rev.
  - exact N.
Qed.
Lemma trim_end_app s w : Forall (fun c => is_ws c = true) w -> trim_end (s ++ w) = trim_end s.
Proof.
  intros F. unfold trim_end, drop_while_end. rewrite rev_app_distr, drop_while_skip; [reflexivity|now apply Forall_rev].
Qed.
Lemma trim_end_id s : hd_not is_ws (rev s) -> trim_end s = s.
Proof. intros H. unfold trim_end, drop_while_end. rewrite drop_while_id by assumption. apply rev_involutive. Qed.
Lemma trim_start_app w s : Forall (fun c => is_ws c = true) w -> trim_start (w ++ s) = trim_start s.
Proof. apply drop_while_skip. Qed.
Lemma trim_start_id s : hd_not is_ws s -> trim_start s = s.
Proof. apply drop_while_id. Qed.
