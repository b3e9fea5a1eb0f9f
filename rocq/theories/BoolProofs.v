(** Proofs about booleans.rs. *)
From Coq Require Import Lia.
From Verif Require Export BoolModel BoolSpec.

Section Qind.
  Variable P : qbool -> Prop.
  Hypothesis HT : P True_.
  Hypothesis HF : P False_.
  Hypothesis Ht : forall n, P (Term n).
  Hypothesis Hn : forall q, P q -> P (Not q).
  Hypothesis Ha : forall l, Forall P l -> P (And l).
  Hypothesis Ho : forall l, Forall P l -> P (Or l).
  Fixpoint qbool_ind' (q : qbool) : P q :=
    let fix go (l : list qbool) : Forall P l := match l with [] => Forall_nil P | x :: l => Forall_cons x (qbool_ind' x) (go l) end in
    match q with True_ => HT | False_ => HF | Term n => Ht n | Not q => Hn q (qbool_ind' q) | And l => Ha l (go l) | Or l => Ho l (go l) end.
End Qind.

(** *** Equality *)
Lemma cop_eqb_eq a b : cop_eqb a b = true <-> a = b.
Proof. destruct a, b; cbn; split; congruence. Qed.
Lemma mname_eqb_eq a b : mname_eqb a b = true <-> a = b.
Proof. destruct a, b; cbn; split; congruence. Qed.
Lemma bx_eqb_eval w a : forall b, bx_eqb a b = true -> forall s, eval w s a = eval w s b.
Proof.
  assert (MF : forall m o f g, (forall x : nat, f x = g x) -> meth_f m o f = meth_f m o g) by (intros [] [] f g H; cbn; auto).
  induction a as [a IH|p a IH1 b IH2|p a IH1 b IH2|v|p o l r|st m r|st m r bd IH|n]; intros [a'|p' a' b'|p' a' b'|v'|p' o' l' r'|st' m' r'|st' m' r' bd'|n'] H s; cbn in H; try discriminate; cbn [eval].
  - f_equal. auto.
  - apply andb_true_iff in H as [H1 H2]. f_equal; auto.
  - apply andb_true_iff in H as [H1 H2]. f_equal; auto.
  - now apply eqb_prop.
  - rewrite !andb_true_iff in H. destruct H as [[H1 H2] H3]. apply cop_eqb_eq in H1. apply Nat.eqb_eq in H2, H3. congruence.
  - rewrite !andb_true_iff in H. destruct H as [[H1 H2] H3]. apply eqb_prop in H1. apply mname_eqb_eq in H2. apply Nat.eqb_eq in H3. subst. reflexivity.
  - rewrite !andb_true_iff in H. destruct H as [[[H1 H2] H3] H4]. apply eqb_prop in H1. apply mname_eqb_eq in H2. apply Nat.eqb_eq in H3. subst.
    destruct st'; [apply MF; intros x; now apply IH|]. apply other_method_f_ext. intros x. now apply IH.
  - apply Nat.eqb_eq in H. now subst.
Qed.
Lemma negate_eval o c : c <> None -> cmp_holds (negate o) c = negb (cmp_holds o c).
Proof. intros N. destruct o, c as [[]|]; try reflexivity; congruence. Qed.
Lemma negate_involutive o : negate (negate o) = o.
Proof. destruct o; reflexivity. Qed.

(** *** Extraction *)
Fixpoint qterms (b : qbool) : list nat :=
  match b with True_ | False_ => [] | Term n => [n] | Not q => qterms q | And l | Or l => flat_map qterms l end.
Lemma qeval_ext v v' b : (forall n, In n (qterms b) -> v n = v' n) -> qeval v b = qeval v' b.
Proof.
  induction b as [| |n|q IH|l IH|l IH] using qbool_ind'; cbn; intros H; auto.
  - f_equal. auto.
  - induction IH as [|q l Hq Hl IHl]; cbn in *; [auto|]. rewrite Hq, IHl; [auto| |]; intros n N; apply H; apply in_app_iff; auto.
  - induction IH as [|q l Hq Hl IHl]; cbn in *; [auto|]. rewrite Hq, IHl; [auto| |]; intros n N; apply H; apply in_app_iff; auto.
Qed.
Definition tval (L : bx -> bool) (ts : list bx) (n : nat) : bool := L (term_at ts n).
Definition prefix (a b : list bx) : Prop := exists c, b = a ++ c.
Lemma prefix_refl a : prefix a a.
Proof. exists []. now rewrite app_nil_r. Qed.
Lemma prefix_trans a b c : prefix a b -> prefix b c -> prefix a c.
Proof. intros (x & ->) (y & ->). exists (x ++ y). now rewrite app_assoc. Qed.
Lemma prefix_len a b : prefix a b -> length a <= length b.
Proof. intros (c & ->). rewrite app_length. lia. Qed.
Lemma prefix_at a b n : prefix a b -> n < length a -> term_at b n = term_at a n.
Proof. intros (c & ->) H. unfold term_at. now rewrite app_nth1. Qed.

(** The comparisons the worlds are lawful about. *)
Definition Law (C : list (operand * operand)) (w : world) : Prop :=
  forall l r s, In (l, r) C -> has_ord l = true -> compare w (oid l) (oid r) s <> None.
Lemma law_of w e : lawful w e -> one_type e -> Law (comparisons e) w.
Proof. intros H O l r s I HO. apply H; auto. Qed.
Lemma leval_eval w s e : leval (eval w s) e = eval w s e.
Proof. induction e as [a IH|p a IH1 b IH2|p a IH1 b IH2|v|p o l r|st m r|st m r bd IH|n]; cbn [leval]; try reflexivity; rewrite ?IH, ?IH1, ?IH2; reflexivity. Qed.
Lemma leaf_comparisons e x : In x (leaves e) -> incl (comparisons x) (comparisons e).
Proof.
  induction e as [a IH|p a IH1 b IH2|p a IH1 b IH2|v|p o l r|st m r|st m r bd IH|n]; cbn [leaves]; intros H; try (destruct H as [<-|[]]; apply incl_refl); cbn [comparisons]; auto; [| |destruct H];
    apply in_app_iff in H as [H|H]; [apply incl_appl|apply incl_appr|apply incl_appl|apply incl_appr]; auto.
Qed.
Lemma consistent_eval w s e : Law (comparisons e) w -> consistent (leaves e) (eval w s).
Proof.
  intros LW a b IA IB. split; [intros H; now apply bx_eqb_eval|]. intros (p & p' & o & l & r & l' & r' & -> & -> & HO & E1 & E2). cbn [eval].
  rewrite <- E1, <- E2. apply negate_eval. apply LW; auto. apply (leaf_comparisons _ _ IA). left. reflexivity.
Qed.

Lemma find_terminal_sound L C e : consistent C L -> In e C -> forall ts n q U, incl ts C -> find_terminal e n ts = Some q -> n + length ts <= length U ->
  (forall k, k < length ts -> term_at U (n + k) = term_at ts k) ->
  qeval (tval L U) q = L e.
Proof.
  intros CL IE. induction ts as [|x ts IH]; intros n q U IT H LN AT; [discriminate|]. cbn [find_terminal] in H. cbn [length] in *.
  assert (A0 : term_at U n = x) by (rewrite <- (Nat.add_0_r n) at 1; rewrite AT by lia; reflexivity).
  assert (IX : In x C) by (apply IT; left; auto).
  assert (REC : find_terminal e (S n) ts = Some q -> qeval (tval L U) q = L e).
  { intros F. apply (IH (S n) q U); auto; [intros y Y; apply IT; right; auto|lia|]. 
    intros k K. replace (S n + k) with (n + S k) by lia. rewrite AT by lia. reflexivity. }
  destruct (bx_eqb e x) eqn:E.
  - injection H as <-. cbn. unfold tval. rewrite A0. symmetry. now apply (CL e x).
  - destruct e as [| | | |p o l r| | |]; auto. destruct x as [| | | |p' o' l' r'| | |]; auto.
    destruct (has_ord l && cop_eqb (negate o) o' && operand_eqb l l' && operand_eqb r r') eqn:K; [|auto].
    rewrite !andb_true_iff in K. destruct K as [[[K1 K2] K3] K4]. apply cop_eqb_eq in K2. apply Nat.eqb_eq in K3, K4. subst o'.
    injection H as <-. cbn. unfold tval. rewrite A0. destruct (CL _ _ IE IX) as [_ OP]. rewrite OP, negb_involutive; [reflexivity|].
    exists p, p', o, l, r, l', r'. auto 6.
Qed.
(** The terminal stands for the leaf or its opposite. *)
Definition stands (e x : bx) : Prop := same_leaf e x \/ opposite_leaf e x.
Lemma find_terminal_range e q : forall ts n, find_terminal e n ts = Some q -> forall k, In k (qterms q) -> n <= k < n + length ts /\ stands e (nth (k - n) ts (XLit false)).
Proof.
  induction ts as [|x ts IH]; intros n H k K; [discriminate|]. cbn [find_terminal] in H.
  assert (R : find_terminal e (S n) ts = Some q -> n <= k < n + length (x :: ts) /\ stands e (nth (k - n) (x :: ts) (XLit false))).
  { intros R. specialize (IH (S n) R k K). destruct IH as [I1 I2]. cbn [length]. split; [lia|]. replace (k - n) with (S (k - S n)) by lia. exact I2. }
  destruct (bx_eqb e x) eqn:E; [injection H as <-; destruct K as [<-|[]]; cbn [length]; rewrite Nat.sub_diag; split; [lia|left; exact E]|].
  destruct e as [| | | |p o l r| | |]; auto. destruct x as [| | | |p' o' l' r'| | |]; auto.
  destruct (has_ord l && cop_eqb (negate o) o' && operand_eqb l l' && operand_eqb r r') eqn:KK; [|auto]. injection H as <-. destruct K as [<-|[]]; cbn [length].
  rewrite Nat.sub_diag. split; [lia|]. right. rewrite !andb_true_iff in KK. destruct KK as [[[K1 K2] K3] K4]. apply cop_eqb_eq in K2. apply Nat.eqb_eq in K3, K4. subst o'.
  exists p, p', o, l, r, l', r'. auto 6.
Qed.

Definition combine (op : option bop) (v : nat -> bool) (l : list qbool) : bool :=
  match op with Some BOr => existsb (qeval v) l | _ => forallb (qeval v) l end.
Definition extracted (op : option bop) (e : bx) (ts : list bx) (v : list qbool) (ts' : list bx) : Prop :=
  prefix ts ts' /\ length ts' <= 32 /\ incl ts' (ts ++ leaves e) /\ v <> [] /\ (op = None -> length v = 1) /\
  (forall k, In k (flat_map qterms v) -> k < length ts') /\
  forall C L, consistent C L -> incl ts C -> incl (leaves e) C -> combine op (tval L ts') v = leval L e.
Lemma flat_terms_ext L ts ts' op l : prefix ts ts' -> (forall k, In k (flat_map qterms l) -> k < length ts) ->
  combine op (tval L ts') l = combine op (tval L ts) l.
Proof.
  intros P H. assert (Q : forall q, In q l -> qeval (tval L ts') q = qeval (tval L ts) q).
  { intros q I. apply qeval_ext. intros n N. unfold tval. f_equal. apply prefix_at; [auto|]. apply H. apply in_flat_map. eauto. }
  assert (A : forallb (qeval (tval L ts')) l = forallb (qeval (tval L ts)) l /\ existsb (qeval (tval L ts')) l = existsb (qeval (tval L ts)) l).
  { clear H. induction l as [|q l IH]; cbn; [auto|]. rewrite (Q q) by (left; auto). destruct IH as [-> ->]; [intros; apply Q; right; auto|]. auto. }
  unfold combine. destruct op as [[]|]; apply A.
Qed.
Lemma combine_one op v q : combine op v [q] = qeval v q.
Proof. destruct op as [[]|]; cbn; [apply andb_true_r|apply orb_false_r|apply andb_true_r]. Qed.

Lemma extract_sound : forall e op ts v ts', length ts <= 32 -> extract op e ts = Some (v, ts') -> extracted op e ts v ts'.
Proof.
  assert (TERM : forall e op ts v ts', leaves e = [e] -> (forall L, leval L e = L e) -> length ts <= 32 -> (match terminal e ts with Some (q, ts) => Some ([q], ts) | None => None end) = Some (v, ts') -> extracted op e ts v ts').
  { intros e op ts v ts' LE EE LN H. unfold terminal in H. destruct (find_terminal e 0 ts) as [q|] eqn:F.
    - injection H as <- <-. split; [apply prefix_refl|]. split; [auto|]. split; [apply incl_appl, incl_refl|]. split; [discriminate|]. split; [auto|]. split.
      + cbn. rewrite app_nil_r. intros k K. apply (find_terminal_range _ _ _ _ F) in K. lia.
      + intros C L CL I1 I2. rewrite combine_one, EE. apply (find_terminal_sound L C e CL) with (ts := ts) (n := 0); auto. apply I2. rewrite LE. left. auto.
    - destruct (Nat.ltb_spec (length ts) 32) as [LT|]; [|discriminate]. injection H as <- <-. split; [exists [e]; reflexivity|]. split; [rewrite app_length; cbn; lia|].
      split; [rewrite LE; apply incl_refl|]. split; [discriminate|]. split; [auto|]. split; [cbn; intros k [<-|[]]; rewrite app_length; cbn; lia|].
      intros C L CL _ _. rewrite combine_one, EE. cbn. unfold tval, term_at. now rewrite nth_middle. }
  induction e as [a IH|p a IH1 b IH2|p a IH1 b IH2|b0|p o l r|st m r|st m r bd IH|n]; intros op ts v ts' LN H; cbn [extract] in H; try (apply TERM; auto; fail).
  - destruct (extract None a ts) as [[[|q [|q' l]] t]|] eqn:E; try discriminate. injection H as <- <-.
    destruct (IH None ts [q] t LN E) as (A1 & A2 & A3 & A4 & A5 & A6 & A7).
    split; [auto|]. split; [auto|]. split; [auto|]. split; [discriminate|]. split; [auto|]. split; [exact A6|].
    intros C L CL I1 I2. rewrite combine_one. cbn [qeval leval]. f_equal. specialize (A7 C L CL I1 I2). now rewrite combine_one in A7.
  - destruct (extract (Some BAnd) a ts) as [[va t]|] eqn:E1; [|discriminate]. destruct (extract (Some BAnd) b t) as [[vb t']|] eqn:E2; [|discriminate].
    injection H as Hv <-. destruct (IH1 _ _ _ _ LN E1) as (A1 & A2 & A3 & A4 & A5 & A6 & A7). destruct (IH2 _ _ _ _ A2 E2) as (B1 & B2 & B3 & B4 & B5 & B6 & B7).
    assert (BND : forall k, In k (flat_map qterms (va ++ vb)) -> k < length t').
    { intros k K. rewrite flat_map_app, in_app_iff in K. destruct K as [K|K]; [|auto]. specialize (A6 k K). pose proof (prefix_len _ _ B1). lia. }
    assert (VAL : forall C L, consistent C L -> incl ts C -> incl (leaves a ++ leaves b) C -> forallb (qeval (tval L t')) (va ++ vb) = leval L a && leval L b).
    { intros C L CL I1 I2. apply incl_app_inv in I2 as [I2 I3]. rewrite <- (A7 C L CL I1 I2), <- (B7 C L CL); [|intros x X; apply A3 in X; apply in_app_iff in X as [X|X]; auto|auto].
      rewrite <- (flat_terms_ext L t t' (Some BAnd) va B1 A6). apply forallb_app. }
    split; [eapply prefix_trans; eauto|]. split; [auto|]. split.
    { cbn [leaves]. intros x X. apply B3 in X. rewrite !in_app_iff. apply in_app_iff in X as [X|X]; [apply A3 in X; apply in_app_iff in X|]; tauto. }
    destruct op as [[]|]; subst v.
    + split; [destruct va; [congruence|discriminate]|]. split; [discriminate|]. split; [exact BND|]. exact VAL.
    + split; [discriminate|]. split; [discriminate|]. split; [cbn; rewrite app_nil_r; exact BND|]. intros C L CL I1 I2. rewrite combine_one. exact (VAL C L CL I1 I2).
    + split; [discriminate|]. split; [reflexivity|]. split; [cbn; rewrite app_nil_r; exact BND|]. intros C L CL I1 I2. rewrite combine_one. exact (VAL C L CL I1 I2).
  - destruct (extract (Some BOr) a ts) as [[va t]|] eqn:E1; [|discriminate]. destruct (extract (Some BOr) b t) as [[vb t']|] eqn:E2; [|discriminate].
    injection H as Hv <-. destruct (IH1 _ _ _ _ LN E1) as (A1 & A2 & A3 & A4 & A5 & A6 & A7). destruct (IH2 _ _ _ _ A2 E2) as (B1 & B2 & B3 & B4 & B5 & B6 & B7).
    assert (BND : forall k, In k (flat_map qterms (va ++ vb)) -> k < length t').
    { intros k K. rewrite flat_map_app, in_app_iff in K. destruct K as [K|K]; [|auto]. specialize (A6 k K). pose proof (prefix_len _ _ B1). lia. }
    assert (VAL : forall C L, consistent C L -> incl ts C -> incl (leaves a ++ leaves b) C -> existsb (qeval (tval L t')) (va ++ vb) = leval L a || leval L b).
    { intros C L CL I1 I2. apply incl_app_inv in I2 as [I2 I3]. rewrite <- (A7 C L CL I1 I2), <- (B7 C L CL); [|intros x X; apply A3 in X; apply in_app_iff in X as [X|X]; auto|auto].
      rewrite <- (flat_terms_ext L t t' (Some BOr) va B1 A6). apply existsb_app. }
    split; [eapply prefix_trans; eauto|]. split; [auto|]. split.
    { cbn [leaves]. intros x X. apply B3 in X. rewrite !in_app_iff. apply in_app_iff in X as [X|X]; [apply A3 in X; apply in_app_iff in X|]; tauto. }
    destruct op as [[]|]; subst v.
    + split; [discriminate|]. split; [discriminate|]. split; [cbn; rewrite app_nil_r; exact BND|]. intros C L CL I1 I2. rewrite combine_one. exact (VAL C L CL I1 I2).
    + split; [destruct va; [congruence|discriminate]|]. split; [discriminate|]. split; [exact BND|]. exact VAL.
    + split; [discriminate|]. split; [reflexivity|]. split; [cbn; rewrite app_nil_r; exact BND|]. intros C L CL I1 I2. rewrite combine_one. exact (VAL C L CL I1 I2).
  - destruct b0; injection H as <- <-; (split; [apply prefix_refl|]; split; [auto|]; split; [apply incl_appl, incl_refl|]; split; [discriminate|]; split; [auto|]; split; [intros k []|]; intros C L _ _ _; now rewrite combine_one).
Qed.
Lemma run_sound e q ts : run e = Some (q, ts) ->
  incl ts (leaves e) /\ length ts <= 32 /\ (forall k, In k (qterms q) -> k < length ts) /\
  forall L, consistent (leaves e) L -> qeval (tval L ts) q = leval L e.
Proof.
  intros H. unfold run in H. destruct (extract None e []) as [[[|q' [|q'' l]] t]|] eqn:E; try discriminate. injection H as -> ->.
  apply extract_sound in E as (A1 & A2 & A3 & A4 & A5 & A6 & A7); [|cbn; lia].
  split; [auto|]. split; [auto|]. cbn in A6. rewrite app_nil_r in A6. split; [auto|]. intros L CL. specialize (A7 (leaves e) L CL). rewrite combine_one in A7.
  apply A7; [intros x []|apply incl_refl].
Qed.

(** *** Negation and candidates *)
Lemma simple_negate_eval v b : qeval v (simple_negate b) = negb (qeval v b).
Proof.
  induction b as [| |n|q IH|l IH|l IH] using qbool_ind'; cbn; auto; [now rewrite negb_involutive| |].
  - induction IH as [|q l Hq Hl IHl]; cbn; [auto|]. rewrite Hq, IHl. now rewrite negb_andb.
  - induction IH as [|q l Hq Hl IHl]; cbn; [auto|]. rewrite Hq, IHl. now rewrite negb_orb.
Qed.
(** Shapes that are printed well. *)
Fixpoint printable (b : qbool) : Prop :=
  let all := fix go (l : list qbool) : Prop := match l with [] => True | q :: l => printable q /\ go l end in
  match b with
  | True_ | False_ | Term _ => True
  | Not q => printable q /\ match q with Not _ => False | _ => True end
  | And l | Or l => l <> [] /\ all l
  end.
Lemma printable_list l : (fix go (l : list qbool) : Prop := match l with [] => True | q :: l => printable q /\ go l end) l <-> Forall printable l.
Proof. induction l as [|q l IH]; split; intros H; auto; [constructor; [apply H|apply IH, H]|inversion H; subst; split; [auto|now apply IH]]. Qed.
Lemma printable_and l : printable (And l) <-> l <> [] /\ Forall printable l.
Proof. cbn. now rewrite printable_list. Qed.
Lemma printable_or l : printable (Or l) <-> l <> [] /\ Forall printable l.
Proof. cbn. now rewrite printable_list. Qed.
Lemma literal_printable b : literal b -> printable b.
Proof. destruct b as [| | |[]| |]; cbn; auto; intros []. Qed.
Lemma product_printable b : product b -> printable b.
Proof. intros [H|(l & -> & N & F)]; [now apply literal_printable|]. apply printable_and. split; [auto|]. eapply Forall_impl; [|exact F]. apply literal_printable. Qed.
Lemma sop_printable b : sum_of_products b -> printable b.
Proof. intros [-> |[-> |[H|(l & -> & N & F)]]]; [exact I|exact I|now apply product_printable|]. apply printable_or. split; [auto|]. eapply Forall_impl; [|exact F]. apply product_printable. Qed.
Lemma negate_printable b : printable b -> printable (simple_negate b).
Proof.
  induction b as [| |n|q IH|l IH|l IH] using qbool_ind'; cbn [simple_negate]; intros H; try exact I.
  - cbn. auto.
  - apply H.
  - apply printable_and in H as [N F]. apply printable_or. split; [destruct l; [congruence|discriminate]|]. clear N.
    induction IH as [|q l Hq Hl IHl]; cbn; [constructor|]. inversion F; subst. constructor; auto.
  - apply printable_or in H as [N F]. apply printable_and. split; [destruct l; [congruence|discriminate]|]. clear N.
    induction IH as [|q l Hq Hl IHl]; cbn; [constructor|]. inversion F; subst. constructor; auto.
Qed.
Definition candidate (expr q : qbool) : Prop := printable q /\ forall v, qeval v q = qeval v expr.
Lemma candidates_sound simplify expr : simplifies simplify -> Forall (candidate expr) (candidates simplify expr).
Proof.
  intros S. unfold candidates.
  assert (B : Forall (candidate expr) (simplify expr)). { apply Forall_forall. intros q Q. destruct (S _ _ Q) as [S1 S2]. split; [now apply sop_printable|auto]. }
  assert (NB : forall q, In q (simplify (Not expr)) -> sum_of_products q /\ forall v, qeval v q = negb (qeval v expr)) by (intros q Q; exact (S _ _ Q)).
  revert B NB. generalize (simplify expr) as acc. generalize (simplify (Not expr)) as l.
  induction l as [|x l IH]; intros acc B NB; [exact B|]. cbn [fold_left]. apply IH; [|intros q Q; apply NB; right; auto].
  destruct (NB x (or_introl eq_refl)) as [X1 X2]. unfold add_candidates.
  assert (B1 : Forall (candidate expr) (match x with Not _ | True_ | False_ => acc | _ => acc ++ [Not x] end)).
  { assert (C : match x with Not _ => False | _ => True end -> candidate expr (Not x)).
    { intros N. split; [split; [now apply sop_printable|auto]|]. intros v. cbn. now rewrite X2, negb_involutive. }
    destruct x; auto; apply Forall_app; split; auto. }
  destruct (existsb _ _); [exact B1|]. apply Forall_app. split; [exact B1|]. constructor; [|constructor].
  split; [apply negate_printable; now apply sop_printable|]. intros v. now rewrite simple_negate_eval, X2, negb_involutive.
Qed.
