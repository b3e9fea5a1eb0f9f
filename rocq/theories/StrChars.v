(** The lints about characters: comparisons of the first or last one, patterns, and ASCII. *)
From Verif Require Export StrLints.

(** ** A string of one character as a pattern *)
Lemma scan_set_app f a : forall i b, scan_set f i (a ++ b) = scan_set f i a ++ scan_set f (i + length a) b.
Proof.
  induction a as [|c a IH]; intros i b; cbn [app scan_set length]; [rewrite Nat.add_0_r; reflexivity|]. rewrite IH. replace (S i + length a) with (i + S (length a)) by lia. destruct (f c); reflexivity.
Qed.
Lemma scan_set_shift f s : forall i, scan_set f (S i) s = map (fun m => (S (fst m), S (snd m))) (scan_set f i s).
Proof. induction s as [|c s IH]; intros i; [reflexivity|]. cbn [scan_set]. rewrite IH. destruct (f c); reflexivity. Qed.
Lemma scan_set_in f s : forall i m, In m (scan_set f i s) -> i <= fst m < i + length s /\ snd m = S (fst m).
Proof.
  induction s as [|c s IH]; intros i m J; [destruct J|]. cbn [scan_set length] in *. destruct (f c); [destruct J as [<-|J]; [cbn; lia|]|]; apply IH in J; lia.
Qed.
Lemma scan_set_rev f s : map (fun m => (length s - snd m, length s - fst m)) (scan_set f 0 (rev s)) = rev (scan_set f 0 s).
Proof.
  induction s as [|c s IH]; [reflexivity|]. cbn [rev length scan_set]. rewrite scan_set_app, map_app, rev_length, Nat.add_0_l. rewrite scan_set_shift.
  assert (E : map (fun m => (S (length s) - snd m, S (length s) - fst m)) (scan_set f 0 (rev s)) = rev (map (fun m => (S (fst m), S (snd m))) (scan_set f 0 s))).
  { rewrite <- map_rev, <- IH, map_map. apply map_ext_in. intros m J. apply scan_set_in in J. rewrite rev_length in J. cbn [fst snd]. f_equal; lia. }
  rewrite E. cbn [scan_set]. destruct (f c); cbn [map]; [|rewrite app_nil_r; reflexivity]. cbn [rev fst snd]. replace (S (length s) - S (length s)) with 0 by lia. replace (S (length s) - length s) with 1 by lia. reflexivity.
Qed.
Lemma one_of_single c d : one_of [c] d = N.eqb c d.
Proof. cbn. rewrite orb_false_r. apply N.eqb_sym. Qed.
Lemma scan_single c s : forall i, scan_str [c] 0 i s = scan_set (one_of [c]) i s.
Proof.
  induction s as [|d s IH]; intros i; [reflexivity|]. cbn [scan_str scan_set is_prefix length]. rewrite one_of_single, andb_true_r, IH. replace (i + 1) with (S i) by lia. replace (1 - 1) with 0 by lia. rewrite IH. reflexivity.
Qed.
Lemma fwd_single c s : fwd (PStr [c]) s = fwd (PSet (one_of [c])) s. Proof. apply scan_single. Qed.
Lemma bwd_single c s : bwd (PStr [c]) s = bwd (PSet (one_of [c])) s.
Proof. cbn [bwd rev app]. rewrite scan_single. apply scan_set_rev. Qed.
Lemma after_single c s : after_front (PStr [c]) s = after_front (PSet (one_of [c])) s.
Proof. destruct s as [|d s]; [reflexivity|]. cbn [after_front is_prefix length skipn]. rewrite one_of_single, andb_true_r. reflexivity. Qed.
Lemma before_single c s : before_back (PStr [c]) s = before_back (PSet (one_of [c])) s.
Proof.
  unfold before_back. cbn [rev app is_prefix]. destruct (rev s) as [|d r] eqn:E; [reflexivity|]. rewrite one_of_single, andb_true_r. destruct (N.eqb c d); [|reflexivity]. f_equal.
  assert (S : s = rev r ++ [d]) by (rewrite <- (rev_involutive s), E; reflexivity). subst s. rewrite app_length. cbn [length]. replace (length (rev r) + 1 - 1) with (length (rev r)) by lia. rewrite firstn_app, firstn_all, Nat.sub_diag. cbn. rewrite app_nil_r. reflexivity.
Qed.
Lemma drop_front_single c n : forall s, drop_front n (PStr [c]) s = drop_front n (PSet (one_of [c])) s.
Proof. induction n as [|n IH]; intros s; [reflexivity|]. cbn [drop_front]. rewrite after_single. destruct (after_front _ _); auto. Qed.
Lemma drop_back_single c n : forall s, drop_back n (PStr [c]) s = drop_back n (PSet (one_of [c])) s.
Proof. induction n as [|n IH]; intros s; [reflexivity|]. cbn [drop_back]. rewrite before_single. destruct (before_back _ _); auto. Qed.
Lemma pmeth_single m c s rest : pmeth_apply m (PStr [c]) s rest = pmeth_apply m (PSet (one_of [c])) s rest.
Proof. unfold pmeth_apply. rewrite fwd_single, bwd_single, after_single, before_single, drop_front_single, drop_back_single. reflexivity. Qed.

Section Proofs.
  Context (wd : world).
  Notation eval := (eval wd).
  Notation st := (st wd).
  Notation same := (same wd).
  Lemma each_ext es : forall (f g : list val -> st -> out * st), (forall vs s, f vs s = g vs s) -> forall s, each wd eval es f s = each wd eval es g s.
  Proof. induction es as [|e es IH]; intros f g E s; cbn [each]; [apply E|]. destruct (eval e s) as [[v|v| |] t]; cbn [bind]; try reflexivity. apply IH. intros. apply E. Qed.
  Lemma each_app es fs : forall k (s : st), each wd eval (es ++ fs) k s = each wd eval es (fun vs => each wd eval fs (fun us => k (vs ++ us))) s.
  Proof. induction es as [|e es IH]; intros k s; [reflexivity|]. cbn [app each]. destruct (eval e s) as [[v|v| |] t]; cbn [bind]; try reflexivity. apply IH. Qed.
  Lemma each_len es k1 k2 : (forall vs (s : st), length vs = length es -> k1 vs s = k2 vs s) -> forall s, each wd eval es k1 s = each wd eval es k2 s.
  Proof.
    revert k1 k2. induction es as [|e es IH]; intros k1 k2 E s; cbn [each]; [apply E; reflexivity|]. destruct (eval e s) as [[v|v| |] t]; cbn [bind]; try reflexivity. apply IH. intros vs u L. apply E. cbn. congruence.
  Qed.
  Lemma single_lit p c : str_literal_to_char_literal p = Some c -> exists d, p = XLit (LStr [d]) /\ c = XLit (LChar d) /\ blen [d] = 1.
  Proof.
    unfold str_literal_to_char_literal. destruct p as [|[[|d [|]]| | | |]| | | | | | | | | | | |]; try discriminate. destruct (Nat.eqb_spec (blen [d]) 1); [|discriminate]. intros H. injection H as <-. eauto.
  Qed.
  Theorem single_char_pattern_keeps e e' : single_char_pattern e = Some e' -> forall s, same (eval e' s) (eval e s).
  Proof.
    intros H s. unfold single_char_pattern in H. destruct e as [| | |o es| | | | | | | | | |]; try discriminate H. destruct o; try discriminate H. destruct es as [|r args]; [discriminate H|]. destruct (pattern_method m) as [pos|] eqn:M; [|discriminate H].
    destruct (nth_error args pos) as [p|] eqn:NE; [|discriminate H]. destruct (str_literal_to_char_literal p) as [c|] eqn:L; [|discriminate H]. assert (E : e' = XOp (OPat m) (r :: firstn pos args ++ c :: skipn (S pos) args)) by congruence. subst e'. clear H. destruct (single_lit _ _ L) as (d & -> & -> & _).
    assert (P : pos = pat_pos m) by (destruct m; try discriminate M; injection M as <-; reflexivity). clear M L. destruct (nth_error_split _ _ NE) as (a & b & -> & LA). rewrite <- LA in *.
    rewrite firstn_app, firstn_all, Nat.sub_diag, firstn_O, app_nil_r. replace (skipn (S (length a)) (a ++ XLit (LStr [d]) :: b)) with b.
    2:{ change (XLit (LStr [d]) :: b) with ([XLit (LStr [d])] ++ b). rewrite app_assoc, skipn_app. rewrite skipn_all2 by (rewrite app_length; cbn; lia). rewrite app_length. cbn [length]. replace (S (length a) - (length a + 1)) with 0 by lia. reflexivity. }
    apply same_eq. cbn [StrSpec.eval each]. destruct (eval r s) as [[v|v| |] t]; cbn [bind]; try reflexivity. rewrite !each_app. apply each_len. intros vs u LV. cbn [each StrSpec.eval bind lit_val]. apply each_ext. intros us w. f_equal. cbn [apply]. rewrite <- P.
    assert (SK : forall x : val, skipn (length a) (vs ++ x :: us) = x :: us) by (intros x; rewrite <- LV, skipn_app, skipn_all, Nat.sub_diag; reflexivity).
    assert (FI : forall x : val, firstn (length a) (vs ++ x :: us) = vs) by (intros x; rewrite <- LV, firstn_app, firstn_all, Nat.sub_diag, firstn_O, app_nil_r; reflexivity).
    rewrite !SK, !FI. unfold pat_apply. destruct v; try reflexivity. cbn [pat_of]. symmetry. apply pmeth_single.
  Qed.

  (** ** The first and the last character *)
  Definition always_char (e : ex) : Prop := forall (s : st) v s', eval e s = (OVal v, s') -> exists c, v = VChar c.
  Lemma last_chars x : match rev x with c :: _ => last_val (map VChar x) = VSome (VChar c) | [] => last_val (map VChar x) = VNone end.
  Proof. unfold last_val. rewrite <- map_rev. destruct (rev x); reflexivity. Qed.
  Lemma eqb_flip a b : N.eqb a b = N.eqb b a. Proof. apply N.eqb_sym. Qed.
  Definition end_method (o : op) : option pmeth := match o with ONext => Some StartsWith | OLast | ONextBack => Some EndsWith | _ => None end.
  (** What the comparison and the method give. *)
  Lemma end_compare o m x d : end_method o = Some m -> exists b,
    apply o [VList (map VChar x)] = OVal (match (match m with StartsWith => x | _ => rev x end) with c :: _ => VSome (VChar c) | [] => VNone end) /\
    pat_apply m (VStr x) [] (VChar d) [] = OVal (VBool b) /\ b = match (match m with StartsWith => x | _ => rev x end) with c :: _ => N.eqb c d | [] => false end.
  Proof.
    intros E. destruct o; try discriminate E; injection E as <-; cbn [pat_apply pat_of pmeth_apply app apply].
    - eexists. split; [destruct x; reflexivity|]. split; [reflexivity|]. destruct x as [|c x]; [reflexivity|]. cbn. rewrite orb_false_r. destruct (N.eqb c d); reflexivity.
    - eexists. pose proof (last_chars x) as L. split; [destruct (rev x); rewrite L; reflexivity|]. split; [reflexivity|]. unfold before_back. destruct (rev x) as [|c r]; [reflexivity|]. cbn. rewrite orb_false_r. destruct (N.eqb c d); reflexivity.
    - eexists. pose proof (last_chars x) as L. split; [destruct (rev x); rewrite L; reflexivity|]. split; [reflexivity|]. unfold before_back. destruct (rev x) as [|c r]; [reflexivity|]. cbn. rewrite orb_false_r. destruct (N.eqb c d); reflexivity.
  Qed.
  Lemma negated ne b : match xorb ne b with r => OVal (VBool r) end = if ne then apply ONot [VBool b] else OVal (VBool b).
  Proof. destruct ne, b; reflexivity. Qed.
  (** Which of the lints speaks, and about what. *)
  Lemma chars_shape e e' : chars_next_last_cmp e = Some e' -> exists ne l r o m x c,
    e = XOp (OEq ne) [l; r] /\ end_method o = Some m /\ e' = (if ne then XOp ONot [XOp (OPat m) [x; c]] else XOp (OPat m) [x; c]) /\
    (l = XOp o [XOp OChars [x]] /\ r = XOp OSome [c] \/ r = XOp o [XOp OChars [x]] /\ l = XOp OSome [c] \/
     (exists d, c = XLit (LChar d)) /\ (l = XOp OUnwrap [XOp o [XOp OChars [x]]] /\ r = c \/ r = XOp OUnwrap [XOp o [XOp OChars [x]]] /\ l = c)).
  Proof.
    assert (A : forall o m a b ne x, end_method o = Some m -> chars_cmp o m a b ne = Some x -> exists r c, a = XOp o [XOp OChars [r]] /\ b = XOp OSome [c] /\ x = if ne then XOp ONot [XOp (OPat m) [r; c]] else XOp (OPat m) [r; c]).
    { intros o m a b ne x E H. unfold chars_cmp in H. destruct a as [| | |l es| | | | | | | | | |]; try discriminate H. destruct es as [|[| | |[] [|r [|]]| | | | | | | | | |] [|]]; try discriminate H. destruct b as [| | |[] [|c [|]]| | | | | | | | | |]; try discriminate H.
      destruct l; try discriminate H; destruct o; try discriminate E; try discriminate H; injection H as <-; exists r, c; repeat split; reflexivity. }
    assert (B : forall o m a b ne x, end_method o = Some m -> chars_cmp_with_unwrap o m a b ne = Some x -> exists r d, a = XOp OUnwrap [XOp o [XOp OChars [r]]] /\ b = XLit (LChar d) /\ x = if ne then XOp ONot [XOp (OPat m) [r; b]] else XOp (OPat m) [r; b]).
    { intros o m a b ne x E H. unfold chars_cmp_with_unwrap in H. destruct a as [| | |[] es| | | | | | | | | |]; try discriminate H. destruct es as [|a es]; [discriminate H|]. destruct a as [| | |l fs| | | | | | | | | |]; try discriminate H.
      destruct fs as [|f fs]; [discriminate H|]. destruct f as [| | |[] gs| | | | | | | | | |]; try discriminate H. destruct gs as [|r [|]]; try discriminate H. destruct fs; [|discriminate H]. destruct es; [|discriminate H]. destruct b as [|[]| | | | | | | | | | | |]; try discriminate H.
      destruct l; try discriminate H; destruct o; try discriminate E; try discriminate H; injection H as <-; exists r, c; repeat split; reflexivity. }
    intros H. unfold chars_next_last_cmp in H. destruct e as [| | |o es| | | | | | | | | |]; try discriminate H. destruct o; try discriminate H. destruct es as [|l [|r [|]]]; try discriminate H. cbn [flat_map app first_of] in H. exists ne, l, r.
    repeat match type of H with
    | match chars_cmp ?o ?m ?a ?b ?n with _ => _ end = _ => let E := fresh in destruct (chars_cmp o m a b n) eqn:E; [injection H as <-; apply (A o m) in E; [|reflexivity]; destruct E as (x & c & -> & -> & ->); exists o, m, x, c; repeat split; auto; fail|]; clear E
    | match chars_cmp_with_unwrap ?o ?m ?a ?b ?n with _ => _ end = _ => let E := fresh in destruct (chars_cmp_with_unwrap o m a b n) eqn:E; [injection H as <-; apply (B o m) in E; [|reflexivity]; destruct E as (x & d & -> & -> & ->); exists o, m, x, (XLit (LChar d)); repeat split; auto 8; right; right; split; eauto; fail|]; clear E
    end. discriminate H.
  Qed.
  Definition char_operand (e : ex) : Prop := match e with XOp (OEq _) [XOp OSome [c]; _] | XOp (OEq _) [_; XOp OSome [c]] => always_char c | _ => True end.
  Definition in_order (e : ex) : Prop := match e with XOp (OEq _) [XOp OSome [c]; _] => exists l, c = XLit l | _ => True end.
  Definition unwraps (e : ex) : bool := match e with XOp (OEq _) [XOp OUnwrap _; _] | XOp (OEq _) [_; XOp OUnwrap _] => true | _ => false end.
  Lemma eval_not (ne : bool) m a b (s : st) : eval (if ne then XOp ONot [XOp (OPat m) [a; b]] else XOp (OPat m) [a; b]) s = if ne then bind wd (eval (XOp (OPat m) [a; b]) s) (fun v s => (apply ONot [v], s)) else eval (XOp (OPat m) [a; b]) s.
  Proof. destruct ne; reflexivity. Qed.
  Lemma pat_call m a b (s : st) : pat_pos m = 0 -> eval (XOp (OPat m) [a; b]) s = bind wd (eval a s) (fun v s => bind wd (eval b s) (fun w s => (pat_apply m v [] w [], s))).
  Proof. intros P. cbn [StrSpec.eval each apply]. rewrite P. reflexivity. Qed.
  Theorem chars_next_last_cmp_keeps e e' : chars_next_last_cmp e = Some e' -> char_operand e -> in_order e ->
    forall s, fst (eval e s) <> OStuck -> (unwraps e = true -> fst (eval e s) <> OPanic) -> same (eval e' s) (eval e s).
  Proof.
    intros H CO IO s NS NP. apply chars_shape in H. destruct H as (ne & l & r & o & m & x & c & -> & M & -> & F). rewrite eval_not, pat_call by (destruct o; try discriminate M; injection M as <-; reflexivity). apply same_eq.
    destruct F as [[-> ->]|[[-> ->]|[[d ->] [[-> ->]|[-> ->]]]]].
    - assert (AC : always_char c) by (destruct o; try discriminate M; exact CO). clear CO IO NP. cbn [StrSpec.eval each bind] in *. destruct (eval x s) as [[v|v| |] t]; cbn [bind] in *; try (destruct ne; reflexivity). destruct v as [| | | | |y| | | | |]; cbn [apply bind fst] in NS |- *; try (contradiction NS; reflexivity).
      destruct (end_compare o m y 0%N M) as (_ & O & _). rewrite O in *. cbn [bind] in *. destruct (eval c t) as [[w|w| |] u] eqn:C; cbn [bind apply] in *; try (destruct ne; reflexivity). destruct (AC _ _ _ C) as [d ->].
      destruct (end_compare o m y d M) as (b & _ & P & ->). rewrite P. destruct (match m with StartsWith => y | _ => rev y end); cbn; destruct ne; cbn; try (match goal with |- context [N.eqb ?a ?b] => destruct (N.eqb a b) end); reflexivity.
    - assert (AC : always_char c) by (destruct o; try discriminate M; exact CO). cbn in IO. destruct IO as [l0 ->]. clear CO NP. destruct (AC s (lit_val l0) s eq_refl) as [d D]. destruct l0; try discriminate D. injection D as ->. clear AC.
      cbn [StrSpec.eval each bind lit_val apply] in *. destruct (eval x s) as [[v|v| |] t]; cbn [bind] in *; try (destruct ne; reflexivity). destruct v as [| | | | |y| | | | |]; cbn [apply bind fst] in NS |- *; try (contradiction NS; reflexivity).
      destruct (end_compare o m y d M) as (b & O & P & ->). rewrite O, P in *. destruct (match m with StartsWith => y | _ => rev y end); cbn; rewrite 1?(N.eqb_sym d); destruct ne; cbn; try (match goal with |- context [N.eqb ?a ?b] => destruct (N.eqb a b) end); reflexivity.
    - assert (UW : fst (eval _ s) <> OPanic) by (apply NP; destruct o; try discriminate M; reflexivity). clear NP. rename UW into NP. cbn [StrSpec.eval each bind lit_val apply] in *. destruct (eval x s) as [[v|v| |] t]; cbn [bind] in *; try (destruct ne; reflexivity). destruct v as [| | | | |y| | | | |]; cbn [apply bind fst] in NS, NP |- *; try (contradiction NS; reflexivity).
      destruct (end_compare o m y d M) as (b & O & P & ->). rewrite O, P in *. destruct (match m with StartsWith => y | _ => rev y end); cbn in NP |- *; [contradiction NP; reflexivity|]. destruct ne; cbn; try (match goal with |- context [N.eqb ?a ?b] => destruct (N.eqb a b) end); reflexivity.
    - assert (UW : fst (eval _ s) <> OPanic) by (apply NP; destruct o; try discriminate M; reflexivity). clear NP. rename UW into NP. cbn [StrSpec.eval each bind lit_val apply] in *. destruct (eval x s) as [[v|v| |] t]; cbn [bind] in *; try (destruct ne; reflexivity). destruct v as [| | | | |y| | | | |]; cbn [apply bind fst] in NS, NP |- *; try (contradiction NS; reflexivity).
      destruct (end_compare o m y d M) as (b & O & P & ->). rewrite O, P in *. destruct (match m with StartsWith => y | _ => rev y end); cbn in NP |- *; [contradiction NP; reflexivity|]. rewrite 1?(N.eqb_sym d). destruct ne; cbn; try (match goal with |- context [N.eqb ?a ?b] => destruct (N.eqb a b) end); reflexivity.
  Qed.

  (** ** ASCII *)
  Definition in_class (r : char_range) (c : N) : bool :=
    match r with
    | LowerChar => lower_a c
    | UpperChar => upper_a c
    | FullChar => upper_a c || lower_a c
    | Digit => digit_a c
    | LowerHexLetter => (97 <=? c)%N && (c <=? 102)%N
    | UpperHexLetter => (65 <=? c)%N && (c <=? 70)%N
    | HexDigit => ascii_in AHex c
    | Otherwise => false
    end.
  Lemma check_codes_sound lo hi x : check_codes lo hi <> Otherwise -> (N.leb lo x && N.leb x hi) = in_class (check_codes lo hi) x.
  Proof.
    unfold check_codes. intros N.
    repeat match goal with |- context [if N.eqb lo ?a && N.eqb hi ?b then _ else _] => let E := fresh in destruct (N.eqb lo a && N.eqb hi b) eqn:E; [apply andb_prop in E; destruct E as [? ?]; rewrite (proj1 (N.eqb_eq lo a)), (proj1 (N.eqb_eq hi b)) by assumption; reflexivity|] end. contradiction N; reflexivity.
  Qed.
  Lemma range_sound lo hi v b : check_lit_range lo hi <> Otherwise -> in_range (lit_val lo) (lit_val hi) true v = Some b -> exists c, code v = Some c /\ b = in_class (check_lit_range lo hi) c.
  Proof.
    intros N H. destruct lo, hi; try (contradiction N; reflexivity); cbn in N, H; destruct v; try discriminate H; injection H as <-; eexists; (split; [reflexivity|]); cbn; rewrite <- check_codes_sound by exact N; reflexivity.
  Qed.
  Lemma range_eqb_eq a b : range_eqb a b = true -> b = a. Proof. destruct a, b; intros H; try discriminate H; reflexivity. Qed.
  Lemma check_pat_sound : forall p v b, check_pat p <> Otherwise -> mmatch p v = Some b -> exists c, code v = Some c /\ b = in_class (check_pat p) c.
  Proof.
    fix IH 1. intros p v b N H. destruct p as [l|lo hi incl|ps|]; try (contradiction N; reflexivity).
    - destruct incl; [|contradiction N; reflexivity]. apply range_sound; assumption.
    - destruct ps as [|p [|q [|r [|]]]]; try (contradiction N; reflexivity).
      + assert (Two : check_pat (MOr [p; q]) = FullChar /\ (check_pat p = UpperChar /\ check_pat q = LowerChar \/ check_pat p = LowerChar /\ check_pat q = UpperChar)).
        { clear - N. cbn in *. destruct (check_pat p), (check_pat q); cbn in *; auto; contradiction N; reflexivity. }
        cbn [mmatch fold_right] in H. destruct (mmatch p v) as [b1|] eqn:E1; [|discriminate H]. destruct (mmatch q v) as [b2|] eqn:E2; [|discriminate H]. injection H as <-. destruct Two as [-> [[P Q]|[P Q]]].
        * destruct (IH p v b1) as (c & C & ->); [congruence|exact E1|]. destruct (IH q v b2) as (c' & C' & ->); [congruence|exact E2|]. rewrite P, Q. replace c' with c by congruence. exists c. split; [exact C|]. cbn. rewrite orb_false_r. reflexivity.
        * destruct (IH p v b1) as (c & C & ->); [congruence|exact E1|]. destruct (IH q v b2) as (c' & C' & ->); [congruence|exact E2|]. rewrite P, Q. replace c' with c by congruence. exists c. split; [exact C|]. cbn. rewrite orb_false_r. apply orb_comm.
      + assert (Three : check_pat (MOr [p; q; r]) = HexDigit /\ forall c, in_class (check_pat p) c || (in_class (check_pat q) c || in_class (check_pat r) c) = ascii_in AHex c /\ check_pat p <> Otherwise /\ check_pat q <> Otherwise /\ check_pat r <> Otherwise).
        { clear - N. cbn in *. destruct (check_pat p), (check_pat q), (check_pat r); cbn in *; try (contradiction N; reflexivity); (split; [reflexivity|]); intros c; repeat split; try discriminate; unfold digit_a;
            destruct ((97 <=? c)%N && (c <=? 102)%N), ((65 <=? c)%N && (c <=? 70)%N), ((48 <=? c)%N && (c <=? 57)%N); reflexivity. }
        cbn [mmatch fold_right] in H. destruct (mmatch p v) as [b1|] eqn:E1; [|discriminate H]. destruct (mmatch q v) as [b2|] eqn:E2; [|discriminate H]. destruct (mmatch r v) as [b3|] eqn:E3; [|discriminate H]. injection H as <-. destruct Three as [-> T].
        destruct (T 0%N) as (_ & N1 & N2 & N3). destruct (IH p v b1 N1 E1) as (c & C & ->). destruct (IH q v b2 N2 E2) as (c2 & C2 & ->). destruct (IH r v b3 N3 E3) as (c3 & C3 & ->). replace c2 with c by congruence. replace c3 with c by congruence. exists c. split; [exact C|]. rewrite orb_false_r. apply (T c).
  Qed.
  Lemma ascii_method_sound r k c : ascii_method r = Some k -> ascii_in k c = in_class r c.
  Proof. destruct r; intros H; try discriminate H; injection H as <-; reflexivity. Qed.
  Lemma ascii_method_known r k : ascii_method r = Some k -> r <> Otherwise. Proof. destruct r; discriminate. Qed.
  Theorem manual_is_ascii_check_keeps e e' : manual_is_ascii_check e = Some e' -> keeps wd e e'.
  Proof.
    intros H s NS. unfold manual_is_ascii_check in H. destruct e as [| | |o es| | | | | | | | | |]; try discriminate H. destruct o; try discriminate H.
    - destruct es as [|v [|]]; try discriminate H. destruct (ascii_method (check_pat p)) as [k|] eqn:K; [|discriminate H]. injection H as <-. apply same_eq. cbn [StrSpec.eval each] in *. destruct (eval v s) as [[x|x| |] t]; try reflexivity. cbn [bind apply fst] in *. destruct (mmatch p x) as [b|] eqn:M; [|contradiction NS; reflexivity].
      destruct (check_pat_sound p x b (ascii_method_known _ _ K) M) as (c & -> & ->). rewrite (ascii_method_sound _ _ c K). reflexivity.
    - destruct incl; [|discriminate H]. destruct es as [|[|lo| | | | | | | | | | | |] [|[|hi| | | | | | | | | | | |] [|v [|]]]]; try discriminate H. destruct (ascii_method (check_lit_range lo hi)) as [k|] eqn:K; [|discriminate H]. injection H as <-. apply same_eq. cbn [StrSpec.eval each bind] in *. destruct (eval v s) as [[x|x| |] t]; try reflexivity. cbn [bind apply fst] in *.
      destruct (in_range (lit_val lo) (lit_val hi) true x) as [b|] eqn:M; [|contradiction NS; reflexivity]. destruct (range_sound lo hi x b (ascii_method_known _ _ K) M) as (c & -> & ->). rewrite (ascii_method_sound _ _ c K). reflexivity.
  Qed.

  (** ** Comparison without regard to case *)
  Lemma lower_upper x y : N.eqb (to_upper x) (to_upper y) = N.eqb (to_lower x) (to_lower y).
  Proof.
    unfold to_upper, to_lower, upper_a, lower_a.
    destruct (N.leb_spec 97 x), (N.leb_spec x 122), (N.leb_spec 97 y), (N.leb_spec y 122), (N.leb_spec 65 x), (N.leb_spec x 90), (N.leb_spec 65 y), (N.leb_spec y 90); cbn [andb]; try lia;
      match goal with |- N.eqb ?a ?b = N.eqb ?c ?d => destruct (N.eqb_spec a b), (N.eqb_spec c d); try reflexivity; exfalso; lia end.
  Qed.
  Lemma str_lower_upper x : forall y, str_eqb (map to_upper x) (map to_upper y) = same_case x y.
  Proof. unfold same_case. induction x as [|c x IH]; intros [|d y]; try reflexivity. cbn. rewrite lower_upper, IH. reflexivity. Qed.
  Definition conv (lower : bool) : N -> N := if lower then to_lower else to_upper.
  Lemma conv_eq lower x y : N.eqb (conv lower x) (conv lower y) = N.eqb (to_lower x) (to_lower y).
  Proof. destruct lower; [reflexivity|apply lower_upper]. Qed.
  Lemma conv_str lower x y : str_eqb (map (conv lower) x) (map (conv lower) y) = same_case x y.
  Proof. destruct lower; [reflexivity|apply str_lower_upper]. Qed.
  Lemma veq_bytes x : forall y, veq (VList (map VByte x)) (VList (map VByte y)) = Some (str_eqb x y).
  Proof. induction x as [|c x IH]; intros [|d y]; try reflexivity. cbn [map]. cbn in IH |- *. rewrite IH. reflexivity. Qed.
  (** The comparison after both sides are converted. *)
  Lemma conv_compare lower a b x y : each_code (conv lower) a = OVal x -> each_code (conv lower) b = OVal y -> forall r, veq x y = Some r -> eq_ignore a b = OVal (VBool r).
  Proof.
    intros A B r V. destruct a; try discriminate A; cbn [each_code] in A; try (destruct (all_bytes vs) as [p|] eqn:P; [|discriminate A]); injection A as <-; destruct b; try discriminate B; cbn [each_code] in B; try (destruct (all_bytes vs0) as [q|] eqn:Q; [|discriminate B]);
      try (destruct (all_bytes vs) as [q|] eqn:Q; [|discriminate B]); injection B as <-; try discriminate V.
    - cbn in V |- *. injection V as <-. rewrite conv_eq. reflexivity.
    - cbn in V |- *. injection V as <-. rewrite conv_eq. reflexivity.
    - cbn in V |- *. injection V as <-. rewrite conv_str. reflexivity.
    - cbn [eq_ignore]. rewrite P, Q. rewrite <- !(map_map (conv lower) VByte), veq_bytes in V. injection V as <-. rewrite conv_str. reflexivity.
  Qed.
  (** A literal compared with what was converted is in that case. *)
  Definition in_case (lower : bool) (l : lit) : Prop := each_code (conv lower) (lit_val l) = OVal (lit_val l).
  Definition literal_in_case (e : ex) : Prop :=
    match e with
    | XOp (OEq _) [XOp OLower _; XLit l] | XOp (OEq _) [XLit l; XOp OLower _] => in_case true l
    | XOp (OEq _) [XOp OUpper _; XLit l] | XOp (OEq _) [XLit l; XOp OUpper _] => in_case false l
    | _ => True
    end.
  Lemma ascii_type e x k : get_ascii_type e = Some (x, k) -> (exists lower, k = ToAscii lower /\ e = XOp (if lower then OLower else OUpper) [x]) \/ (exists l, k = Literal /\ e = XLit l /\ x = XLit l).
  Proof.
    unfold get_ascii_type. destruct e as [|l| |o es| | | | | | | | | |]; try discriminate.
    - intros H. injection H as <- <-. eauto.
    - destruct o; try discriminate; destruct es as [|a [|]]; try discriminate; destruct (ty_of a); try discriminate; intros H; injection H as <- <-; left; [exists true|exists true|exists true|exists true|exists true|exists false|exists false|exists false|exists false|exists false]; auto.
  Qed.
  Theorem manual_ignore_case_cmp_keeps e e' : manual_ignore_case_cmp e = Some e' -> literal_in_case e -> keeps wd e e'.
  Proof.
    intros H L s NS. unfold manual_ignore_case_cmp in H. destruct e as [| | |o es| | | | | | | | | |]; try discriminate H. destruct o; try discriminate H. destruct es as [|l [|r [|]]]; try discriminate H.
    destruct (get_ascii_type l) as [[a kl]|] eqn:A; [|discriminate H]. destruct (get_ascii_type r) as [[b kr]|] eqn:B; [|discriminate H]. apply ascii_type in A, B.
    match type of H with (if ?c then _ else _) = _ => destruct c eqn:C; [|discriminate H] end. injection H as <-. apply same_eq.
    assert (NOT : eval (if ne then XOp ONot [XOp OEqIgnore [a; b]] else XOp OEqIgnore [a; b]) s = bind wd (eval (XOp OEqIgnore [a; b]) s) (fun v s => (if ne then apply ONot [v] else OVal v, s))) by (clear; destruct ne; [reflexivity|]; destruct (eval (XOp OEqIgnore [a; b]) s) as [[?|?| |] ?]; reflexivity).
    rewrite NOT. clear NOT.
    assert (APP : forall (lower : bool) v, apply (if lower then OLower else OUpper) [v] = each_code (conv lower) v) by (intros []; reflexivity).
    assert (NOV : forall lower v o, each_code (conv lower) v = o -> (exists x, o = OVal x) \/ o = OStuck) by (intros lower v o <-; destruct v; cbn; eauto; destruct (all_bytes vs); eauto).
    assert (FIN : forall lower va vb x y (t : st), each_code (conv lower) va = OVal x -> each_code (conv lower) vb = OVal y -> apply (OEq ne) [x; y] <> OStuck ->
      bind wd (apply OEqIgnore [va; vb], t) (fun v s => (if ne then apply ONot [v] else OVal v, s)) = (apply (OEq ne) [x; y], t)).
    { intros lower va vb x y t X Y N. cbn [apply] in *. destruct (veq x y) as [q|] eqn:V; [|contradiction N; reflexivity]. rewrite (conv_compare lower va vb x y X Y q V). cbn. destruct ne, q; reflexivity. }
    destruct A as [(lower & -> & ->)|(p & -> & -> & ->)]; destruct B as [(lower' & -> & ->)|(q & -> & -> & ->)]; try discriminate C.
    - apply eqb_prop in C. subst lower'. cbn [StrSpec.eval each] in *. destruct (eval a s) as [[va|va| |] t]; try reflexivity. cbn [bind] in *. rewrite APP in *. destruct (NOV lower va _ eq_refl) as [[x X]|X]; rewrite X in *; [|contradiction NS; reflexivity]. cbn [bind] in *.
      destruct (eval b t) as [[vb|vb| |] u]; try reflexivity. cbn [bind] in *. rewrite APP in *. destruct (NOV lower vb _ eq_refl) as [[y Y]|Y]; rewrite Y in *; [|contradiction NS; reflexivity]. cbn [bind fst] in *. apply (FIN lower); assumption.
    - assert (IC : in_case lower q) by (destruct lower; exact L). cbn [StrSpec.eval each] in *. destruct (eval a s) as [[va|va| |] t]; try reflexivity. cbn [bind] in *. rewrite APP in *. destruct (NOV lower va _ eq_refl) as [[x X]|X]; rewrite X in *; [|contradiction NS; reflexivity]. cbn [bind fst] in *. apply (FIN lower); assumption.
    - assert (IC : in_case lower' p) by (destruct lower'; exact L). cbn [StrSpec.eval each bind] in *. destruct (eval b s) as [[vb|vb| |] t]; try reflexivity. cbn [bind] in *. rewrite APP in *. destruct (NOV lower' vb _ eq_refl) as [[y Y]|Y]; rewrite Y in *; [|contradiction NS; reflexivity]. cbn [bind fst] in *. apply (FIN lower'); assumption.
  Qed.
End Proofs.
