(** Replacing several characters, and lines. *)
From Verif Require Export StrOnce.

(** ** Splitting at a set of characters *)
Fixpoint split_on (f : chr -> bool) (s : str) : list str :=
  match s with [] => [ [] ] | c :: s => if f c then [] :: split_on f s else match split_on f s with p :: ps => (c :: p) :: ps | [] => [] end end.
Lemma pieces_split f s : forall start w, pieces start (scan_set f (start + length w) s) (w ++ s) = match split_on f s with p :: ps => (w ++ p) :: ps | [] => [] end.
Proof.
  induction s as [|c s IH]; intros start w; cbn [scan_set split_on]; [reflexivity|]. destruct (f c).
  - cbn [pieces]. replace (start + length w - start) with (length w) by lia. rewrite firstn_app, firstn_all, Nat.sub_diag, firstn_O, app_nil_r. f_equal.
    replace (S (start + length w) - start) with (length (w ++ [c])) by (rewrite app_length; cbn [length]; lia). change (w ++ c :: s) with (w ++ [c] ++ s). rewrite app_assoc, skipn_app, skipn_all, Nat.sub_diag. cbn [skipn app].
    specialize (IH (S (start + length w)) []). cbn [length app] in IH. rewrite Nat.add_0_r in IH. rewrite IH. destruct (split_on f s); reflexivity.
  - specialize (IH start (w ++ [c])). rewrite app_length, <- app_assoc in IH. cbn [length app] in IH. replace (start + (length w + 1)) with (S (start + length w)) in IH by lia. rewrite IH. destruct (split_on f s) as [|p ps]; [reflexivity|]. rewrite <- app_assoc. reflexivity.
Qed.
(** Every character of the set becomes [t]. *)
Definition put (f : chr -> bool) (t s : str) : str := flat_map (fun c => if f c then t else [c]) s.
Lemma join_split f t s : join t (split_on f s) = put f t s.
Proof.
  assert (NE : forall s, split_on f s <> []) by (clear; induction s as [|c s IH]; cbn; [discriminate|]; destruct (f c); [discriminate|]; destruct (split_on f s); [contradiction|discriminate]).
  induction s as [|c s IH]; [reflexivity|]. cbn [split_on put flat_map]. fold (put f t s). rewrite <- IH. specialize (NE s). destruct (f c).
  - destruct (split_on f s); [contradiction|reflexivity].
  - destruct (split_on f s) as [|p [|q ps]]; [contradiction|reflexivity|reflexivity].
Qed.
Lemma replace_put f t s : pmeth_apply Replace (PSet f) s [VStr t] = OVal (VStr (put f t s)).
Proof. cbn [pmeth_apply fwd]. pose proof (pieces_split f s 0 []) as P. cbn [length app Nat.add] in P. rewrite P. rewrite <- join_split. destruct (split_on f s); reflexivity. Qed.
Lemma put_cons f t c s : put f t (c :: s) = (if f c then t else [c]) ++ put f t s. Proof. reflexivity. Qed.
Lemma put_app f t a b : put f t (a ++ b) = put f t a ++ put f t b. Proof. apply flat_map_app. Qed.
Lemma put_none f t s : (forall c, In c s -> f c = false) -> put f t s = s.
Proof. induction s as [|c s IH]; intros H; [reflexivity|]. cbn. rewrite (H c) by now left. cbn. f_equal. apply IH. intros d J. apply H. now right. Qed.
Lemma put_put f g t s : (forall c, In c t -> g c = false) -> put g t (put f t s) = put (fun c => f c || g c) t s.
Proof.
  intros H. induction s as [|c s IH]; [reflexivity|]. rewrite !put_cons, put_app, IH. f_equal. destruct (f c); cbn [orb]; [apply put_none, H|]. cbn. destruct (g c); rewrite app_nil_r; reflexivity.
Qed.
Lemma put_ext f g t s : (forall c, f c = g c) -> put f t s = put g t s.
Proof. intros E. unfold put. apply flat_map_ext. intros c. rewrite E. reflexivity. Qed.

(** ** Chains of `replace` *)
Definition replaces (base : ex) (froms : list ex) (to : ex) : ex := fold_left (fun e f => XOp (OPat Replace) [e; f; to]) froms base.
Fixpoint has_replace (e : ex) : bool :=
  match e with
  | XVar _ _ | XLit _ | XNext _ => false
  | XCall _ _ es => existsb has_replace es
  | XOp o es => match o with OPat Replace => true | _ => existsb has_replace es end
  | XPred _ pre _ body post => existsb has_replace pre || has_replace body || existsb has_replace post
  | XTry e | XAssign _ e => has_replace e
  | XOr a b | XSeq a b | XLet _ a b | XLet2 _ _ a b => has_replace a || has_replace b
  | XIf c a b | XIfSome _ c a b => has_replace c || has_replace a || has_replace b
  end.
Definition char_simple (e : ex) : Prop := match e with XLit (LChar _) | XVar _ TChar => True | _ => False end.
Definition str_simple (e : ex) : Prop := match e with XLit (LStr _) | XVar _ _ => True | _ => False end.
(** Where the chain begins: nothing is replaced before, or a string, or by something else. *)
Definition begins (to base : ex) : Prop := has_replace base = false \/ exists r f t, base = XOp (OPat Replace) [r; f; t] /\ (t <> to \/ ty_of f <> TChar).
Definition simple_value (s : env) (e : ex) : val := match e with XLit l => lit_val l | XVar x _ => s x | _ => VUnit end.
(** What is put in has none of the characters replaced later. *)
Definition clean (s : env) (froms : list ex) (to : ex) : Prop := forall f d t, In f (tl froms) -> simple_value s f = VChar d -> simple_value s to = VStr t -> ~ In d t.

Lemma replaces_snoc base fs f to : replaces base (fs ++ [f]) to = XOp (OPat Replace) [replaces base fs to; f; to].
Proof. apply fold_left_app. Qed.
Lemma ty_eqb_eq a b : ty_eqb a b = true <-> a = b. Proof. split; [destruct a, b; intros H; try discriminate H; reflexivity|intros ->; destruct b; reflexivity]. Qed.
Lemma str_eqb_eq a : forall b, str_eqb a b = true -> a = b.
Proof. induction a as [|c a IH]; intros [|d b] E; try discriminate E; [reflexivity|]. cbn in E. apply andb_prop in E. destruct E as [A B]. apply N.eqb_eq in A. subst. f_equal. auto. Qed.
Lemma str_eqb_refl a : str_eqb a a = true. Proof. induction a as [|c a IH]; [reflexivity|]. cbn. rewrite N.eqb_refl. exact IH. Qed.
Lemma lit_eqb_eq a b : lit_eqb a b = true -> a = b.
Proof. destruct a, b; intros H; try discriminate H; cbn in H; [apply str_eqb_eq in H|apply N.eqb_eq in H|apply N.eqb_eq in H|apply Nat.eqb_eq in H|apply eqb_prop in H]; congruence. Qed.
Lemma eq_value_eq : forall a b, eq_value a b = true -> a = b.
Proof.
  fix IH 1. intros a b H. destruct a as [x t|l| |o es| | | | | | | | | |]; try discriminate H.
  - destruct b; try discriminate H. cbn in H. apply andb_prop in H. destruct H as [X T]. apply Nat.eqb_eq in X. apply ty_eqb_eq in T. congruence.
  - destruct b; try discriminate H. cbn in H. apply lit_eqb_eq in H. congruence.
  - destruct o; try discriminate H; destruct es as [|a [|i [|]]]; try discriminate H; destruct b as [| | |o' es'| | | | | | | | | |]; try discriminate H; destruct o'; try discriminate H; destruct es' as [|b [|j [|]]]; try discriminate H; cbn in H; apply andb_prop in H; destruct H as [A B].
    + apply eqb_prop in A. rewrite (IH _ _ B). congruence.
    + rewrite (IH _ _ A), (IH _ _ B). reflexivity.
Qed.
Lemma eq_value_simple e : str_simple e -> eq_value e e = true.
Proof. destruct e as [x t|[]| | | | | | | | | | | |]; cbn; try contradiction; intros _; [rewrite Nat.eqb_refl; apply ty_eqb_eq; reflexivity|apply str_eqb_refl]. Qed.
Lemma collect_none to : forall e, has_replace e = false -> collect_replace_calls to e = ([], false).
Proof.
  assert (L : forall es, Forall (fun e => has_replace e = false -> collect_replace_calls to e = ([], false)) es -> existsb has_replace es = false ->
    (fix all (es : list ex) : list (ex * ex) * bool := match es with [] => ([], false) | e :: es => let '(found, stop) := collect_replace_calls to e in if stop then (found, true) else let '(more, stop) := all es in (found ++ more, stop) end) es = ([], false)).
  { intros es F. induction F as [|e es He F IH]; intros H; [reflexivity|]. cbn in H. apply orb_false_elim in H. destruct H as [H1 H2]. rewrite He by exact H1. rewrite IH by exact H2. reflexivity. }
  induction e as [y ty|l|f ty es F|o es F|m pre d body post Fp Hb Fq|e He|a b Ha Hb|c a b Hc Ha Hb|y e a b He Ha Hb|y e b He Hb|y z e b He Hb|y e He|a b Ha Hb|y] using ex_ind'; intros H; cbn [has_replace] in H; try reflexivity.
  - apply L; assumption.
  - assert (H' : existsb has_replace es = false /\ forall m, o = OPat m -> m <> Replace). { destruct o; try (split; [exact H|discriminate]). destruct m; try discriminate H; (split; [exact H|]; intros m' E; injection E as <-; discriminate). }
    destruct H' as [H1 H2]. specialize (L es F H1). destruct o; try exact L. destruct m; try exact L. contradiction (H2 Replace eq_refl). reflexivity.
  - apply orb_false_elim in H. destruct H as [H H3]. apply orb_false_elim in H. destruct H as [H1 H2]. cbn [collect_replace_calls]. rewrite (L pre Fp H1), (L post Fq H3). reflexivity.
  - cbn [collect_replace_calls]. rewrite He by exact H. reflexivity.
  - apply orb_false_elim in H. destruct H as [H1 H2]. cbn [collect_replace_calls]. rewrite Ha, Hb by assumption. reflexivity.
  - apply orb_false_elim in H. destruct H as [H H3]. apply orb_false_elim in H. destruct H as [H1 H2]. cbn [collect_replace_calls]. rewrite Hc, Ha, Hb by assumption. reflexivity.
  - apply orb_false_elim in H. destruct H as [H H3]. apply orb_false_elim in H. destruct H as [H1 H2]. cbn [collect_replace_calls]. rewrite He, Ha, Hb by assumption. reflexivity.
  - apply orb_false_elim in H. destruct H as [H1 H2]. cbn [collect_replace_calls]. rewrite He, Hb by assumption. reflexivity.
  - apply orb_false_elim in H. destruct H as [H1 H2]. cbn [collect_replace_calls]. rewrite He, Hb by assumption. reflexivity.
  - cbn [collect_replace_calls]. rewrite He by exact H. reflexivity.
  - apply orb_false_elim in H. destruct H as [H1 H2]. cbn [collect_replace_calls]. rewrite Ha, Hb by assumption. reflexivity.
Qed.
Lemma simple_no_replace e : char_simple e \/ str_simple e -> has_replace e = false.
Proof. destruct e as [x t|l| | | | | | | | | | | |]; intros [H|H]; try contradiction H; reflexivity. Qed.
Lemma begins_found to base : str_simple to -> begins to base -> fst (collect_replace_calls to base) = [].
Proof.
  intros S [H|(r & f & t & -> & H)]; [rewrite collect_none by exact H; reflexivity|]. cbn [collect_replace_calls]. destruct (eq_value to t) eqn:E.
  - destruct H as [H|H]; [apply eq_value_eq in E; congruence|]. cbn [andb]. destruct (ty_eqb (ty_of f) TChar) eqn:T; [apply ty_eqb_eq in T; contradiction|reflexivity].
  - reflexivity.
Qed.
Lemma collect_chain to base froms : str_simple to -> begins to base -> Forall char_simple froms ->
  let calls := fst (collect_replace_calls to (replaces base froms to)) in map snd (rev calls) = froms /\ match rev calls with [] => froms = [] | (r, _) :: _ => r = base end.
Proof.
  intros ST B F. induction froms as [|f fs IH] using rev_ind; cbn zeta.
  - cbn [replaces fold_left]. rewrite begins_found by assumption. split; reflexivity.
  - apply Forall_app in F. destruct F as [F1 F2]. inversion F2 as [|? ? Cf _]; subst. specialize (IH F1). cbn zeta in IH. rewrite replaces_snoc. cbn [collect_replace_calls]. rewrite eq_value_simple by exact ST.
    assert (T : ty_eqb (ty_of f) TChar = true) by (destruct f as [x []|[]| | | | | | | | | | | |]; try contradiction Cf; reflexivity). rewrite T. cbn [andb].
    rewrite (collect_none to f) by (apply simple_no_replace; auto). rewrite (collect_none to to) by (apply simple_no_replace; auto).
    destruct (collect_replace_calls to (replaces base fs to)) as [calls stop] eqn:C. cbn [fst] in IH.
    assert (R : forall b : bool, fst (let '(more, stop0) := if b then (calls, true) else (calls ++ [], stop) in ((replaces base fs to, f) :: more, stop0)) = (replaces base fs to, f) :: calls) by (intros []; cbn; rewrite ?app_nil_r; reflexivity).
    destruct IH as [IH1 IH2].
    assert (E : fst (let '(more, stop0) := if stop then (calls, true) else (calls ++ [], false) in ((replaces base fs to, f) :: more, stop0)) = (replaces base fs to, f) :: calls) by (destruct stop; cbn; rewrite ?app_nil_r; reflexivity).
    cbn [app] in *. rewrite E. cbn [rev]. rewrite map_app, IH1. split; [reflexivity|]. destruct (rev calls) as [|[r x] l] eqn:RC; [|exact IH2]. subst fs. reflexivity.
Qed.

Section Proofs.
  Context (wd : world).
  Notation eval := (eval wd).
  Notation st := (st wd).
  Notation same := (same wd).
  Definition simple_out (s : env) (e : ex) : out := match e with XLit l => OVal (lit_val l) | XVar x t => typed t (OVal (s x)) | _ => OStuck end.
  Lemma eval_simple e (s : st) : char_simple e \/ str_simple e -> eval e s = (simple_out (fst s) e, s).
  Proof. destruct e as [x t|l| | | | | | | | | | | |]; intros [H|H]; try contradiction H; reflexivity. Qed.
  Lemma simple_out_val s e : simple_out s e = OStuck \/ simple_out s e = OVal (simple_value s e).
  Proof. destruct e as [x t|l| | | | | | | | | | | |]; cbn; auto. unfold typed. destruct (has_ty (s x) t); auto. Qed.
  Lemma char_simple_val s e v : char_simple e -> simple_out s e = OVal v -> exists d, v = VChar d.
  Proof. destruct e as [x []|[]| | | | | | | | | | | |]; cbn; try contradiction; intros _ H; [|injection H as <-; eauto]. unfold typed in H. destruct (s x); try discriminate H. injection H as <-. eauto. Qed.
  (** A chain after its base has run. *)
  Lemma chain_value base to (s s' : st) x : str_simple to -> eval base s = (OVal (VStr x), s') -> forall froms, Forall char_simple froms -> clean (fst s') froms to -> froms <> [] -> fst (eval (replaces base froms to) s) <> OStuck ->
    exists ds t, Forall2 (fun f d => simple_out (fst s') f = OVal (VChar d)) froms ds /\ simple_out (fst s') to = OVal (VStr t) /\ eval (replaces base froms to) s = (OVal (VStr (put (one_of ds) t x)), s').
  Proof.
    intros ST EB froms. induction froms as [|f fs IH] using rev_ind; intros F C NE NS; [contradiction|]. apply Forall_app in F. destruct F as [F1 F2]. inversion F2 as [|? ? Cf _]; subst. rewrite replaces_snoc in *. cbn [StrSpec.eval each] in *.
    assert (STEP : forall y, exists o, (let r := bind wd (OVal (VStr y), s') (fun v s => bind wd (eval f s) (fun v0 s => bind wd (eval to s) (fun v1 s => (apply (OPat Replace) [v; v0; v1], s)))) in
        r = (o, s') /\ (o <> OStuck -> exists d t, simple_out (fst s') f = OVal (VChar d) /\ simple_out (fst s') to = OVal (VStr t) /\ o = OVal (VStr (put (one_of [d]) t y))))).
    { intros y. cbn [bind]. rewrite (eval_simple f s') by auto. destruct (simple_out_val (fst s') f) as [E|E]; rewrite E; cbn [bind]; [exists OStuck; split; [reflexivity|]; intros N; contradiction|].
      rewrite (eval_simple to s') by auto. destruct (simple_out_val (fst s') to) as [E2|E2]; rewrite E2; cbn [bind]; [exists OStuck; split; [reflexivity|]; intros N; contradiction|]. eexists. split; [reflexivity|]. intros N.
      destruct (char_simple_val _ _ _ Cf E) as [d D]. rewrite D in *. cbn [apply pat_pos skipn firstn pat_apply app pat_of] in *. destruct (simple_value (fst s') to) as [| | | | |t| | | | |]; try (contradiction N; reflexivity). exists d, t. repeat split. apply replace_put. }
    destruct fs as [|f0 fs'] eqn:FS.
    - cbn [replaces fold_left] in *. rewrite EB in *. destruct (STEP x) as (o & R & K). cbn zeta in R. rewrite R in *. cbn [fst] in NS. destruct (K NS) as (d & t & D & T & ->). exists [d], t. split; [constructor; [exact D|constructor]|]. split; [exact T|reflexivity].
    - rewrite <- FS in *. assert (NE' : fs <> []) by (rewrite FS; discriminate). assert (C' : clean (fst s') fs to). { intros g d t J. apply C. rewrite FS in *. cbn in *. apply in_or_app. auto. }
      assert (NS' : fst (eval (replaces base fs to) s) <> OStuck). { intros Z. apply NS. destruct (eval (replaces base fs to) s) as [o t]. cbn in Z. subst o. reflexivity. }
      destruct (IH F1 C' NE' NS') as (ds & t & FD & TT & E). rewrite E in *. destruct (STEP (put (one_of ds) t x)) as (o & R & K). cbn zeta in R. rewrite R in *. cbn [fst] in NS. destruct (K NS) as (d & t' & D & T & ->). replace t' with t in * by congruence.
      exists (ds ++ [d]), t. split; [apply Forall2_app; [exact FD|constructor; [exact D|constructor]]|]. split; [exact TT|]. rewrite put_put.
      + f_equal. f_equal. f_equal. apply put_ext. intros c. rewrite one_of_app. reflexivity.
      + intros c J. cbn. rewrite orb_false_r. apply N.eqb_neq. intros ->. destruct (simple_out_val (fst s') f) as [V|V]; [congruence|]. destruct (simple_out_val (fst s') to) as [V2|V2]; [congruence|]. apply (C f d t); [rewrite FS; cbn; apply in_or_app; right; now left|congruence|congruence|exact J].
  Qed.
  Lemma chain_base base to froms (s : st) : froms <> [] -> (forall v, fst (eval base s) <> OVal v) -> eval (replaces base froms to) s = eval base s.
  Proof.
    intros NE NV. induction froms as [|f fs IH] using rev_ind; [contradiction|]. rewrite replaces_snoc. cbn [StrSpec.eval each]. assert (E : eval (replaces base fs to) s = eval base s) by (destruct fs; [reflexivity|apply IH; discriminate]). rewrite E. destruct (eval base s) as [[v|v| |] t]; try reflexivity. contradiction (NV v). reflexivity.
  Qed.
  Lemma chain_str base to froms (s : st) v s' : froms <> [] -> eval base s = (OVal v, s') -> fst (eval (replaces base froms to) s) <> OStuck -> Forall char_simple froms -> str_simple to -> exists x, v = VStr x.
  Proof.
    intros NE EB NS F ST. destruct froms as [|f fs]; [contradiction|]. clear NE. inversion F as [|? ? Cf F']; subst. revert NS. induction fs as [|g gs IH] using rev_ind; intros NS.
    - cbn in NS. rewrite EB in NS. cbn [bind] in NS. rewrite (eval_simple f s') in NS by auto. destruct (simple_out_val (fst s') f) as [E|E]; rewrite E in NS; [contradiction NS; reflexivity|]. cbn [bind] in NS. rewrite (eval_simple to s') in NS by auto. destruct (simple_out_val (fst s') to) as [E2|E2]; rewrite E2 in NS; [contradiction NS; reflexivity|].
      cbn in NS. destruct v; try (contradiction NS; reflexivity). eauto.
    - apply Forall_app in F'. change (f :: gs ++ [g]) with ((f :: gs) ++ [g]) in NS. rewrite replaces_snoc in NS. apply IH; [constructor; [exact Cf|apply F']|apply F'|]. intros Z. apply NS. cbn [StrSpec.eval each]. destruct (eval (replaces base (f :: gs) to) s) as [o t]. cbn in Z. subst o. reflexivity.
  Qed.
  Theorem collapsible_str_replace_keeps base froms to e' : begins to base -> Forall char_simple froms -> str_simple to -> froms <> [] -> collapsible_str_replace (replaces base froms to) = Some e' ->
    forall s, clean (fst (snd (eval base s))) froms to -> fst (eval (replaces base froms to) s) <> OStuck -> same (eval e' s) (eval (replaces base froms to) s).
  Proof.
    intros B F ST NE H s C NS. apply same_eq.
    assert (E' : e' = XOp (OPat Replace) [base; XOp OArr froms; to]).
    { pose proof (collect_chain to base froms ST B F) as [M R]. destruct (exists_last NE) as (fs & f & EF). rewrite EF in H, M, R. rewrite replaces_snoc in H, M, R. unfold collapsible_str_replace in H. destruct (replaces base fs to) as [| | |[] es| | | | | | | | | |]; try discriminate H. destruct m; try discriminate H. destruct es as [|a [|b [|c [|]]]]; try discriminate H.
      match type of H with match rev ?l with _ => _ end = _ => set (calls := l) in *; destruct (rev calls) as [|[r x] [|y l']] eqn:RC; try discriminate H end. injection H as <-. rewrite R. rewrite <- EF in M. rewrite <- M. reflexivity. }
    subst e'. destruct (eval base s) as [o s'] eqn:EB. cbn [fst snd] in C. destruct o as [v|v| |].
    - destruct (chain_str base to froms s v s' NE EB NS F ST) as [x ->]. destruct (chain_value base to s s' x ST EB froms F C NE NS) as (ds & t & FD & TT & E). rewrite E. cbn [StrSpec.eval each]. rewrite EB. cbn [bind].
      assert (EA : forall k, each wd eval froms k s' = k (map VChar ds) s'). { clear - F FD. induction FD as [|f d fs ds D FD IH]; intros k; [reflexivity|]. inversion F; subst. cbn [each]. rewrite (eval_simple f s') by auto. rewrite D. cbn [bind]. rewrite IH by assumption. reflexivity. }
      rewrite EA. cbn [bind apply]. rewrite (eval_simple to s') by auto. rewrite TT. cbn [bind pat_pos skipn firstn pat_apply pat_of app]. rewrite chars_of_map. cbn [option_map]. rewrite replace_put. reflexivity.
    - rewrite chain_base; [|exact NE|rewrite EB; discriminate]. cbn [StrSpec.eval each]. rewrite EB. reflexivity.
    - rewrite chain_base; [|exact NE|rewrite EB; discriminate]. cbn [StrSpec.eval each]. rewrite EB. reflexivity.
    - rewrite chain_base; [|exact NE|rewrite EB; discriminate]. cbn [StrSpec.eval each]. rewrite EB. reflexivity.
  Qed.

  (** ** Lines *)
  Section Seps.
    Variables (sep : str) (scan : nat -> str -> list (nat * nat)) (ok : str -> Prop).
    Hypothesis SkipPart : forall p, ok p -> forall i r, scan i (p ++ r) = scan (i + length p) r.
    Hypothesis AtSep : forall i r, scan i (sep ++ r) = (i, i + length sep) :: scan (i + length sep) r.
    Hypothesis AtEnd : forall i, scan i [] = [].
    Lemma pieces_parts : forall parts, parts <> [] -> Forall ok parts -> forall i, pieces i (scan i (join sep parts)) (join sep parts) = parts.
    Proof.
      induction parts as [|p parts IH]; intros NE F i; [contradiction|]. inversion F as [|? ? P F']; subst. destruct parts as [|q ps].
      - cbn [join]. pose proof (SkipPart p P i []) as S. rewrite app_nil_r in S. rewrite S, AtEnd. reflexivity.
      - change (join sep (p :: q :: ps)) with (p ++ sep ++ join sep (q :: ps)). rewrite SkipPart by exact P. rewrite AtSep. cbn [pieces]. replace (i + length p - i) with (length p) by lia. rewrite firstn_app, firstn_all, Nat.sub_diag, firstn_O, app_nil_r. f_equal.
        replace (i + length p + length sep - i) with (length (p ++ sep)) by (rewrite app_length; lia). rewrite app_assoc, skipn_app, skipn_all, Nat.sub_diag. cbn [skipn app]. apply IH; [discriminate|exact F'].
    Qed.
  End Seps.
  Definition line (p : str) : Prop := ~ In 10%N p /\ ~ In 13%N p.
  Lemma scan_set_skip p : line p -> forall i r, scan_set (one_of [10%N]) i (p ++ r) = scan_set (one_of [10%N]) (i + length p) r.
  Proof. intros [L _]. induction p as [|c p IH]; intros i r; cbn [app length]; [rewrite Nat.add_0_r; reflexivity|]. cbn [scan_set]. replace (one_of [10%N] c) with false. - rewrite IH by (intros J; apply L; now right). f_equal. lia. - symmetry. cbn. rewrite orb_false_r. apply N.eqb_neq. intros ->. apply L. now left. Qed.
  Lemma scan_crlf_skip p : line p -> forall i r, scan_str [13%N; 10%N] 0 i (p ++ r) = scan_str [13%N; 10%N] 0 (i + length p) r.
  Proof.
    intros [_ L]. induction p as [|c p IH]; intros i r; cbn [app length]; [rewrite Nat.add_0_r; reflexivity|]. cbn [scan_str]. replace (is_prefix [13%N; 10%N] (c :: p ++ r)) with false. - rewrite IH by (intros J; apply L; now right). f_equal. lia.
    - symmetry. cbn [is_prefix]. destruct (N.eqb_spec 13 c) as [<-|]; [|reflexivity]. contradiction L. now left.
  Qed.
  Lemma lines_part p : line p -> forall l r, lines l (p ++ r) = lines (rev p ++ l) r.
  Proof. intros [L _]. induction p as [|c p IH]; intros l r; [reflexivity|]. cbn [app lines rev]. destruct (N.eqb_spec c 10) as [->|]; [contradiction L; now left|]. rewrite IH by (intros J; apply L; now right). rewrite <- app_assoc. reflexivity. Qed.
  Lemma without_cr_line p : line p -> without_cr (rev p) = p.
  Proof.
    intros [_ L]. unfold without_cr. destruct (rev p) as [|c r] eqn:E; [rewrite <- (rev_involutive p), E; reflexivity|]. assert (N : c <> 13%N) by (intros ->; apply L; apply (proj2 (@in_rev chr p 13%N)); rewrite E; now left).
    assert (G : rev (c :: r) = p) by (rewrite <- E; apply rev_involutive). clear E. destruct c as [|q]; [exact G|]. destruct q as [q|q|]; try exact G. destruct q as [q|q|]; try exact G. destruct q as [q|q|]; try exact G. destruct q as [q|q|]; try exact G. contradiction N; reflexivity.
  Qed.
  Lemma without_crlf p : without_cr (13%N :: rev p) = p. Proof. cbn. apply rev_involutive. Qed.
  Lemma lines_join sep : sep = [10%N] \/ sep = [13%N; 10%N] -> forall parts, parts <> [] -> Forall line parts -> last parts [] <> [] -> lines [] (join sep parts) = parts.
  Proof.
    intros SEP. induction parts as [|p parts IH]; intros NE F LA; [contradiction|]. inversion F as [|? ? P F']; subst. destruct parts as [|q ps].
    - cbn [join last] in *. pose proof (lines_part p P [] []) as L. rewrite app_nil_r in L. rewrite L, app_nil_r. cbn [lines]. destruct (rev p) as [|c r] eqn:E; [contradiction LA; rewrite <- (rev_involutive p), E; reflexivity|]. rewrite <- E, rev_involutive. reflexivity.
    - change (join sep (p :: q :: ps)) with (p ++ sep ++ join sep (q :: ps)). rewrite lines_part by exact P. rewrite app_nil_r. specialize (IH ltac:(discriminate) F' LA). destruct SEP as [-> | ->]; cbn [app lines].
      + cbn [N.eqb Pos.eqb]. rewrite IH, without_cr_line by exact P. reflexivity.
      + cbn [N.eqb Pos.eqb]. rewrite IH, without_crlf. reflexivity.
  Qed.
  Lemma drop_while_len f s : length (drop_while f s) <= length s. Proof. induction s as [|c s IH]; [cbn; lia|]. cbn. destruct (f c); cbn; lia. Qed.
  Lemma trimmed_end s c : trim s = s -> white c = true -> forall x, s <> x ++ [c].
  Proof.
    intros T W x E. assert (LS : length (trim_start s) <= length s) by apply drop_while_len. assert (LE : length (trim s) <= length (trim_start s)) by (unfold trim, trim_end; rewrite rev_length; etransitivity; [apply drop_while_len|]; rewrite rev_length; lia).
    rewrite T in LE. destruct (drop_while_split white s) as (ws & EW & _). fold (trim_start s) in EW. assert (ws = []). { apply (f_equal (@length chr)) in EW. rewrite app_length in EW. destruct ws; [reflexivity|cbn in EW; lia]. } subst ws. cbn in EW. unfold trim in T. rewrite <- EW in T. unfold trim_end in T. apply (f_equal (@length chr)) in T. rewrite rev_length in T. rewrite E in T at 1. rewrite rev_unit in T. cbn [drop_while] in T. rewrite W in T. pose proof (drop_while_len white (rev x)). rewrite rev_length in *. rewrite E, app_length in T. cbn in T. lia.
  Qed.
  (** The text of the pattern of `split`. *)
  Definition sep_of (e : ex) : str := match e with XOp (OPat Split) [_; XLit (LStr s)] => s | _ => [10%N] end.
  Definition trimmed (e : ex) : ex := match e with XOp _ (XOp _ [s] :: _) => s | e => e end.
  Theorem str_split_keeps e e' : str_split e = Some e' -> forall s, fst (eval e s) <> OStuck ->
    (forall x, fst (eval (trimmed e) s) = OVal (VStr x) -> x <> [] /\ trim x = x /\ exists parts, Forall line parts /\ x = join (sep_of e) parts) -> same (eval e' s) (eval e s).
  Proof.
    intros H s NS HX.
    assert (D : exists x l, e = XOp (OPat Split) [XOp OTrim [x]; XLit l] /\ e' = XOp OLines [x] /\ (l = LChar 10%N \/ l = LStr [10%N] \/ l = LStr [13%N; 10%N])).
    { clear - H. unfold str_split in H. inv H; injection H as <-; eexists; eexists; repeat split; auto. }
    destruct D as (x & l & -> & -> & LL). clear H. cbn [trimmed] in HX. apply same_eq. cbn [StrSpec.eval each] in *. destruct (eval x s) as [[v|v| |] s1] eqn:EX; try reflexivity. cbn [bind] in *. destruct v as [| | | | |y| | | | |]; try (contradiction NS; reflexivity). destruct (HX y eq_refl) as (NE & T & parts & F & J). cbn [apply bind] in *. rewrite T in *. cbn [lit_val].
    assert (NP : parts <> []) by (intros ->; cbn in J; contradiction).
    assert (LA : last parts [] <> []).
    { intros LN. destruct (exists_last NP) as (ps & q & EQ). rewrite EQ, last_last in LN. subst q. assert (SW : exists sp, sep_of (XOp (OPat Split) [XOp OTrim [x]; XLit l]) = sp ++ [10%N]) by (destruct LL as [-> |[-> | ->]]; [exists []|exists []|exists [13%N]]; reflexivity).
      destruct SW as [sp SP]. rewrite SP, EQ in J. destruct ps as [|p ps]; [cbn in J; contradiction|].
      assert (JE : forall ps p, exists z, join (sp ++ [10%N]) (p :: ps ++ [ [] ]) = z ++ [10%N]).
      { clear. induction ps as [|q ps IH]; intros p; [exists (p ++ sp); cbn; rewrite app_nil_r, <- app_assoc; reflexivity|]. destruct (IH q) as [z Z]. exists (p ++ (sp ++ [10%N]) ++ z). change (join (sp ++ [10%N]) (p :: (q :: ps) ++ [ [] ])) with (p ++ (sp ++ [10%N]) ++ join (sp ++ [10%N]) (q :: ps ++ [ [] ])). rewrite Z, <- !app_assoc. reflexivity. }
      destruct (JE ps p) as [z Z]. assert (J' : y = z ++ [10%N]) by (rewrite J; exact Z). exact (trimmed_end y 10%N T eq_refl z J'). }
    assert (SP : forall l l' : list str, l' = l -> (strs l, s1) = (strs l', s1)) by (intros ? ? ->; reflexivity).
    destruct LL as [-> |[-> | ->]]; cbn [sep_of] in J; subst y; (rewrite lines_join; [|auto|exact NP|exact F|exact LA]); cbn [apply pat_pos skipn firstn pat_apply pat_of app].
    - cbn [pmeth_apply]. unfold fwd. apply (SP parts). apply (pieces_parts [10%N] (scan_set (one_of [10%N])) line scan_set_skip); auto. intros i r. cbn. replace (i + 1) with (S i) by lia. reflexivity.
    - pose proof (pmeth_single Split 10%N (join [10%N] parts) []) as PS. refine (eq_trans _ (f_equal (fun o => (o, s1)) (eq_sym PS))). clear PS. cbn [pmeth_apply]. unfold fwd. apply (SP parts). apply (pieces_parts [10%N] (scan_set (one_of [10%N])) line scan_set_skip); auto. intros i r. cbn. replace (i + 1) with (S i) by lia. reflexivity.
    - cbn [pmeth_apply]. unfold fwd. apply (SP parts). apply (pieces_parts [13%N; 10%N] (scan_str [13%N; 10%N] 0) line scan_crlf_skip); auto. intros i r. cbn. replace (i + 2) with (S (S i)) by lia. reflexivity.
  Qed.
End Proofs.
