(** The lints about strings that replace one method call by another. *)
From Verif Require Export StrEnv StrModel.

Section Proofs.
  Context (wd : world).
  Notation eval := (eval wd).
  Notation st := (st wd).
  Notation same := (same wd).
  Lemma same_eq a b : a = b -> same a b. Proof. intros ->. apply (same_refl wd). Qed.
  Lemma same_trans a b c : same a b -> same b c -> same a c.
  Proof. intros (A1 & A2 & A3) (B1 & B2 & B3). split; [|split]; [congruence|congruence|]. intros x. rewrite A3. apply B3. Qed.

  (** ** Types of expressions *)
  Lemma each_val es : forall k (s : st) v s', each wd eval es k s = (OVal v, s') -> exists vs t, Forall2 (fun e v => exists s s', eval e s = (OVal v, s')) es vs /\ k vs t = (OVal v, s').
  Proof.
    induction es as [|e es IH]; intros k s v s' H; cbn [each] in H; [exists [], s; auto|].
    destruct (eval e s) as [[u|u| |] t] eqn:E; try discriminate H. cbn [bind] in H. apply IH in H. destruct H as (vs & t' & F & K). exists (u :: vs), t'. split; [|exact K]. constructor; [exists s, t; exact E|exact F].
  Qed.
  Lemma pat_string m vs v : apply (OPat m) vs = OVal v -> match m with Replace | ReplaceN => exists s, v = VStr s | _ => True end.
  Proof.
    intros H. destruct m; try exact I; cbn in H; destruct vs as [|r vs]; try discriminate H; cbn in H; destruct vs as [|p vs]; try discriminate H; unfold pat_apply in H;
      destruct r; try discriminate H; destruct (pat_of p); try discriminate H; cbn in H; destruct vs as [|[| | | | |t| | | | |] [|[| |n| | | | | | | |] [|]]]; try discriminate H; injection H as <-; eauto.
  Qed.
  Lemma case_ty f v u : each_code f v = OVal u -> forall t, has_ty v t = true -> has_ty u (match t with TStr => TString | t => t end) = true.
  Proof.
    intros H t T. destruct v; try discriminate H; cbn in H; try (injection H as <-; destruct t; try discriminate T; reflexivity).
    destruct (all_bytes vs); [|discriminate H]. injection H as <-. destruct t; try discriminate T; reflexivity.
  Qed.
  Lemma slice_ty lo hi incl v r u : apply (OSlice lo hi incl) (v :: r) = OVal u -> forall t, has_ty v t = true -> has_ty u (match t with TString => TStr | t => t end) = true.
  Proof.
    intros H t T. destruct v; try discriminate H; cbn [apply] in H; destruct (bounds _ _ _ _ _) as [[a b]|]; try discriminate H.
    - unfold slice_str in H. destruct (cut b s) as [[x y]|]; [|discriminate H]. destruct (b <? a); [discriminate H|]. destruct (cut a x) as [[p q]|]; [|discriminate H]. injection H as <-. destruct t; try discriminate T; reflexivity.
    - unfold slice_list in H. destruct (_ || _); [discriminate H|]. injection H as <-. destruct t; try discriminate T; reflexivity.
  Qed.
  Theorem ty_of_sound : forall e (s : st) v s', eval e s = (OVal v, s') -> has_ty v (ty_of e) = true.
  Proof.
    assert (O : forall v, has_ty v TOther = true) by (intros []; reflexivity).
    induction e as [x t|l|f t es F|o es F|m pre c body post Fp Hb Fq|e He|a b Ha Hb|c a b Hc Ha Hb|x e a b He Ha Hb|x e b He Hb|x y e b He Hb|x e He|a b Ha Hb|x] using ex_ind'; intros s v s' H; cbn [StrSpec.eval] in H; try apply O.
    - cbn [ty_of]. unfold typed in H. destruct (has_ty (fst s x) t) eqn:E; [|discriminate H]. injection H as <- _. exact E.
    - injection H as <- _. destruct l; reflexivity.
    - apply each_val in H. destruct H as (vs & t' & _ & H). destruct (call _ _ _ _) as [o w]. injection H as H _. unfold typed in H. destruct o; try discriminate H. destruct (has_ty v0 t) eqn:E; [|discriminate H]. injection H as <-. exact E.
    - apply each_val in H. destruct H as (vs & t' & V & H). injection H as H _.
      assert (Arg : forall e r, es = e :: r -> exists u us, vs = u :: us /\ has_ty u (ty_of e) = true).
      { intros e r ->. inversion V as [|? u ? us (s0 & s1 & E) V']; subst. inversion F as [|? ? He F']; subst. exists u, us. split; [reflexivity|]. apply (He _ _ _ E). }
      destruct o; try apply O.
      + (* slice *) destruct es as [|e r]; [apply O|]. destruct (Arg e r eq_refl) as (u & us & -> & T). cbn [ty_of]. pose proof (slice_ty _ _ _ _ _ _ H _ T) as X. destruct (ty_of e); exact X.
      + (* as_bytes *) cbn [ty_of]. cbn in H. destruct vs as [|[] [|]]; try discriminate H. injection H as <-. reflexivity.
      + cbn [ty_of]. cbn in H. destruct vs as [|[] [|]]; try discriminate H. injection H as <-. reflexivity.
      + cbn [ty_of]. cbn in H. destruct vs as [|[] [|]]; try discriminate H. injection H as <-. reflexivity.
      + cbn [ty_of]. cbn in H. destruct vs as [|[] [|]]; try discriminate H. injection H as <-. reflexivity.
      + cbn [ty_of]. cbn in H. destruct vs as [|[] [|]]; try discriminate H. injection H as <-. reflexivity.
      + destruct es as [|e r]; [apply O|]. destruct (Arg e r eq_refl) as (u & us & -> & T). cbn [ty_of]. cbn [apply] in H. destruct us; [|discriminate H]. pose proof (case_ty _ _ _ H _ T) as X. destruct (ty_of e); exact X.
      + destruct es as [|e r]; [apply O|]. destruct (Arg e r eq_refl) as (u & us & -> & T). cbn [ty_of]. cbn [apply] in H. destruct us; [|discriminate H]. pose proof (case_ty _ _ _ H _ T) as X. destruct (ty_of e); exact X.
      + pose proof (pat_string m vs v H) as P. destruct m; try apply O; destruct P as [t ->]; reflexivity.
  Qed.
  Lemma stringish_val e (s : st) v s' : stringish (ty_of e) = true -> eval e s = (OVal v, s') -> exists t, v = VStr t.
  Proof. intros T H. apply ty_of_sound in H. destruct (ty_of e); try discriminate T; destruct v; try discriminate H; eauto. Qed.


  (** ** Bytes *)
  Theorem bytes_nth_keeps e e' : bytes_nth e = Some e' -> forall s, same (eval e' s) (eval e s).
  Proof.
    intros H s. unfold bytes_nth in H. inv H; destruct (stringish _); try discriminate H; injection H as <-; apply same_eq; cbn [StrSpec.eval each].
    - destruct (eval _ s) as [[v|v| |] t]; try reflexivity. cbn [bind]. change (apply OAsBytes [v]) with (apply OBytes [v]). destruct (apply OBytes [v]) as [u|u| |] eqn:E; try reflexivity. cbn [bind].
      destruct (eval _ t) as [[w|w| |] t']; try reflexivity. cbn [bind]. cbn in E. destruct v; try discriminate E. injection E as <-. destruct w; try reflexivity. cbn. unfold nth_val. destruct (nth_error _ n); reflexivity.
    - destruct (eval _ s) as [[v|v| |] t]; try reflexivity. cbn [bind]. change (apply OAsBytes [v]) with (apply OBytes [v]). destruct (apply OBytes [v]) as [u|u| |] eqn:E; try reflexivity. cbn [bind].
      destruct (eval _ t) as [[w|w| |] t']; try reflexivity. cbn [bind]. cbn in E. destruct v; try discriminate E. injection E as <-. destruct w; try reflexivity. cbn. unfold nth_val. destruct (nth_error _ n); reflexivity.
  Qed.
  Theorem bytes_count_to_len_keeps e e' : bytes_count_to_len e = Some e' -> forall s, same (eval e' s) (eval e s).
  Proof.
    intros H s. unfold bytes_count_to_len in H. inv H. destruct (stringish _) eqn:T; [|discriminate H]. injection H as <-. apply same_eq. cbn [StrSpec.eval each].
    destruct (eval _ s) as [[v|v| |] t] eqn:E; try reflexivity. destruct (stringish_val _ _ _ _ T E) as [x ->]. cbn. rewrite map_length. reflexivity.
  Qed.
  Lemma enc_pos c : 0 < length (enc c).
  Proof. unfold enc. destruct (_ <? _)%N; [cbn; lia|]. destruct (_ <? _)%N; [cbn; lia|]. destruct (_ <? _)%N; cbn; lia. Qed.
  Lemma bytes_empty x : match map VByte (bytes x) with [] => true | _ => false end = match x with [] => true | _ => false end.
  Proof. destruct x as [|c x]; [reflexivity|]. cbn. pose proof (enc_pos c). destruct (enc c); [cbn in *; lia|reflexivity]. Qed.
  Theorem needless_as_bytes_keeps e e' : needless_as_bytes e = Some e' -> forall s, same (eval e' s) (eval e s).
  Proof.
    intros H s. unfold needless_as_bytes in H. inv H; destruct (stringish _) eqn:T; try discriminate H; injection H as <-; apply same_eq; cbn [StrSpec.eval each];
      destruct (eval _ s) as [[v|v| |] t] eqn:E; try reflexivity; destruct (stringish_val _ _ _ _ T E) as [x ->]; cbn; rewrite ?map_length, ?bytes_empty; reflexivity.
  Qed.
  Lemma cut_sound n : forall s a b, cut n s = Some (a, b) -> s = a ++ b /\ blen a = n.
  Proof.
    intros s. revert n. induction s as [|c s IH]; intros n a b H.
    - destruct n; [|discriminate H]. injection H as <- <-. auto.
    - destruct n as [|n]; [injection H as <- <-; auto|]. cbn [cut] in H. destruct (Nat.ltb_spec (S n) (length (enc c))) as [|L]; [discriminate H|]. destruct (cut _ s) as [[x y]|] eqn:E; [|discriminate H]. injection H as <- <-. apply IH in E. destruct E as [-> E]. split; [reflexivity|].
      unfold blen, bytes in *. cbn [flat_map]. rewrite app_length. lia.
  Qed.
  Lemma bytes_app a b : bytes (a ++ b) = bytes a ++ bytes b. Proof. apply flat_map_app. Qed.
  Lemma slice_bytes s a b r : slice_str s a b = OVal (VStr r) -> slice_list (map VByte (bytes s)) a b = OVal (VList (map VByte (bytes r))).
  Proof.
    unfold slice_str, slice_list. destruct (cut b s) as [[x y]|] eqn:E; [|discriminate]. apply cut_sound in E. destruct E as [-> E]. destruct (b <? a); [discriminate|]. cbn [orb].
    destruct (cut a x) as [[p q]|] eqn:F; [|discriminate]. apply cut_sound in F. destruct F as [-> F]. intros H. injection H as <-. rewrite map_length, !bytes_app, !map_app.
    unfold blen in *. rewrite bytes_app, app_length in E. rewrite !app_length. destruct (Nat.ltb_spec (length (bytes p) + length (bytes q) + length (bytes y)) b) as [L|_]; [lia|]. f_equal. f_equal.
    rewrite firstn_app, skipn_app, !firstn_app, !skipn_app. rewrite !app_length, !map_length, !firstn_length, !map_length.
    replace (b - (length (bytes p) + length (bytes q))) with 0 by lia. rewrite firstn_O, skipn_nil, app_nil_r.
    rewrite (firstn_all2 (map VByte (bytes p))) by (rewrite map_length; lia). rewrite (skipn_all2 (map VByte (bytes p))) by (rewrite map_length; lia). rewrite (firstn_all2 (map VByte (bytes q))) by (rewrite map_length; lia).
    replace (a - Nat.min b (length (bytes p))) with 0 by lia. reflexivity.
  Qed.
  Theorem sliced_string_as_bytes_keeps e e' : sliced_string_as_bytes e = Some e' -> forall s, fst (eval e s) <> OStuck -> fst (eval e s) <> OPanic -> same (eval e' s) (eval e s).
  Proof.
    intros H s. unfold sliced_string_as_bytes in H. inv H. destruct (_ && _) eqn:T; [|discriminate H]. injection H as <-. apply andb_prop in T. destruct T as [_ T]. cbn [StrSpec.eval each].
    match goal with |- context [eval ?e s] => destruct (eval e s) as [[v|v| |] t] eqn:E end; try (intros; apply (same_refl wd)). destruct (stringish_val _ _ _ _ T E) as [x ->]. cbn [bind apply].
    match goal with |- context [each wd eval ?l _ t] => generalize l end. intros l.
    enough (G : forall l acc (t : st), let k := fun vs (s : st) => (match bounds (blen x) lo hi incl (acc ++ vs) with Some (a, b) => slice_str x a b | None => OStuck end, s) in
      let k' := fun vs (s : st) => (match bounds (blen x) lo hi incl (acc ++ vs) with Some (a, b) => slice_list (map VByte (bytes x)) a b | None => OStuck end, s) in
      let r := bind wd (each wd eval l k t) (fun v s => (apply OAsBytes [v], s)) in fst r <> OStuck -> fst r <> OPanic -> same (each wd eval l k' t) r).
    { intros N P. specialize (G l [] t). cbn [app] in G. specialize (G N P). rewrite map_length. exact G. }
    clear. induction l as [|e l IH]; intros acc t k k' r N P; subst r.
    - cbn [each] in *. unfold k, k' in *. cbn [bind] in *. destruct (bounds _ _ _ _ _) as [[a b]|]; [|contradiction N; reflexivity].
      destruct (slice_str x a b) as [v|v| |] eqn:E; cbn [bind fst] in *; try (contradiction N; reflexivity); try (contradiction P; reflexivity).
      + assert (exists r, v = VStr r) as [r ->]. { unfold slice_str in E. destruct (cut b x) as [[p q]|]; [|discriminate E]. destruct (b <? a); [discriminate E|]. destruct (cut a p) as [[p' q']|]; [|discriminate E]. injection E as <-. eauto. }
        rewrite (slice_bytes _ _ _ _ E). apply (same_refl wd).
      + unfold slice_str in E. destruct (cut b x) as [[p q]|]; [|discriminate E]. destruct (b <? a); [discriminate E|]. destruct (cut a p) as [[p' q']|]; discriminate E.
    - cbn [each] in *. destruct (eval e t) as [[v|v| |] t']; try apply (same_refl wd); cbn [bind] in *. specialize (IH (acc ++ [v]) t'). cbn beta zeta in IH. unfold k, k' in *.
      assert (X : forall vs, (acc ++ [v]) ++ vs = acc ++ v :: vs) by (intros; rewrite <- app_assoc; reflexivity).
      assert (EX : forall (f g : list val -> st -> out * st), (forall vs s, f vs s = g vs s) -> forall l s, each wd eval l f s = each wd eval l g s).
      { intros f g FG l0. revert f g FG. induction l0 as [|e0 l0 IH0]; intros f g FG s0; cbn [each]; [apply FG|]. destruct (eval e0 s0) as [[?|?| |] ?]; cbn [bind]; try reflexivity. apply IH0. intros. apply FG. }
      rewrite (EX (fun vs s => (match bounds (blen x) lo hi incl ((acc ++ [v]) ++ vs) with Some (a, b) => slice_str x a b | None => OStuck end, s)) (fun vs s => (match bounds (blen x) lo hi incl (acc ++ v :: vs) with Some (a, b) => slice_str x a b | None => OStuck end, s))) in IH by (intros; rewrite X; reflexivity).
      rewrite (EX (fun vs s => (match bounds (blen x) lo hi incl ((acc ++ [v]) ++ vs) with Some (a, b) => slice_list (map VByte (bytes x)) a b | None => OStuck end, s)) (fun vs s => (match bounds (blen x) lo hi incl (acc ++ v :: vs) with Some (a, b) => slice_list (map VByte (bytes x)) a b | None => OStuck end, s))) in IH by (intros; rewrite X; reflexivity).
      apply IH; assumption.
  Qed.
  Theorem get_first_keeps e e' : get_first e = Some e' -> forall s, same (eval e' s) (eval e s).
  Proof.
    intros H s. unfold get_first in H. inv H. injection H as <-. apply same_eq. cbn [StrSpec.eval each]. destruct (eval _ s) as [[v|v| |] t]; try reflexivity.
  Qed.
  (** Expressions equal in value do the same, and nothing else. *)
  Lemma eq_value_same : forall a b, eq_value a b = true -> exists o : st -> out, forall s : st, eval a s = (o s, s) /\ eval b s = (o s, s).
  Proof.
    fix IH 1. intros a b H. destruct a as [x t|l| |o es| | | | | | | | | |]; try discriminate H.
    - destruct b; try discriminate H. cbn in H. apply andb_prop in H. destruct H as [X T]. apply Nat.eqb_eq in X. subst. exists (fun s => typed t (OVal (fst s x0))). intros s. split; [reflexivity|]. destruct t, t0; try discriminate T; reflexivity.
    - destruct b as [|m| | | | | | | | | | | |]; try discriminate H. cbn in H. exists (fun _ => OVal (lit_val l)). intros s. split; [reflexivity|]. cbn.
      assert (SE : forall x y, str_eqb x y = true -> x = y). { induction x as [|c x IHx]; intros [|d y] E; try discriminate E; [reflexivity|]. cbn in E. apply andb_prop in E. destruct E as [A B]. apply N.eqb_eq in A. subst. f_equal. auto. }
      destruct l, m; try discriminate H; cbn in H |- *; [apply SE in H|apply N.eqb_eq in H|apply N.eqb_eq in H|apply Nat.eqb_eq in H|apply eqb_prop in H]; subst; reflexivity.
    - destruct o; try discriminate H; destruct es as [|a [|i [|]]]; try discriminate H; destruct b as [| | |o' es'| | | | | | | | | |]; try discriminate H; destruct o'; try discriminate H; destruct es' as [|b [|j [|]]]; try discriminate H; cbn in H; apply andb_prop in H; destruct H as [A B].
      + apply eqb_prop in A. subst. destruct (IH _ _ B) as [f F]. eexists. intros s. destruct (F s) as [F1 F2]. cbn [StrSpec.eval each]. rewrite F1, F2.
        instantiate (1 := fun s => match f s with OVal v => apply (OField second0) [v] | o => o end). cbn beta. destruct (f s); split; reflexivity.
      + destruct (IH _ _ A) as [f F]. destruct (IH _ _ B) as [g G]. exists (fun s => match f s with OVal v => match g s with OVal w => apply OAt [v; w] | o => o end | o => o end). intros s. destruct (F s) as [F1 F2]. destruct (G s) as [G1 G2]. cbn [StrSpec.eval each]. rewrite F1, F2.
        destruct (f s); cbn [bind]; try (split; reflexivity). rewrite G1, G2. destruct (g s); split; reflexivity.
  Qed.
  Lemma nth_last_val vs : nth_val vs (length vs - 1) = last_val vs.
  Proof.
    unfold nth_val, last_val. destruct vs as [|v vs] using rev_ind; [reflexivity|]. rewrite rev_unit, app_length. cbn [length]. replace (length vs + 1 - 1) with (length vs) by lia. rewrite nth_error_app2, Nat.sub_diag by lia. reflexivity.
  Qed.
  Theorem get_last_with_len_keeps e e' : get_last_with_len e = Some e' -> forall s, fst (eval e s) <> OPanic -> same (eval e' s) (eval e s).
  Proof.
    intros H s. unfold get_last_with_len in H. inv H. destruct (_ && _) eqn:T; [|discriminate H]. injection H as <-. apply andb_prop in T. destruct T as [Q T].
    match type of Q with eq_value ?x ?y = true => destruct (eq_value_same x y Q) as [f F]; set (a := x) in *; set (b := y) in * end. destruct (F s) as [F1 F2]. intros P. apply same_eq. cbn [StrSpec.eval each lit_val] in *. rewrite F1 in *. destruct (f s) as [v|v| |] eqn:FS; try reflexivity. cbn [bind] in *. rewrite F2 in *. cbn [bind] in *.
    pose proof (ty_of_sound _ _ _ _ F1) as V. destruct (ty_of a); try discriminate T. destruct v; try discriminate V. cbn [apply bind] in *. destruct (length vs <? 1) eqn:L; cbn [bind] in *; [contradiction P; reflexivity|]. rewrite nth_last_val. reflexivity.
  Qed.

  (** ** Spaces *)
  Lemma words_front s : words [] (drop_while white s) = words [] s.
  Proof. induction s as [|c s IH]; [reflexivity|]. cbn [drop_while words]. destruct (white c) eqn:E; [exact IH|]. cbn [words]. rewrite E. reflexivity. Qed.
  Lemma words_back ws : forallb white ws = true -> forall s w, words w (s ++ ws) = words w s.
  Proof.
    intros A. assert (B : forall ws, forallb white ws = true -> words [] ws = []). { clear. induction ws as [|c ws IH]; intros A; [reflexivity|]. cbn in *. apply andb_prop in A. destruct A as [-> A]. apply IH, A. }
    induction s as [|c s IH]; intros w; cbn [app words]; [|destruct (white c); rewrite IH; reflexivity].
    destruct ws as [|c ws]; [reflexivity|]. cbn in A |- *. apply andb_prop in A. destruct A as [-> A]. rewrite (B ws A), app_nil_r. reflexivity.
  Qed.
  Lemma drop_while_split f s : exists ws, s = ws ++ drop_while f s /\ forallb f ws = true.
  Proof. induction s as [|c s (ws & E & A)]; [exists []; auto|]. cbn [drop_while]. destruct (f c) eqn:F; [|exists []; auto]. exists (c :: ws). cbn. rewrite F, A, <- E. auto. Qed.
  Lemma words_trim_end s : words [] (trim_end s) = words [] s.
  Proof.
    unfold trim_end. destruct (drop_while_split white (rev s)) as (ws & E & A). apply (f_equal (@rev chr)) in E. rewrite rev_involutive, rev_app_distr in E. rewrite E at 2. symmetry. apply words_back.
    rewrite forallb_forall in *. intros c J. apply A. apply in_rev. exact J.
  Qed.
  Theorem trim_split_whitespace_keeps e e' : trim_split_whitespace e = Some e' -> forall s, same (eval e' s) (eval e s).
  Proof.
    intros H s. unfold trim_split_whitespace in H. inv H; injection H as <-; apply same_eq; cbn [StrSpec.eval each]; destruct (eval _ s) as [[v|v| |] t]; try reflexivity; destruct v; try reflexivity; cbn; unfold trim, trim_start; rewrite ?words_trim_end, ?words_front; reflexivity.
  Qed.

  (** ** Repetition *)
  Theorem repeat_once_keeps e e' : repeat_once e = Some e' -> forall s, same (eval e' s) (eval e s).
  Proof.
    intros H s. unfold repeat_once in H. inv H. match type of H with match ty_of ?a with _ => _ end = _ => destruct (ty_of a) eqn:T end; try discriminate H; injection H as <-; apply same_eq; cbn [StrSpec.eval each lit_val];
      destruct (eval _ s) as [[v|v| |] t] eqn:E; try reflexivity; apply ty_of_sound in E; rewrite T in E; destruct v; try discriminate E; cbn; rewrite app_nil_r; reflexivity.
  Qed.
  Lemma collected_repeat x n : collected (repeat (VStr x) n) = Some (repeat_str n x).
  Proof. induction n as [|n IH]; [reflexivity|]. cbn. unfold collected in IH. rewrite IH. reflexivity. Qed.
  Lemma collected_char c n : collected (repeat (VChar c) n) = Some (repeat_str n [c]).
  Proof. induction n as [|n IH]; [reflexivity|]. cbn. unfold collected in IH. rewrite IH. reflexivity. Qed.
  Theorem manual_str_repeat_keeps e e' : manual_str_repeat e = Some e' -> forall s, same (eval e' s) (eval e s).
  Proof.
    intros H s. unfold manual_str_repeat in H. inv H. match type of H with context [parse_repeat_arg ?x] => set (e3 := x) in *; clearbody e3 end. destruct (parse_repeat_arg e3) as [a'|] eqn:P; [|discriminate H]. injection H as <-. apply same_eq. cbn [StrSpec.eval each].
    assert (L : (exists c, e3 = XLit (LChar c) /\ a' = XLit (LStr [c])) \/ (a' = e3 /\ stringish (ty_of e3) = true)).
    { unfold parse_repeat_arg in P. destruct e3; try (destruct (stringish _) eqn:T; [|discriminate P]; injection P as <-; auto). destruct l; try discriminate P; injection P as <-; eauto. }
    destruct L as [(c & -> & ->)|[-> T]].
    - cbn [StrSpec.eval lit_val bind apply]. destruct (eval _ s) as [[w|w| |] t]; try reflexivity. cbn [bind]. destruct w; try reflexivity. cbn [apply bind]. rewrite collected_char. reflexivity.
    - destruct (eval e3 s) as [[v|v| |] t] eqn:E; try reflexivity. destruct (stringish_val _ _ _ _ T E) as [x ->]. cbn [bind apply]. destruct (eval _ t) as [[w|w| |] t']; try reflexivity. cbn [bind]. destruct w; try reflexivity. cbn [apply bind]. rewrite collected_repeat. reflexivity.
  Qed.
  Theorem search_is_some_str_keeps e e' : search_is_some_str e = Some e' -> forall s, same (eval e' s) (eval e s).
  Proof.
    intros H s. unfold search_is_some_str in H. inv H; destruct (_ && _) eqn:T; try discriminate H; injection H as <-; apply same_eq; cbn [StrSpec.eval each];
      destruct (eval _ s) as [[v|v| |] t]; try reflexivity; cbn [bind]; destruct (eval _ t) as [[w|w| |] t']; try reflexivity; cbn [bind]; destruct v; try reflexivity; cbn [apply pat_pos skipn firstn pat_apply app]; destruct (pat_of w); try reflexivity; cbn; destruct (fwd _ _); reflexivity.
  Qed.
End Proofs.
