(** Splitting: a bounded split that is not exhausted, and a split in two. *)
From Verif Require Export StrModel.

(** Takes apart what a lint has looked at. *)
Ltac inv H := repeat (match type of H with context [match ?x with _ => _ end] => is_var x; destruct x; try discriminate H end).

Section Proofs.
  Context (wd : world).
  Notation eval := (eval wd).
  Notation st := (st wd).
  Notation keeps := (keeps wd).

  Lemma same_refl (a : out * st) : same wd a a.
  Proof. repeat split. Qed.

  (** ** Pieces *)
  Lemma pieces_nth c : forall n start ms s, n + 1 < c -> nth_error (pieces_n c start ms s) n = nth_error (pieces start ms s) n.
  Proof.
    induction c as [|c IH]; intros n start ms s L; [lia|]. destruct c as [|c]; [lia|]. cbn [pieces_n].
    destruct ms as [|[a b] ms]; [reflexivity|]. cbn [pieces]. destruct n as [|n]; [reflexivity|]. cbn [nth_error]. apply IH. lia.
  Qed.
  Lemma rpieces_nth c : forall n ms s, n + 1 < c -> nth_error (rpieces_n c ms s) n = nth_error (rpieces ms s) n.
  Proof.
    induction c as [|c IH]; intros n ms s L; [lia|]. destruct c as [|c]; [lia|]. cbn [rpieces_n].
    destruct ms as [|[a b] ms]; [reflexivity|]. cbn [rpieces]. destruct n as [|n]; [reflexivity|]. cbn [nth_error]. apply IH. lia.
  Qed.
  Lemma nth_val_map l l' n : nth_error l n = nth_error l' n -> nth_val (map VStr l) n = nth_val (map VStr l') n.
  Proof. intros E. unfold nth_val. rewrite !nth_error_map, E. reflexivity. Qed.
  Lemma nth_skip (vs : list val) n : nth_val (skipn n vs) 0 = nth_val vs n.
  Proof. unfold nth_val. revert vs. induction n as [|n IH]; intros [|v vs]; try reflexivity. apply IH. Qed.
  Lemma tuple_map l l' : nth_error l 0 = nth_error l' 0 -> nth_error l 1 = nth_error l' 1 ->
    match map VStr l with a :: b :: _ => VSome (VPair a b) | _ => VNone end = match map VStr l' with a :: b :: _ => VSome (VPair a b) | _ => VNone end.
  Proof. destruct l as [|a [|b l]], l' as [|a' [|b' l']]; cbn; intros E F; try discriminate; try reflexivity. injection E as ->. injection F as ->. reflexivity. Qed.
  (** What a split gives, by method. *)
  Definition splits (m : pmeth) (p : pat) (t : str) (n : nat) : list str :=
    match m with
    | SplitN => pieces_n n 0 (fwd p t) t
    | RSplitN => rpieces_n n (bwd p t) t
    | Split => pieces 0 (fwd p t) t
    | _ => rpieces (bwd p t) t
    end.
  Lemma splitn_shape e r n mk (s : st) : splitn_call e = Some (r, n, mk) ->
    (exists o s', (forall v, o <> OVal v) /\ eval e s = (o, s') /\ forall m, pat_pos m = 0 -> eval (mk m) s = (o, s')) \/
    (exists p t s', eval e s = (strs (splits (if r then RSplitN else SplitN) p t n), s') /\ forall m, pat_pos m = 0 -> eval (mk m) s = (pmeth_apply m p t [], s')).
  Proof.
    assert (OP : forall m' a b, (m' = SplitN \/ m' = RSplitN) ->
      (exists o s', (forall v, o <> OVal v) /\ eval (XOp (OPat m') [a; XLit (LNum n); b]) s = (o, s') /\ forall m, pat_pos m = 0 -> eval (XOp (OPat m) [a; b]) s = (o, s')) \/
      (exists p t s', eval (XOp (OPat m') [a; XLit (LNum n); b]) s = (strs (splits m' p t n), s') /\ forall m, pat_pos m = 0 -> eval (XOp (OPat m) [a; b]) s = (pmeth_apply m p t [], s'))).
    { intros m' a b M. cbn [StrSpec.eval each lit_val]. destruct (eval a s) as [[va|va| |] s1]; cbn [bind]; try (left; eexists; eexists; split; [|split; [reflexivity|reflexivity]]; discriminate).
      destruct (eval b s1) as [[vb|vb| |] s2]; cbn [bind]; try (left; eexists; eexists; split; [|split; [reflexivity|reflexivity]]; discriminate).
      assert (A : forall m, pat_pos m = 0 -> apply (OPat m) [va; vb] = pat_apply m va [] vb []) by (intros m E; cbn [apply]; rewrite E; reflexivity).
      destruct va as [| | | | |t| | | | |]; try (left; exists OStuck, s2; split; [discriminate|]; split; [destruct M as [-> | ->]; reflexivity|]; intros m E; rewrite (A m E); reflexivity).
      destruct (pat_of vb) as [p|] eqn:P.
      - right. exists p, t, s2. split; [destruct M as [-> | ->]; cbn [apply pat_pos skipn firstn pat_apply]; rewrite P; reflexivity|]. intros m E. rewrite (A m E). cbn [pat_apply]. rewrite P. reflexivity.
      - left. exists OStuck, s2. split; [discriminate|]. split; [destruct M as [-> | ->]; cbn [apply pat_pos skipn firstn pat_apply]; rewrite P; reflexivity|]. intros m E. rewrite (A m E). cbn [pat_apply]. rewrite P. reflexivity. }
    assert (CL : forall m' a c body, (m' = SplitN \/ m' = RSplitN) ->
      (exists o s', (forall v, o <> OVal v) /\ eval (XPred m' [a; XLit (LNum n)] c body []) s = (o, s') /\ forall m, pat_pos m = 0 -> eval (XPred m [a] c body []) s = (o, s')) \/
      (exists p t s', eval (XPred m' [a; XLit (LNum n)] c body []) s = (strs (splits m' p t n), s') /\ forall m, pat_pos m = 0 -> eval (XPred m [a] c body []) s = (pmeth_apply m p t [], s'))).
    { intros m' a c body M. cbn [StrSpec.eval each lit_val]. destruct (eval a s) as [[va|va| |] s1]; cbn [bind]; try (left; eexists; eexists; split; [|split; [reflexivity|reflexivity]]; discriminate).
      destruct (ok_vars _ _ _); [|left; exists OStuck, s1; split; [discriminate|]; split; reflexivity].
      destruct va as [| | | | |t| | | | |]; try (left; exists OStuck, s1; split; [discriminate|]; split; [reflexivity|]; intros m E; reflexivity). cbn zeta.
      match goal with |- context [if ?b then _ else _] => destruct b end; [|left; exists OStuck, s1; split; [discriminate|]; split; reflexivity].
      right. eexists. exists t, s1. split; [destruct M as [-> | ->]; reflexivity|]. intros m E. reflexivity. }
    intros H. destruct e as [| | |o es|m' pre c body post| | | | | | | | |]; try discriminate H.
    - cbn in H. inv H; injection H as <- <- <-; apply OP; auto.
    - cbn in H. inv H; injection H as <- <- <-; apply CL; auto.
  Qed.

  (** ** A use of an iterator depends on its first items only. *)
  Definition enough (k : usage_kind) (l l' : list str) : Prop :=
    match k with Nth n => nth_error l n = nth_error l' n | NextTuple => nth_error l 0 = nth_error l' 0 /\ nth_error l 1 = nth_error l' 1 end.
  Definition used (k : usage_kind) (l : list str) : val :=
    match k with Nth n => nth_val (map VStr l) n | NextTuple => match map VStr l with a :: b :: _ => VSome (VPair a b) | _ => VNone end end.
  Lemma used_enough k l l' : enough k l l' -> used k l = used k l'.
  Proof. destruct k; cbn; [apply nth_val_map|intros [A B]; apply tuple_map; assumption]. Qed.
  Definition unwrapped (u : option unwrap_kind) (v : val) : out :=
    match u with
    | None => OVal v
    | Some Unwrap => match v with VSome v => OVal v | VNone => OPanic | _ => OStuck end
    | Some QuestionMark => match v with VSome v => OVal v | VNone => ORet VNone | _ => OStuck end
    end.
  Lemma iter_use_shape e i k around : iter_use e = Some (i, k, around) -> e = around i /\
    forall (j : ex) (s : st), (forall o s', (forall v, o <> OVal v) -> eval j s = (o, s') -> eval (around j) s = (o, s')) /\
      (forall l s', eval j s = (strs l, s') -> eval (around j) s = (OVal (used k l), s')).
  Proof.
    assert (NX : forall (j : ex) (s : st), (forall o s', (forall v, o <> OVal v) -> eval j s = (o, s') -> eval (XOp ONext [j]) s = (o, s')) /\
      (forall l s', eval j s = (strs l, s') -> eval (XOp ONext [j]) s = (OVal (nth_val (map VStr l) 0), s'))).
    { intros j s. split.
      - intros o s' N E. cbn [StrSpec.eval each]. rewrite E. destruct o; try reflexivity. destruct (N v eq_refl).
      - intros l s' E. cbn [StrSpec.eval each]. rewrite E. reflexivity. }
    intros H. destruct e as [| | |o es| | | | | | | | | |]; try discriminate H. destruct o; try discriminate H; cbn in H.
    - destruct es as [|e [|]]; try discriminate H.
      + destruct e as [| | |o2 es2| | | | | | | | | |]; try (injection H as <- <- <-; split; [reflexivity|apply NX]).
        destruct o2; try (injection H as <- <- <-; split; [reflexivity|apply NX]).
        destruct es2 as [|a [|b r2]]; try (injection H as <- <- <-; split; [reflexivity|apply NX]).
        destruct b as [|[| | |n|]| | | | | | | | | | | |]; try (injection H as <- <- <-; split; [reflexivity|apply NX]).
        destruct r2; try (injection H as <- <- <-; split; [reflexivity|apply NX]).
        injection H as <- <- <-. split; [reflexivity|]. intros j s. split.
        * intros o s' N E. cbn [StrSpec.eval each]. rewrite E. destruct o; try reflexivity. destruct (N v eq_refl).
        * intros l s' E. cbn [StrSpec.eval each]. rewrite E. cbn [bind strs lit_val apply used]. rewrite nth_skip. reflexivity.
      + destruct e as [| | |o2 es2| | | | | | | | | |]; try discriminate H. destruct o2; try discriminate H. destruct es2 as [|a [|b r2]]; try discriminate H. destruct b as [|[]| | | | | | | | | | | |]; try discriminate H. destruct r2; discriminate H.
    - inv H. injection H as <- <- <-. split; [reflexivity|]. intros j s. split.
      + intros o s' N E. cbn [StrSpec.eval each]. rewrite E. destruct o; try reflexivity. destruct (N v eq_refl).
      + intros l s' E. cbn [StrSpec.eval each]. rewrite E. reflexivity.
    - destruct es as [|a [|]]; try discriminate H. injection H as <- <- <-. split; [reflexivity|]. intros j s. split.
      + intros o s' N E. cbn [StrSpec.eval each]. rewrite E. destruct o; try reflexivity. destruct (N v eq_refl).
      + intros l s' E. cbn [StrSpec.eval each]. rewrite E. reflexivity.
  Qed.
  Lemma usage_shape e i k u around : parse_iter_usage e = Some (i, k, u, around) -> e = around i /\
    forall (j : ex) (s : st), (forall o s', (forall v, o <> OVal v) -> eval j s = (o, s') -> eval (around j) s = (o, s')) /\
      (forall l s', eval j s = (strs l, s') -> eval (around j) s = (unwrapped u (used k l), s')).
  Proof.
    intros H. assert (PL : forall e i k around, iter_use e = Some (i, k, around) -> e = around i /\
      forall (j : ex) (s : st), (forall o s', (forall v, o <> OVal v) -> eval j s = (o, s') -> eval (around j) s = (o, s')) /\
      (forall l s', eval j s = (strs l, s') -> eval (around j) s = (unwrapped None (used k l), s'))).
    { intros e0 i0 k0 a0 H0. destruct (iter_use_shape _ _ _ _ H0) as [E F]. split; [exact E|]. intros j s. destruct (F j s) as [A B]. split; [exact A|exact B]. }
    assert (D : match iter_use e with Some (i, n, k) => Some (i, n, None, k) | None => None end = Some (i, k, u, around) -> e = around i /\
      forall (j : ex) (s : st), (forall o s', (forall v, o <> OVal v) -> eval j s = (o, s') -> eval (around j) s = (o, s')) /\
      (forall l s', eval j s = (strs l, s') -> eval (around j) s = (unwrapped u (used k l), s'))).
    { intros H0. destruct (iter_use e) as [[[i0 k0] a0]|] eqn:I; [|discriminate H0]. injection H0 as <- <- <- <-. exact (PL _ _ _ _ I). }
    destruct e as [| | |o es| |e0| | | | | | | |]; try exact (D H).
    - destruct o; try exact (D H). destruct es as [|e0 [|]]; try exact (D H). cbn in H. destruct (iter_use e0) as [[[i0 [n|]] a0]|] eqn:I; try discriminate H. injection H as <- <- <- <-. destruct (iter_use_shape _ _ _ _ I) as [-> F]. split; [reflexivity|].
      intros j s. destruct (F j s) as [A B]. split.
      + intros o s' N E. cbn [StrSpec.eval each]. rewrite (A o s' N E). destruct o; try reflexivity. destruct (N v eq_refl).
      + intros l s' E. cbn [StrSpec.eval each]. rewrite (B l s' E). cbn [bind used unwrapped]. destruct (nth_val (map VStr l) n) eqn:Q; unfold nth_val in Q; destruct (nth_error _ _); cbn in Q; try discriminate Q; reflexivity.
    - cbn in H. destruct (iter_use e0) as [[[i0 [n|]] a0]|] eqn:I; try discriminate H. injection H as <- <- <- <-. destruct (iter_use_shape _ _ _ _ I) as [-> F]. split; [reflexivity|].
      intros j s. destruct (F j s) as [A B]. split.
      + intros o s' N E. cbn [StrSpec.eval each]. rewrite (A o s' N E). destruct o; try reflexivity. destruct (N v eq_refl).
      + intros l s' E. cbn [StrSpec.eval each]. rewrite (B l s' E). reflexivity.
  Qed.

  Lemma tuple_plain e i u around : parse_iter_usage e = Some (i, NextTuple, u, around) -> u = None.
  Proof.
    assert (D : match iter_use e with Some (i, n, k) => Some (i, n, None, k) | None => None end = Some (i, NextTuple, u, around) -> u = None) by (destruct (iter_use e) as [[[]]|]; congruence).
    intros H. destruct e as [| | |o es| |e0| | | | | | | |]; try exact (D H).
    - destruct o; try exact (D H). destruct es as [|e0 [|]]; try exact (D H). cbn in H. destruct (iter_use e0) as [[[i0 [n|]] a0]|]; discriminate H.
    - cbn in H. destruct (iter_use e0) as [[[i0 [n|]] a0]|]; discriminate H.
  Qed.
  Lemma str_splitn_keeps e e' : str_splitn e = Some e' -> forall s, same wd (eval e' s) (eval e s).
  Proof.
    unfold str_splitn. intros H s. destruct (parse_iter_usage e) as [[[[i k] u] around]|] eqn:U; [|discriminate H]. destruct (splitn_call i) as [[[r count] mk]|] eqn:C; [|discriminate H].
    destruct (Nat.ltb_spec count 2); [discriminate H|]. destruct (usage_shape _ _ _ _ _ U) as [-> SH]. destruct (needless count k) eqn:ND.
    - injection H as <-. destruct (splitn_shape _ _ _ _ s C) as [(o & s' & N & E & F)|(p & t & s' & E & F)].
      + rewrite (proj1 (SH i s) o s' N E). rewrite (proj1 (SH (mk (if r then RSplit else Split)) s) o s' N); [apply same_refl|]. apply F. destruct r; reflexivity.
      + rewrite (proj2 (SH i s) _ s' E). assert (F' : eval (mk (if r then RSplit else Split)) s = (strs (splits (if r then RSplit else Split) p t 0), s')) by (rewrite F by (destruct r; reflexivity); destruct r; reflexivity).
        rewrite (proj2 (SH _ s) _ s' F'). rewrite (used_enough k _ (splits (if r then RSplitN else SplitN) p t count)); [apply same_refl|].
        destruct k as [n|]; unfold needless in ND; cbn [enough].
        * apply Nat.ltb_lt in ND. destruct r; unfold splits; symmetry; [apply rpieces_nth|apply pieces_nth]; exact ND.
        * apply Nat.ltb_lt in ND. destruct r; unfold splits; split; symmetry; (apply rpieces_nth || apply pieces_nth); lia.
    - destruct (Nat.eqb_spec count 2) as [->|]; [|discriminate H]. unfold check_manual_split_once in H.
      destruct (splitn_shape _ _ _ _ s C) as [(o & s' & N & E & F)|(p & t & s' & E & F)].
      + rewrite (proj1 (SH i s) o s' N E). specialize (F (if r then RSplitOnce else SplitOnce) ltac:(destruct r; reflexivity)).
        assert (Z : forall o1, eval (XOp o1 [mk (if r then RSplitOnce else SplitOnce)]) s = (o, s')) by (intros o1; cbn [StrSpec.eval each]; rewrite F; destruct o; try reflexivity; destruct (N v eq_refl)).
        destruct k as [[|[|n]]|]; try discriminate H.
        * destruct u as [[|]|]; injection H as <-.
          -- assert (Q : eval (XOp (OField (negb r)) [XOp OUnwrap [mk (if r then RSplitOnce else SplitOnce)]]) s = bind wd (eval (XOp OUnwrap [mk (if r then RSplitOnce else SplitOnce)]) s) (fun v s => (apply (OField (negb r)) [v], s))) by reflexivity.
             rewrite Q, Z. destruct o; try apply same_refl. destruct (N v eq_refl).
          -- cbn [StrSpec.eval each]. rewrite F. destruct o; try apply same_refl. destruct (N v eq_refl).
          -- rewrite Z. apply same_refl.
        * destruct r; injection H as <-; [rewrite Z|rewrite F]; apply same_refl.
      + rewrite (proj2 (SH i s) _ s' E). specialize (F (if r then RSplitOnce else SplitOnce) ltac:(destruct r; reflexivity)).
        destruct k as [[|[|n]]|]; try discriminate H.
        * destruct u as [[|]|]; injection H as <-; cbn [StrSpec.eval each]; rewrite F; destruct r; cbn [pmeth_apply bind splits pieces_n rpieces_n once of_opt negb]; match goal with |- context [fwd p t] => destruct (fwd p t) as [|[a b] ms] | |- context [bwd p t] => destruct (bwd p t) as [|[a b] ms] end; cbn [pieces_n rpieces_n]; rewrite ?Nat.sub_0_r; apply same_refl.
        * rewrite (tuple_plain _ _ _ _ U). destruct r; injection H as <-; cbn [StrSpec.eval each]; rewrite F; cbn [pmeth_apply bind splits pieces_n rpieces_n once of_opt negb]; match goal with |- context [fwd p t] => destruct (fwd p t) as [|[a b] ms] | |- context [bwd p t] => destruct (bwd p t) as [|[a b] ms] end; cbn [pieces_n rpieces_n]; rewrite ?Nat.sub_0_r; apply same_refl.
  Qed.
End Proofs.
