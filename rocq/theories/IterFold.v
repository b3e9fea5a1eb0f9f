(** `last` on a double-ended iterator, `fold` that is `any`, `all`, `sum` or `product`, and `collect` for a vector used once. *)
From Verif Require Export PickProofs3.
From Verif Require Export IterEnds.

(** ** Spec: iterators without effects.  From this state the iterator gives these items, from either end, and does nothing else. *)
Definition yields (w : world) (fuel : nat) (c : chain) (d : D c) (vs : list val) : Prop :=
  exists L : D c -> list val -> Prop, L d vs /\
  forall d vs, L d vs -> forall back s,
  match pop back vs with
  | Some (v, r) => exists d', pull w fuel back c d s = (PVal v, d', s) /\ L d' r
  | None => exists d', pull w fuel back c d s = (PEnd, d', s)
  end.
(** Started in [s], the chain is such an iterator, and there is fuel for its items. *)
Definition effectless (w : world) (fuel : nat) (c : chain) (s : state w) : Prop :=
  forall d s', start w fuel c s = (inl d, s') -> exists vs, yields w fuel c d vs /\ length vs < fuel.

(** The shape of a fold: `|acc, item| acc op e`, where [e] does not use [acc]; for sums `item op acc` as well. *)
Definition simple_fold (o : foldop) (f : arg) (e : expr) : Prop :=
  exists acc item b adj, f = AC [PBind false acc None; PBind false item None] b /\ acc <> item /\ clean b /\
  as_op o (peel_blocks b) = Some (EVar acc adj, e) /\ local_used acc e = false.
Definition is_boolean (w : world) (fuel : nat) (e : expr) : Prop :=
  forall s, match eval w fuel e s with (OVal v, _) | (ORet v, _) => exists b, v = VBool b | _ => True end.
Definition plain_bools (w : world) : Prop := forall b, adjust w (VBool b) = VBool b.
Definition simple_sum (o : foldop) (f : arg) : Prop :=
  (exists g, f = AP g) \/
  exists acc item b, f = AC [PBind false acc None; PBind false item None] b /\ acc <> item /\ clean b /\
  (as_op o (peel_blocks b) = Some (EVar acc false, EVar item false) \/ as_op o (peel_blocks b) = Some (EVar item false, EVar acc false)).
Definition commutative (w : world) : Prop := forall f a b x, f = f_add \/ f = f_mul -> call w f [a; b] x = call w f [b; a] x.
(** An expression without effects that always has a value. *)
Definition just_value (w : world) (fuel : nat) (a : expr) : Prop := forall s, exists u, eval w fuel a s = (OVal u, s).

Section Fold.
  Variable w : world.
  Variable fuel : nat.
  Notation st := (state w).
  Notation ev := (eval w fuel).
  Notation ie := (ieval w fuel).

  (** ** Consuming a list *)
  Fixpoint over (step : val -> val -> st -> (val + out) * st) (fin : val -> out) (vs : list val) (a : val) (s : st) : out * st :=
    match vs with
    | [] => (fin a, s)
    | v :: vs => match step a v s with (inl a, s) => over step fin vs a s | (inr o, s) => (o, s) end
    end.
  Lemma drive_over : forall c step fin n d vs a s, yields w fuel c d vs -> length vs < n ->
    drive w (pull w fuel false c) step fin n d a s = over step fin vs a s.
  Proof.
    intros c step fin n d vs a s (L & H & R). revert n d a s H. induction vs as [|v vs IH]; intros [|n] d a s H N; cbn in N; try lia; cbn.
    - destruct (R _ _ H false s) as (d' & ->). reflexivity.
    - destruct (R _ _ H false s) as (d' & -> & H'). destruct (step a v s) as [[b|o] t]; auto. apply IH; auto. lia.
  Qed.
  Lemma pop_last : forall vs, pop true vs = match vs with [] => None | v :: r => Some (last (v :: r) v, removelast (v :: r)) end.
  Proof.
    intros vs. destruct vs as [|v r]; [reflexivity|]. pose proof (@app_removelast_last _ (v :: r) v ltac:(discriminate)) as E.
    rewrite E at 1. unfold pop. rewrite rev_app_distr. cbn [rev app]. rewrite rev_involutive. reflexivity.
  Qed.
  Lemma over_last : forall vs a s, over (step w fuel CLast) (fin CLast) vs a s = (OVal (match vs with [] => a | v :: r => some_v (last (v :: r) v) end), s).
  Proof.
    induction vs as [|v vs IH]; intros a s; [reflexivity|]. cbn [over step]. rewrite IH. destruct vs as [|u vs]; auto.
    assert (E : forall (r : list val) x y z, last (x :: r) y = last (x :: r) z).
    { clear. induction r as [|t r IHr]; intros; auto. exact (IHr t y z). }
    f_equal. f_equal. f_equal. change (last (v :: u :: vs) v) with (last (u :: vs) v). apply E.
  Qed.
  Theorem double_ended_last_sound : forall e e', double_ended_last e = Some e' ->
    forall s, (forall c, e = IRun c CLast -> effectless w fuel c s) -> ie e' s = ie e s.
  Proof.
    intros [] e' H s Y; try discriminate. destruct k; try discriminate. injection H as <-. cbn -[drive step fin pop].
    specialize (Y _ eq_refl). unfold effectless in Y. destruct (start w fuel c s) as [[d|o] s1]; auto. destruct (Y _ _ eq_refl) as (vs & (Y1 & N)).
    cbn -[drive step fin pop]. rewrite (drive_over _ _ _ _ _ _ _ _ Y1 N), over_last. destruct Y1 as (L & H & R). specialize (R _ _ H true s1).
    rewrite pop_last in R. destruct vs as [|v vs].
    - destruct R as (d' & ->). reflexivity.
    - destruct R as (d' & -> & _). reflexivity.
  Qed.

  (** ** Folds *)
  Definition caught (r : out * st) : out * st := (match fst r with ORet v => OVal v | OBrk _ _ => OStuck | o => o end, snd r).
  Lemma apply_scoped : forall ps b vs bs s, bind_all ps vs = Some bs -> apply w fuel (AC ps b) vs s = caught (scoped w fuel bs b s).
  Proof. intros ps b vs bs s H. cbn [apply]. rewrite H. unfold scoped, caught. destruct (ev b (enter bs s)) as [[] t]; reflexivity. Qed.
  Lemma scoped_peel : forall b bs s, clean b -> scoped w fuel bs (peel_blocks b) s = scoped w fuel bs b s.
  Proof. intros b bs s H. unfold scoped. rewrite peel_eval; auto. Qed.

  Definition bool_of (o : foldop) : bool := match o with FAnd => true | _ => false end.
  Lemma op_go : forall o b l r s, as_op o b = Some (l, r) -> o = FOr \/ o = FAnd ->
    ev b s = andthen w (ev l s) (fun u s => match u with VBool x => if eqb x (bool_of o) then ev r s else (OVal u, s) | _ => (OStuck, s) end).
  Proof.
    intros o b l r s H [-> | ->]; destruct b; try discriminate; cbn in H.
    - injection H as -> ->. cbn. destruct (ev l s) as [[u| | | | |] t]; auto. destruct u as [|[]| | |]; auto.
    - destruct b3 as [[| |[]| | | | | | | | | | | | | | | | | |]|]; try discriminate. injection H as -> ->. cbn.
      destruct (ev l s) as [[u| | | | |] t]; auto. destruct u as [|[]| | |]; auto.
  Qed.
  Lemma simple_fold_step : forall o f e a v s acc item b adj, o = FOr \/ o = FAnd -> plain_bools w ->
    f = AC [PBind false acc None; PBind false item None] b -> acc <> item -> clean b ->
    as_op o (peel_blocks b) = Some (EVar acc adj, e) -> local_used acc e = false ->
    apply w fuel f [VBool a; v] s =
    (if eqb a (bool_of o) then apply w fuel (AC [PBind false item None] e) [v] s else (OVal (VBool a), s)).
  Proof.
    intros o f e a v s acc item b adj O P -> NE C A U.
    rewrite (apply_scoped _ _ _ [(acc, VBool a); (item, v)]) by reflexivity. rewrite <- scoped_peel by auto.
    assert (E : scoped w fuel [(acc, VBool a); (item, v)] (peel_blocks b) s =
                if eqb a (bool_of o) then scoped w fuel [(acc, VBool a); (item, v)] e s else (OVal (VBool a), s)).
    { unfold scoped. rewrite (op_go _ _ _ _ _ A O). cbn -[leave]. rewrite Nat.eqb_refl.
      assert ((if adj then adjust w (VBool a) else VBool a) = VBool a) as -> by (destruct adj; auto).
      cbn -[leave]. destruct (eqb a (bool_of o)); auto. f_equal. apply (leave_enter w [(acc, VBool a); (item, v)] s). }
    rewrite E. destruct (eqb a (bool_of o)); [|reflexivity].
    rewrite (apply_scoped _ _ _ [(item, v)]) by reflexivity. f_equal.
    apply (scoped_same w fuel (fun x => Nat.eqb x acc) [SL; SB]).
    - constructor; [apply Nat.eqb_refl|]. constructor. constructor.
    - intros x X. apply Nat.eqb_eq in X. subst. exact U.
  Qed.
  Lemma bool_closure : forall ps b vs s, is_boolean w fuel b ->
    match apply w fuel (AC ps b) vs s with (OVal v, _) => exists x, v = VBool x | _ => True end.
  Proof.
    intros ps b vs s B. cbn [apply]. destruct (bind_all ps vs) as [bs|]; auto. specialize (B (enter bs s)).
    destruct (ev b (enter bs s)) as [[] t]; auto.
  Qed.
  Lemma over_done : forall o f e vs s, (forall v s, apply w fuel f [VBool (negb (bool_of o)); v] s = (OVal (VBool (negb (bool_of o))), s)) ->
    over (step w fuel (CFold e f)) (fin (CFold e f)) vs (VBool (negb (bool_of o))) s = (OVal (VBool (negb (bool_of o))), s).
  Proof.
    intros o f e vs. induction vs as [|v vs IH]; intros s H; [reflexivity|]. cbn [over step]. rewrite H. cbn. apply IH; auto.
  Qed.
  Lemma simple_fold_over : forall o f e item k z, o = FOr \/ o = FAnd -> is_boolean w fuel e ->
    (forall a v s, apply w fuel f [VBool a; v] s =
      (if eqb a (bool_of o) then apply w fuel (AC [PBind false item None] e) [v] s else (OVal (VBool a), s))) ->
    k = folded o item e ->
    forall vs a s, over (step w fuel k) (fin k) vs a s = over (step w fuel (CFold z f)) (fin (CFold z f)) vs (VBool (bool_of o)) s.
  Proof.
    intros o f e item k z O B H ->. induction vs as [|v vs IH]; intros a s; [destruct O as [-> | ->]; reflexivity|].
    cbn [over]. assert (E : step w fuel (CFold z f) (VBool (bool_of o)) v s = asked w (apply w fuel (AC [PBind false item None] e) [v] s) (fun u s => (inl u, s))).
    { cbn [step]. rewrite H, eqb_reflx. reflexivity. }
    rewrite E. pose proof (bool_closure [PBind false item None] e [v] s B) as V.
    assert (N : forall s, apply w fuel f [VBool (negb (bool_of o)); v] s = (OVal (VBool (negb (bool_of o))), s)).
    { intros. rewrite H. destruct (bool_of o); reflexivity. }
    destruct O as [-> | ->]; cbn [folded step] in *; unfold test, asked;
      destruct (apply w fuel (AC [PBind false item None] e) [v] s) as [[u| | | | |] s1]; auto; destruct V as [[] ->]; cbn -[over].
    - symmetry. apply (over_done FOr). intros. rewrite H. reflexivity.
    - apply IH.
    - apply IH.
    - symmetry. apply (over_done FAnd). intros. rewrite H. reflexivity.
  Qed.
  Lemma fold_op_simple : forall o c f r e, fold_with_op o c f = Some r -> simple_fold o f e ->
    exists item, r = IRun c (folded o item e) /\ exists acc b adj, f = AC [PBind false acc None; PBind false item None] b /\ acc <> item /\ clean b /\
    as_op o (peel_blocks b) = Some (EVar acc adj, e) /\ local_used acc e = false.
  Proof.
    intros o c f r e H (acc & item & b & adj & -> & NE & C & A & U). exists item. cbn in H. rewrite A in H. unfold triggered in H. cbn in H.
    rewrite Nat.eqb_refl in H. cbn in H. split; [|exists acc, b, adj; auto 6].
    destruct (has_args o || is_local item e); cbn in H; [congruence|].
    destruct (is_local acc e) eqn:I; [|discriminate]. exfalso. destruct e; cbn in I, U; try discriminate. congruence.
  Qed.
  Theorem fold_bool_sound : forall c z f e', standard_fold (IRun c (CFold (EBool z) f)) = Some e' ->
    forall e, simple_fold (if z then FAnd else FOr) f e -> is_boolean w fuel e -> plain_bools w ->
    forall s, effectless w fuel c s -> ie e' s = ie (IRun c (CFold (EBool z) f)) s.
  Proof.
    intros c z f e' H e S B P s Y.
    assert (F : fold_with_op (if z then FAnd else FOr) c f = Some e') by (destruct z; exact H). clear H.
    destruct (fold_op_simple _ _ _ _ _ F S) as (item & -> & acc & b & adj & E & NE & C & A & U).
    unfold effectless in Y. cbn -[drive step fin folded apply consume init]. destruct (start w fuel c s) as [[d|o] s1]; auto. destruct (Y _ _ eq_refl) as (vs & Y1 & N).
    set (o := if z then FAnd else FOr) in *. assert (O : o = FOr \/ o = FAnd) by (destruct z; auto).
    assert (I : andthen w (init w fuel (folded o item e) s1) (fun a s => consume w fuel (folded o item e) (fun b => pull w fuel b c) d a s) =
                drive w (pull w fuel false c) (step w fuel (folded o item e)) (fin (folded o item e)) fuel d (VInt 0) s1)
      by (destruct O as [-> | ->]; reflexivity).
    rewrite I. cbn -[drive step fin folded apply]. rewrite !(drive_over _ _ _ _ _ _ _ _ Y1 N).
    replace (VBool z) with (VBool (bool_of o)) by (destruct z; reflexivity).
    apply (simple_fold_over o f e item); auto. intros a v t. eapply simple_fold_step; eauto.
  Qed.

  Lemma fold_drive : forall c k z f n d a s, (forall a v s, step w fuel (CFold z f) a v s = step w fuel k a v s) -> (forall a, fin k a = OVal a) ->
    drive w (pull w fuel false c) (step w fuel k) (fin k) n d a s = drive w (pull w fuel false c) (step w fuel (CFold z f)) (fin (CFold z f)) n d a s.
  Proof.
    intros c k z f n d a s E F. revert d a s. induction n; intros d a s; cbn [drive]; auto.
    destruct (pull w fuel false c d s) as [[[v| |o] d1] s1]; auto.
    - rewrite E. destruct (step w fuel k a v s1) as [[b|o] t]; auto.
    - rewrite F. reflexivity.
  Qed.
  Definition fn_of (o : foldop) : nat := match o with FMul => f_mul | _ => f_add end.
  Lemma sum_step : forall o f a v s, o = FAdd \/ o = FMul -> simple_sum o f -> commutative w -> (forall g, f = AP g -> g = PFn (fn_of o)) ->
    apply w fuel f [a; v] s = calls w (fn_of o) [a; v] s.
  Proof.
    intros o f a v s O [[g ->]|(acc & item & b & -> & NE & C & A)] M G; [rewrite (G _ eq_refl); reflexivity|].
    rewrite (apply_scoped _ _ _ [(acc, a); (item, v)]) by reflexivity. rewrite <- scoped_peel by auto. unfold scoped.
    assert (K : forall l r, as_op o (peel_blocks b) = Some (l, r) -> peel_blocks b = ECall (fn_of o) [l; r]).
    { intros l r K. destruct O as [-> | ->]; destruct (peel_blocks b); try discriminate; cbn in K;
        destruct es as [|? [|? [|]]]; try discriminate; unfold given in K; match goal with K : context [?x =? ?y] |- _ => destruct (Nat.eqb_spec x y); [|discriminate] end;
        injection K as -> ->; subst; reflexivity. }
    assert (NE2 : (item =? acc) = false) by (apply Nat.eqb_neq; auto).
    destruct A as [A|A]; rewrite (K _ _ A); cbn -[leave calls]; repeat (rewrite ?Nat.eqb_refl, ?NE2; cbn -[leave calls]); unfold calls; cbn [snd fst enter].
    2: rewrite (M (fn_of o) v a) by (destruct O as [-> | ->]; cbn; auto).
    all: destruct (call w (fn_of o) [a; v] (snd s)) as [x y]; unfold caught; cbn -[leave];
      f_equal; [destruct x; reflexivity|]; apply (leave_enter w [(acc, a); (item, v)] (fst s, y)).
  Qed.
  Lemma fold_method_path : forall o c f r, fold_with_method o c f = Some r -> (o = FAdd \/ o = FMul) ->
    f = AP (PFn (fn_of o)) /\ r = IRun c (folded o 0 (EInt 0)).
  Proof.
    intros o c f r H [-> | ->]; destruct f as [| |[]]; try discriminate; cbn in H; unfold given in H;
      match goal with K : context [?x =? ?y] |- _ => destruct (Nat.eqb_spec x y); [|discriminate] end; injection H as <-; subst; auto.
  Qed.
  Lemma fold_sum : forall o c f r z, o = FAdd \/ o = FMul ->
    match fold_with_op o c f with Some r => Some r | None => fold_with_method o c f end = Some r ->
    z = EInt (match o with FMul => 1 | _ => 0 end) -> simple_sum o f -> commutative w -> forall s, ie r s = ie (IRun c (CFold z f)) s.
  Proof.
    intros o c f r z O H -> S M s.
    assert (K : r = IRun c (folded o 0 (EInt 0)) /\ forall g, f = AP g -> g = PFn (fn_of o)).
    { destruct (fold_with_op o c f) as [r'|] eqn:F.
      - injection H as <-. unfold fold_with_op in F. destruct f as [|[|p [|q []]] b|]; try discriminate. split; [|discriminate].
        destruct (strip_refs p); try discriminate. destruct (strip_refs q); try discriminate. destruct (as_op o (peel_blocks b)) as [[l r0]|]; try discriminate.
        destruct (triggered o x x0 l r0); [|discriminate]. injection F as <-. destruct O as [-> | ->]; reflexivity.
      - destruct (fold_method_path _ _ _ _ H O) as [-> ->]. split; auto. congruence. }
    destruct K as [-> G]. pose proof (fun a v t => sum_step o f a v t O S M G) as ST.
    cbn -[drive step fin apply folded init consume]. destruct (start w fuel c s) as [[d|?] s1]; auto.
    destruct O as [-> | ->]; cbn -[drive step fin apply]; apply fold_drive; auto; intros a v t; cbn [step]; rewrite ST; reflexivity.
  Qed.
  Theorem fold_number_sound : forall c z f e', standard_fold (IRun c (CFold (EInt z) f)) = Some e' ->
    simple_sum (if Z.eqb z 0 then FAdd else FMul) f -> commutative w -> forall s, ie e' s = ie (IRun c (CFold (EInt z) f)) s.
  Proof.
    intros c z f e' H S M s. cbn [standard_fold] in H. destruct (Z.eqb_spec z 0) as [->|].
    - apply (fold_sum FAdd); auto.
    - destruct (Z.eqb_spec z 1) as [->|]; [|discriminate]. apply (fold_sum FMul); auto.
  Qed.

  (** ** Vectors used once *)
  Lemma over_collect : forall vs us s, over (step w fuel CCollect) (fin CCollect) vs (VData KArr us) s = (OVal (VData KArr (us ++ vs)), s).
  Proof.
    induction vs as [|v vs IH]; intros us s; cbn [over step]; [rewrite app_nil_r; reflexivity|]. rewrite IH, <- app_assoc. reflexivity.
  Qed.
  Definition counted (o o' : out) : Prop :=
    match o with OVal (VData KArr vs) => o' = OVal (VInt (Z.of_nat (length vs))) | OVal _ => False | _ => o = o' end.
  Lemma collect_count : forall c s, snd (ie (IRun c CCollect) s) = snd (ie (IRun c CCount) s) /\ counted (fst (ie (IRun c CCollect) s)) (fst (ie (IRun c CCount) s)).
  Proof.
    intros c s. cbn -[drive step fin]. destruct (start w fuel c s) as [[d|o] s1] eqn:S.
    2: { pose proof (start_noval _ _ _ _ _ _ S) as V. split; auto. cbn. destruct o; cbn; auto. destruct (V v eq_refl). }
    cbn -[drive step fin]. apply drive_rel with (Q := fun a a' => exists vs, a = VData KArr vs /\ a' = VInt (Z.of_nat (length vs))).
    - intros. apply pull_noval.
    - intros a a' v s2 (vs & -> & ->). cbn. split; auto. exists (vs ++ [v]). split; auto. rewrite app_length. cbn. f_equal. lia.
    - intros a a' (vs & -> & ->). reflexivity.
    - intros o V. destruct o; cbn; auto. destruct (V v eq_refl).
    - exists []. auto.
  Qed.
  Theorem needless_collect_len_sound : forall x c e', needless_collect x (IVec QLen (IRun c CCollect)) = Some e' ->
    forall s, ie e' s = ie (IVec QLen (IRun c CCollect)) s.
  Proof.
    intros x c e' H s. injection H as <-. destruct (collect_count c s) as [E K].
    change (ie (IVec QLen (IRun c CCollect)) s) with
      (andthen w (ie (IRun c CCollect) s) (fun v s => match v with VData KArr vs => query w fuel QLen vs s | _ => (OStuck, s) end)).
    destruct (ie (IRun c CCollect) s) as [o1 s1], (ie (IRun c CCount) s) as [o2 s2]. cbn in E. subst s2.
    destruct o1 as [v| | | | |]; cbn in K |- *; subst; auto. destruct v as [| |[]| |]; try tauto. subst. reflexivity.
  Qed.
  Lemma collect_yields : forall c d vs s s1, start w fuel c s = (inl d, s1) -> yields w fuel c d vs -> length vs < fuel ->
    ie (IRun c CCollect) s = (OVal (VData KArr vs), s1).
  Proof.
    intros c d vs s s1 S Y N. cbn -[drive step fin]. rewrite S. cbn -[drive step fin]. rewrite (drive_over _ _ _ _ _ _ _ _ Y N), over_collect. reflexivity.
  Qed.
  Lemma nth_yields : forall c n d vs s, yields w fuel c d vs ->
    first w (advance w (pull w fuel false c) n d s) = (OVal (match nth_error vs n with Some v => some_v v | None => none_v end), s).
  Proof.
    intros c n d vs s (L & H & R). revert d vs s H. induction n; intros d vs s H; specialize (R _ _ H false s) as R1; cbn -[pop] in R1 |- *; destruct vs as [|v vs]; cbn in R1.
    - destruct R1 as (d' & ->). reflexivity.
    - destruct R1 as (d' & -> & _). reflexivity.
    - destruct R1 as (d' & ->). reflexivity.
    - destruct R1 as (d' & -> & H'). cbn. apply IHn; auto.
  Qed.
  Lemma any_over : forall x a u vs (s : st), local_used x a = false -> (forall s' : st, snd s' = snd s -> fst s' = fst s -> ev a s' = (OVal u, s')) ->
    over (step w fuel (CAny (AC [PBind false x None] (EEq false (EVar x false) a)))) (fin (CAny (AC [PBind false x None] (EEq false (EVar x false) a)))) vs (VInt 0) s =
    (OVal (VBool (existsb (fun v => value_eq w v u) vs)), s).
  Proof.
    intros x a u vs s U E. induction vs as [|v vs IH]; [reflexivity|]. cbn [over].
    assert (A : apply w fuel (AC [PBind false x None] (EEq false (EVar x false) a)) [v] s = (OVal (VBool (value_eq w v u)), s)).
    { rewrite (apply_scoped _ _ _ [(x, v)]) by reflexivity.
      assert (G : scoped w fuel [(x, v)] a s = (OVal u, s)).
      { rewrite (scoped_unused w fuel (fun y => Nat.eqb y x)); auto.
        - intros y [<-|[]]. apply Nat.eqb_refl.
        - intros y Y. apply Nat.eqb_eq in Y. subst. exact U. }
      unfold scoped in *. destruct (ev a (enter [(x, v)] s)) as [o t] eqn:T. injection G as -> G.
      assert (EV : ev (EEq false (EVar x false) a) (enter [(x, v)] s) = (OVal (VBool (value_eq w v u)), t)).
      { change (ev (EEq false (EVar x false) a) (enter [(x, v)] s)) with
          (andthen w (ev (EVar x false) (enter [(x, v)] s)) (fun u s => andthen w (ev a s) (fun v s => (OVal (VBool (xorb false (value_eq w u v))), s)))).
        assert (ev (EVar x false) (enter [(x, v)] s) = (OVal v, enter [(x, v)] s)) as -> by (cbn; rewrite Nat.eqb_refl; reflexivity).
        cbn [andthen]. rewrite T. cbn [andthen]. destruct (value_eq w v u); reflexivity. }
      rewrite EV. unfold caught. cbn [fst snd]. rewrite G. reflexivity. }
    cbn [step]. unfold test, asked. rewrite A. cbn [existsb]. destruct (value_eq w v u); cbn [orb]; auto.
  Qed.
  Theorem needless_collect_sound : forall x e e', needless_collect x e = Some e' ->
    forall s, (forall q c, e = IVec q (IRun c CCollect) -> effectless w fuel c s) ->
    (forall a c, e = IVec (QContains a) (IRun c CCollect) -> local_used x a = false /\ just_value w fuel a) -> ie e' s = ie e s.
  Proof.
    intros x e e' H s Y P. destruct e as [| | |q e| |]; try discriminate. destruct e as [c k| | | | |]; try (destruct q; discriminate).
    assert (k = CCollect) as -> by (destruct q, k; try discriminate; reflexivity). specialize (Y _ _ eq_refl).
    change (ie (IVec q (IRun c CCollect)) s) with
      (andthen w (ie (IRun c CCollect) s) (fun v s => match v with VData KArr vs => query w fuel q vs s | _ => (OStuck, s) end)).
    destruct (start w fuel c s) as [[d|o] s1] eqn:S.
    2: { assert (E : forall k, ie (IRun c k) s = (o, s1)) by (intros; cbn [ieval]; rewrite S; reflexivity). rewrite E.
         pose proof (start_noval _ _ _ _ _ _ S) as V.
         assert (Z : forall k, andthen w (o, s1) k = (o, s1)) by (intros; destruct o; auto; destruct (V v eq_refl)).
         rewrite Z. destruct q; injection H as <-; cbn [ieval]; rewrite S; auto. }
    destruct (Y _ _ S) as (vs & Y1 & N). rewrite (collect_yields _ _ _ _ _ S Y1 N). cbn [andthen].
    destruct q as [| |a|i]; injection H as <-.
    - cbn -[drive step fin query]. rewrite S. cbn -[drive step fin query]. rewrite (drive_over _ _ _ _ _ _ _ _ Y1 N). cbn [query].
      assert (G : forall vs k, (0 <= k)%Z -> over (step w fuel CCount) (fin CCount) vs (VInt k) s1 = (OVal (VInt (k + Z.of_nat (length vs))%Z), s1)).
      { clear. induction vs as [|v vs IH]; intros k K; cbn [over step num length]; [rewrite Z.add_0_r; reflexivity|].
        rewrite IH by lia. replace (k + Z.of_nat (S (length vs)))%Z with (Z.succ k + Z.of_nat (length vs))%Z by lia. reflexivity. }
      rewrite G by lia. reflexivity.
    - cbn -[pop]. rewrite S. cbn -[pop]. destruct Y1 as (L & H & R). specialize (R _ _ H false s1). destruct vs as [|v vs]; cbn in R.
      + destruct R as (d' & ->). reflexivity.
      + destruct R as (d' & -> & _). reflexivity.
    - destruct (P _ _ eq_refl) as [U J]. destruct (J s1) as [u EU]. cbn -[drive step fin query]. rewrite S. cbn -[drive step fin query]. rewrite (drive_over _ _ _ _ _ _ _ _ Y1 N).
      rewrite (any_over x a u); auto.
      + cbn. rewrite EU. reflexivity.
      + intros s' A B. assert (s' = s1) as -> by (destruct s', s1; cbn in *; congruence). exact EU.
    - cbn -[advance first method]. rewrite S. cbn -[advance first method]. destruct (ev i s1) as [[u| | | | |] s2]; auto. cbn -[advance first method].
      destruct (usize u) as [n|]; auto. rewrite (nth_yields c n d vs s2 Y1). cbn. destruct (nth_error vs n); reflexivity.
  Qed.

  (** ** Chains that are effectless *)
  Lemma src_yields : forall r e vs, yields w fuel (ISrc r e) (SList vs) vs.
  Proof.
    intros r e vs. exists (fun d vs => d = SList vs). split; auto. intros d us -> back s. cbn. destruct (pop back us) as [[v q]|]; eauto.
  Qed.
  Lemma pop_map : forall f b vs, pop b (map f vs) = option_map (fun p => (f (fst p), map f (snd p))) (pop b vs).
  Proof.
    intros f [] vs; cbn; [|destruct vs; reflexivity]. rewrite <- map_rev. destruct (rev vs); cbn; auto. rewrite map_rev. reflexivity.
  Qed.
  Lemma map_yields : forall f g c d vs, (forall v s, apply w fuel f [v] s = (OVal (g v), s)) -> yields w fuel c d vs ->
    yields w fuel (IMap f c) d (map g vs).
  Proof.
    intros f g c d vs A (L & H & R). exists (fun d us => exists vs, us = map g vs /\ L d vs). split; [eauto|].
    intros d1 us (vs1 & -> & H1) back s. rewrite pop_map. specialize (R _ _ H1 back s). destruct (pop back vs1) as [[v q]|]; cbn.
    - destruct R as (d' & -> & H'). cbn. rewrite A. cbn. exists d'. split; eauto.
    - destruct R as (d' & ->). cbn. eauto.
  Qed.
  Lemma pop_rev : forall b vs, pop b (rev vs) = option_map (fun p => (fst p, rev (snd p))) (pop (negb b) vs).
  Proof.
    intros [] vs; unfold pop; cbn [negb]; rewrite ?rev_involutive; [destruct vs; reflexivity|]. destruct (rev vs); cbn; rewrite ?rev_involutive; reflexivity.
  Qed.
  Lemma rev_yields : forall c d vs, yields w fuel c d vs -> yields w fuel (IRev c) d (rev vs).
  Proof.
    intros c d vs (L & H & R). exists (fun d us => exists vs, us = rev vs /\ L d vs). split; [eauto|].
    intros d1 us (vs1 & -> & H1) back s. rewrite pop_rev. specialize (R _ _ H1 (negb back) s). destruct (pop (negb back) vs1) as [[v q]|]; cbn.
    - destruct R as (d' & -> & H'). exists d'. split; eauto.
    - destruct R as (d' & ->). eauto.
  Qed.
End Fold.
