From Coq Require Import List ZArith Bool PeanoNat Lia.
Import ListNotations.
From Verif Require Import BshSpec BshModel.

Lemma mem_in x l : mem x l = true <-> In x l.
Proof.
  unfold mem. rewrite existsb_exists. split; [intros (y & H & E)|intros H; exists x; split; [exact H|apply Nat.eqb_refl]].
  apply Nat.eqb_eq in E. subst. exact H.
Qed.
Lemma mem_nin x l : mem x l = false <-> ~ In x l.
Proof. rewrite <- mem_in. destruct (mem x l); split; intros; congruence. Qed.
Lemma eqb_true {A} (dec : forall a b : A, {a = b} + {a <> b}) a b : eqb dec a b = true -> a = b.
Proof. unfold eqb. destruct (dec a b); congruence. Qed.

Notation dom := (map fst).
Lemma dom_assign x v m : dom (assign x v m) = dom m.
Proof. induction m as [|[y w] m IH]; [reflexivity|]. cbn. destruct (Nat.eqb y x); cbn; [reflexivity|]. rewrite IH. reflexivity. Qed.
Lemma assign_l x v l r : In x (dom l) -> assign x v (l ++ r) = assign x v l ++ r.
Proof.
  induction l as [|[y w] l IH]; [easy|]. cbn. intros [E|H]; destruct (Nat.eqb_spec y x) as [|N]; try reflexivity; [easy|].
  rewrite (IH H). reflexivity.
Qed.
Lemma assign_r x v l r : ~ In x (dom l) -> assign x v (l ++ r) = l ++ assign x v r.
Proof.
  induction l as [|[y w] l IH]; [reflexivity|]. cbn. intros N. destruct (Nat.eqb_spec y x) as [E|E]; [tauto|].
  rewrite IH by tauto. reflexivity.
Qed.
Lemma assign_none x v l : ~ In x (dom l) -> assign x v l = l.
Proof.
  induction l as [|[y w] l IH]; [reflexivity|]. cbn. intros N. destruct (Nat.eqb_spec y x) as [E|E]; [tauto|].
  rewrite IH by tauto. reflexivity.
Qed.
Lemma lookup_l x l r : In x (dom l) -> lookup x (l ++ r) = lookup x l.
Proof.
  induction l as [|[y w] l IH]; [easy|]. cbn. intros [E|H]; destruct (Nat.eqb_spec y x); try reflexivity; [easy|]. exact (IH H).
Qed.
Lemma lookup_r x l r : ~ In x (dom l) -> lookup x (l ++ r) = lookup x r.
Proof.
  induction l as [|[y w] l IH]; [reflexivity|]. cbn. intros N. destruct (Nat.eqb_spec y x) as [E|E]; [tauto|]. apply IH. tauto.
Qed.
Lemma lookup_other x y v m : x <> y -> lookup x (assign y v m) = lookup x m.
Proof.
  intros N. induction m as [|[z w] m IH]; [reflexivity|]. cbn. destruct (Nat.eqb_spec z y) as [->|E]; cbn.
  - destruct (Nat.eqb_spec y x); congruence.
  - rewrite IH. reflexivity.
Qed.
Lemma leave_app n l r : length r = n -> leave n (l ++ r) = r.
Proof.
  intros <-. unfold leave. rewrite app_length. replace (length l + length r - length r)%nat with (length l) by lia.
  rewrite skipn_app, skipn_all, Nat.sub_diag. reflexivity.
Qed.
Lemma leave_all m : leave (length m) m = m.
Proof. apply (leave_app (length m) [] m). reflexivity. Qed.
Lemma dom_length (a b : env) : dom a = dom b -> length a = length b.
Proof. intros E. rewrite <- (map_length fst a), E. apply map_length. Qed.

Section R.
Variable op : nat -> Z -> Z -> Z.
Variable calls changes : nat -> Z -> trace -> Z.
Notation eval := (eval op calls changes).
Notation step := (step op calls changes).
Notation steps := (steps op calls changes).
Notation run_block := (run_block op calls changes).
Notation run_if := (run_if op calls changes).
Notation run_match := (run_match op calls changes).
Notation run_around := (run_around op calls changes).

(* Variables stay, and only those that are changed get another value. *)
Lemma eval_dom e m h v m' h' : eval e m h = (v, m', h') ->
  dom m' = dom m /\ forall x, ~ In x (changed e) -> lookup x m' = lookup x m.
Proof.
  revert m h v m' h'. induction e as [z|y|o a IHa b IHb|f a IHa|f y]; intros m h v m' h'; cbn.
  - intros E; injection E as <- <- <-; split; auto.
  - intros E; injection E as <- <- <-; split; auto.
  - destruct (eval a m h) as [[u m1] h1] eqn:Ea. destruct (eval b m1 h1) as [[w m2] h2] eqn:Eb.
    intros E; injection E as <- <- <-.
    destruct (IHa _ _ _ _ _ Ea) as (D1 & L1). destruct (IHb _ _ _ _ _ Eb) as (D2 & L2).
    split; [congruence|]. intros x N. rewrite in_app_iff in N. rewrite L2, L1 by tauto. reflexivity.
  - destruct (eval a m h) as [[u m1] h1] eqn:Ea. intros E; injection E as <- <- <-. exact (IHa _ _ _ _ _ Ea).
  - intros E; injection E as <- <- <-. split; [apply dom_assign|]. intros x N. apply lookup_other. intros ->. apply N. left. reflexivity.
Qed.

Lemma pure_eval e : pure e = true -> forall m h, exists v, eval e m h = (v, m, h) /\
  forall m2 h2, (forall x, In x (names e) -> lookup x m2 = lookup x m) -> eval e m2 h2 = (v, m2, h2).
Proof.
  induction e as [z|y|o a IHa b IHb|f a IHa|f y]; cbn; intros P m h; try discriminate P.
  - exists z. auto.
  - exists (lookup y m). split; [reflexivity|]. intros m2 h2 L. rewrite L; auto.
  - apply andb_prop in P as (Pa & Pb). destruct (IHa Pa m h) as (u & Ea & La). destruct (IHb Pb m h) as (w & Eb & Lb).
    exists (op o u w). rewrite Ea, Eb. split; [reflexivity|]. intros m2 h2 L.
    rewrite La, Lb; [reflexivity| |]; intros; apply L, in_or_app; auto.
Qed.

(* Two environments that differ in variables in the middle that are not used *)
Definition out_of_sight (l ext : env) (xs : list name) := forall x, In x xs -> In x (dom l) \/ ~ In x (dom ext).
Lemma lookup_mid x l ext o : In x (dom l) \/ ~ In x (dom ext) -> lookup x (l ++ ext ++ o) = lookup x (l ++ o).
Proof.
  intros S. destruct (in_dec Nat.eq_dec x (dom l)) as [H|H].
  - rewrite !lookup_l by exact H. reflexivity.
  - rewrite !lookup_r by tauto. reflexivity.
Qed.
Lemma assign_mid x v l ext o : In x (dom l) \/ ~ In x (dom ext) ->
  exists l' o', assign x v (l ++ ext ++ o) = l' ++ ext ++ o' /\ assign x v (l ++ o) = l' ++ o' /\ dom l' = dom l /\ dom o' = dom o.
Proof.
  intros S. destruct (in_dec Nat.eq_dec x (dom l)) as [H|H].
  - exists (assign x v l), o. rewrite !assign_l by exact H. rewrite dom_assign. auto.
  - exists l, (assign x v o). rewrite !assign_r by tauto. rewrite dom_assign. auto.
Qed.
Lemma eval_mid e : forall l ext o h, out_of_sight l ext (names e) ->
  exists v l' o' h', eval e (l ++ ext ++ o) h = (v, l' ++ ext ++ o', h') /\ eval e (l ++ o) h = (v, l' ++ o', h') /\
    dom l' = dom l /\ dom o' = dom o.
Proof.
  induction e as [z|y|o a IHa b IHb|f a IHa|f y]; intros l ext r h S; cbn in *.
  - exists z, l, r, h. auto.
  - rewrite lookup_mid by (apply S; cbn; auto). eexists _, l, r, h. auto.
  - destruct (IHa l ext r h) as (u & l1 & r1 & h1 & E1 & E2 & D1 & D2). { intros x H; apply S, in_or_app; auto. }
    destruct (IHb l1 ext r1 h1) as (w & l2 & r2 & h2 & E3 & E4 & D3 & D4).
    { intros x H. rewrite D1. apply S, in_or_app; auto. }
    rewrite E1, E3, E2, E4. eexists _, l2, r2, h2. repeat split; congruence.
  - destruct (IHa l ext r h S) as (u & l1 & r1 & h1 & E1 & E2 & D1 & D2). rewrite E1, E2. eexists _, l1, r1, _. auto.
  - rewrite lookup_mid by (apply S; cbn; auto).
    destruct (assign_mid y (changes f (lookup y (l ++ r)) h) l ext r) as (l' & r' & E1 & E2 & D1 & D2). { apply S; cbn; auto. }
    rewrite E1, E2. eexists _, l', r', _. auto.
Qed.
(* Statements that only use such variables *)
Definition visible (own : list name) (l : list stmt) (t : list name) :=
  (forall a s b, l = a ++ s :: b -> resolves own a (used s) = true) /\ resolves own l t = true.
Lemma resolves_sight own acc xs l ext : resolves own acc xs = true -> incl (dom ext) own -> incl (bound acc) (dom l) ->
  out_of_sight l ext xs.
Proof.
  intros R I A x H. unfold resolves in R. rewrite forallb_forall in R. specialize (R x H).
  apply orb_prop in R as [R|R].
  - right. intros D. apply I in D. apply mem_in in D. rewrite D in R. discriminate R.
  - left. apply A. apply mem_in. exact R.
Qed.
Lemma bound_app a b : bound (a ++ b) = bound a ++ bound b.
Proof. apply flat_map_app. Qed.
Lemma steps_mid own ext : incl (dom ext) own -> forall todo acc l o h,
  (forall a s b, acc ++ todo = a ++ s :: b -> resolves own a (used s) = true) ->
  incl (bound acc) (dom l) ->
  match steps todo (l ++ ext ++ o) h with
  | Ret v h' => steps todo (l ++ o) h = Ret v h'
  | Go m1 h' => exists l' o', m1 = l' ++ ext ++ o' /\ steps todo (l ++ o) h = Go (l' ++ o') h' /\
      incl (bound (acc ++ todo)) (dom l') /\ dom o' = dom o
  end.
Proof.
  intros I. induction todo as [|s todo IH]; intros acc l o h V A; cbn [BshSpec.steps].
  - exists l, o. rewrite app_nil_r. auto.
  - assert (S : out_of_sight l ext (used s)) by (eapply resolves_sight; [apply (V acc s todo eq_refl)|exact I|exact A]).
    assert (V' : forall a t b, (acc ++ [s]) ++ todo = a ++ t :: b -> resolves own a (used t) = true)
      by (intros a t b; rewrite <- app_assoc; apply V).
    replace (acc ++ s :: todo) with ((acc ++ [s]) ++ todo) by (rewrite <- app_assoc; reflexivity).
    destruct s as [x e|x e|e|e]; cbn [BshSpec.step used] in *.
    + destruct (eval_mid e l ext o h S) as (v & l1 & o1 & h1 & E1 & E2 & D1 & D2). rewrite E1, E2.
      specialize (IH (acc ++ [SLet x e]) ((x, v) :: l1) o1 h1 V'). cbn [app] in IH.
      assert (A' : incl (bound (acc ++ [SLet x e])) (dom ((x, v) :: l1))).
      { rewrite bound_app. cbn. intros y H. apply in_app_or in H as [H|[H|[]]]; [right; rewrite D1; apply A, H|left; exact H]. }
      specialize (IH A'). destruct (steps todo _ h1).
      * destruct IH as (l' & o' & Em & Es & B & D). exists l', o'. repeat split; auto; try congruence.
      * exact IH.
    + destruct (eval_mid e l ext o h) as (v & l1 & o1 & h1 & E1 & E2 & D1 & D2). { intros y H; apply S; right; exact H. }
      rewrite E1, E2. destruct (assign_mid x v l1 ext o1) as (l2 & o2 & E3 & E4 & D3 & D4). { rewrite D1. apply S. left. reflexivity. }
      rewrite E3, E4. specialize (IH (acc ++ [SSet x e]) l2 o2 h1 V').
      assert (A' : incl (bound (acc ++ [SSet x e])) (dom l2)). { rewrite bound_app, D3, D1. cbn. rewrite app_nil_r. exact A. }
      specialize (IH A'). destruct (steps todo _ h1).
      * destruct IH as (l' & o' & Em & Es & B & D). exists l', o'. repeat split; auto; try congruence.
      * exact IH.
    + destruct (eval_mid e l ext o h S) as (v & l1 & o1 & h1 & E1 & E2 & D1 & D2). rewrite E1, E2.
      specialize (IH (acc ++ [SExpr e]) l1 o1 h1 V').
      assert (A' : incl (bound (acc ++ [SExpr e])) (dom l1)). { rewrite bound_app, D1. cbn. rewrite app_nil_r. exact A. }
      specialize (IH A'). destruct (steps todo _ h1).
      * destruct IH as (l' & o' & Em & Es & B & D). exists l', o'. repeat split; auto; try congruence.
      * exact IH.
    + destruct (eval_mid e l ext o h S) as (v & l1 & o1 & h1 & E1 & E2 & D1 & D2). rewrite E1, E2. reflexivity.
Qed.

(* What a list of statements leaves: its declarations in front of the variables from before *)
Lemma steps_shape l : forall m h m' h', steps l m h = Go m' h' ->
  exists ext o, m' = ext ++ o /\ incl (dom ext) (bound l) /\ incl (bound l) (dom ext) /\ dom o = dom m.
Proof.
  induction l as [|s l IH]; intros m h m' h'; cbn [BshSpec.steps].
  - intros E; injection E as <- <-. exists [], m. repeat split; intros x [].
  - destruct s as [x e|x e|e|e]; cbn [BshSpec.step].
    + destruct (eval e m h) as [[v m1] h1] eqn:Ee. destruct (eval_dom _ _ _ _ _ _ Ee) as (D & _). intros E.
      destruct (IH _ _ _ _ E) as (ext & o & -> & I & I2 & Do). destruct o as [|[y w] o]; [discriminate Do|].
      cbn in Do. injection Do as -> Do. exists (ext ++ [(x, w)]), o. rewrite <- app_assoc. split; [reflexivity|].
      rewrite map_app. cbn. repeat split; [| |congruence].
      * intros z H. apply in_app_or in H as [H|[H|[]]]; [right; apply I, H|left; exact H].
      * intros z [H|H]; apply in_or_app; [right; left; exact H|left; apply I2, H].
    + destruct (eval e m h) as [[v m1] h1] eqn:Ee. destruct (eval_dom _ _ _ _ _ _ Ee) as (D & _). intros E.
      destruct (IH _ _ _ _ E) as (ext & o & -> & I & I2 & Do). rewrite dom_assign in Do. exists ext, o. repeat split; auto; congruence.
    + destruct (eval e m h) as [[v m1] h1] eqn:Ee. destruct (eval_dom _ _ _ _ _ _ Ee) as (D & _). intros E.
      destruct (IH _ _ _ _ E) as (ext & o & -> & I & I2 & Do). exists ext, o. repeat split; auto; congruence.
    + destruct (eval e m h) as [[v m1] h1]. discriminate.
Qed.
Lemma steps_app a b m h : steps (a ++ b) m h = match steps a m h with Go m h => steps b m h | r => r end.
Proof.
  revert m h. induction a as [|s a IH]; intros m h; [reflexivity|]. cbn [app BshSpec.steps].
  destruct (step s m h); [apply IH|reflexivity].
Qed.

(* A block is its middle, and then the shared end outside of it. *)
Lemma end_out own mid l t m h : incl (bound mid) own -> visible own l (match t with Some e => names e | None => [] end) ->
  run_block (mid ++ l, t) m h =
  match run_block (mid, None) m h with
  | Value _ m2 h => run_block (l, t) m2 h
  | Returned v h => Returned v h
  end.
Proof.
  intros I (V & T). unfold BshSpec.run_block. cbn [fst snd]. rewrite steps_app.
  destruct (steps mid m h) as [m1 h1|v h1] eqn:E1; [|reflexivity]. cbn [tail].
  destruct (steps_shape _ _ _ _ _ E1) as (ext & o & -> & I1 & _ & Do).
  pose proof (dom_length _ _ Do) as L. rewrite (leave_app (length m) ext o) by exact L.
  pose proof (steps_mid own ext (fun x H => I _ (I1 x H)) l [] [] o h1 V) as S. cbn [app] in S.
  specialize (S (fun x (H : In x []) => match H with end)).
  destruct (steps l (ext ++ o) h1) as [m2 h2|v h2].
  - destruct S as (l' & o' & -> & -> & B & D). rewrite <- L.
    assert (R : exists v l2 o2 h3, tail op calls changes t (l' ++ ext ++ o') h2 = (v, l2 ++ ext ++ o2, h3) /\
      tail op calls changes t (l' ++ o') h2 = (v, l2 ++ o2, h3) /\ dom l2 = dom l' /\ dom o2 = dom o').
    { destruct t as [e|]; cbn [tail].
      - apply eval_mid. eapply resolves_sight; [exact T|exact (fun x H => I _ (I1 x H))|exact B].
      - exists 0%Z, l', o', h2. auto. }
    destruct R as (v & l2 & o2 & h3 & -> & -> & D1 & D2).
    assert (L2 : length o2 = length o) by (apply dom_length; congruence).
    rewrite (leave_app (length o) l2 o2) by exact L2. rewrite app_assoc, (leave_app (length o) _ o2) by exact L2. reflexivity.
  - rewrite S. reflexivity.
Qed.

Lemma run_block_dom b m h v m' h' : run_block b m h = Value v m' h' -> dom m' = dom m.
Proof.
  unfold BshSpec.run_block. destruct (steps (fst b) m h) as [m1 h1|] eqn:E; [|discriminate].
  destruct (steps_shape _ _ _ _ _ E) as (ext & o & -> & _ & _ & Do).
  destruct (tail op calls changes (snd b) (ext ++ o) h1) as [[w m2] h2] eqn:Et.
  assert (D : dom m2 = dom (ext ++ o)).
  { destruct (snd b); cbn [tail] in Et; [apply (eval_dom _ _ _ _ _ _ Et)|injection Et as <- <- <-; reflexivity]. }
  intros E2; injection E2 as <- <- <-. unfold leave.
  rewrite <- skipn_map, D, map_app. rewrite (dom_length _ _ D), app_length, (dom_length _ _ Do).
  replace (length ext + length m - length m)%nat with (length (dom ext)) by (rewrite map_length; lia).
  rewrite skipn_app, skipn_all, Nat.sub_diag. exact Do.
Qed.
End R.
