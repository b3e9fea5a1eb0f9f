From Coq Require Import List Bool PeanoNat Lia.
Import ListNotations.
From Verif Require Import WliSpec WliModel WliProofs.

Section Run.
Variable act : nat -> list event -> (list step -> list nat) -> list step -> list nat.
Variable result : nat -> list event -> (list step -> list nat) -> nat.
Variable num : nat -> list event -> nat.
Variable bool_of : nat -> list event -> bool.
Variable fresh : nat -> list event -> list step -> list nat.
Hypothesis act_ext : forall f t a b, (forall r, a r = b r) -> forall r, act f t a r = act f t b r.
Hypothesis result_ext : forall f t a b, (forall r, a r = b r) -> result f t a = result f t b.
Notation exec := (exec act result num bool_of fresh).
Notation use := (use act result).

(* The runs of the program and of the program with the for loop: Some p, while the place p is moved from or borrowed *)
Definition rel (g : option place) (st st' : state) : Prop :=
  ints st = ints st' /\ trace st = trace st' /\ gone st = [] /\
  match g with
  | None => gone st' = [] /\ forall q, store st q = store st' q
  | Some p => gone st' = [p] /\ forall q, p <> q -> store st q = store st' q
  end.
Definition kept (g : option place) (st s : state) : Prop := match g with None => True | Some p => store s p = store st p end.
Definition orel (Q : state -> state -> Prop) (o o' : outcome) : Prop :=
  match o, o' with
  | Out, Out => True
  | Norm s, Norm s' | Brk s, Brk s' | Ret s, Ret s' => Q s s'
  | _, _ => False
  end.
Lemma orel_mono (Q Q' : state -> state -> Prop) o o' : (forall s s', Q s s' -> Q' s s') -> orel Q o o' -> orel Q' o o'.
Proof. intros H. destruct o, o'; cbn; auto. Qed.
(* No place of the statement is related to p *)
Fixpoint apart (g : option place) (s : stmt) : Prop :=
  match g with
  | None => match s with SSeq a b | SIf _ a b => apart g a /\ apart g b | SLoop b | SOnce b | SLet _ _ b | SWhile _ _ _ b => apart g b | SFor _ _ _ _ => False | _ => True end
  | Some p =>
      match s with
      | SUse _ q => forall n, ~ related (resolve n q) p
      | SSeq a b | SIf _ a b => apart g a /\ apart g b
      | SLoop b | SOnce b => apart g b
      | SLet x _ b => x <> fst p /\ apart g b
      | SWhile _ _ q b => (forall n, ~ related (resolve n q) p) /\ apart g b
      | SFor _ _ _ _ => False
      | _ => True
      end
  end.

Lemma place_dec (p q : place) : {p = q} + {p <> q}.
Proof. destruct (place_eqb p q) eqn:E; [left; apply place_eqb_spec, E|right; intros ->; rewrite place_eqb_refl in E; discriminate]. Qed.
Lemma rel_set g i n st st' : rel g st st' -> rel g (set_int i n st) (set_int i n st').
Proof. unfold rel. cbn. intros (-> & A). auto. Qed.
Lemma rel_call g f st st' : rel g st st' -> rel g (call f st) (call f st').
Proof. unfold rel. cbn. intros (A & -> & B). auto. Qed.
Lemma rel_put g q l st st' : rel g st st' -> rel g (put q l st) (put q l st').
Proof.
  unfold rel. cbn. intros (A & B & C & D). repeat (split; [assumption|]). destruct g as [p|]; destruct D as [D E]; (split; [exact D|]); intros q' ; try intros N;
    (destruct (place_eqb q q'); [reflexivity|]); apply E; auto.
Qed.
Lemma rel_usable g q st st' : rel g st st' -> (match g with None => True | Some p => ~ related q p end) -> usable q st = true /\ usable q st' = true.
Proof.
  unfold rel, usable. intros (_ & _ & -> & D) N. split; [reflexivity|]. destruct g as [p|]; destruct D as [-> _]; [|reflexivity].
  cbn. rewrite orb_false_r. destruct (relatedb q p) eqn:E; [|reflexivity]. apply relatedb_spec in E. contradiction.
Qed.
Lemma rel_use g f q st st' : rel g st st' -> (match g with None => True | Some p => ~ related q p end) -> rel g (use f q st) (use f q st') /\ kept g st (use f q st).
Proof.
  intros R N. unfold rel in *. destruct R as (A & B & C & D).
  assert (E : forall r, store st (fst q, snd q ++ r) = store st' (fst q, snd q ++ r)).
  { intros r. destruct g as [p|]; destruct D as [_ D]; apply D. intros E. apply N. subst p. split; [reflexivity|]. left. exists r. reflexivity. }
  split.
  - cbn. rewrite B. rewrite (result_ext f (trace st') _ _ E). split; [exact A|]. split; [reflexivity|]. split; [exact C|].
    destruct g as [p|]; destruct D as [D1 D2]; (split; [exact D1|]); intros q'; try intros N'; (destruct (Nat.eqb (fst q) (fst q')); [|apply D2; auto]);
      (destruct (below (snd q) (snd q')); [apply act_ext, E|apply D2; auto]).
  - destruct g as [p|]; cbn; [|exact Logic.I]. destruct (Nat.eqb_spec (fst q) (fst p)); [|reflexivity].
    destruct (below (snd q) (snd p)) as [r|] eqn:Bl; [|reflexivity]. exfalso. apply N. split; [assumption|]. left. exists r. apply below_spec, Bl.
Qed.
Lemma rel_renew g x v st st' : rel g st st' -> (match g with None => True | Some p => x <> fst p end) -> rel g (renew x v st) (renew x v st') /\ kept g st (renew x v st).
Proof.
  unfold rel, kept, renew. intros (A & B & C & D) N. cbn [store ints gone trace]. rewrite C. cbn [filter]. split; [split; [exact A|]; split; [exact B|]; split; [reflexivity|]|].
  - destruct g as [p|]; destruct D as [-> D2]; cbn [filter].
    + rewrite (proj2 (Nat.eqb_neq _ _) N). cbn [negb]. split; [reflexivity|]. intros q' N'. destruct (Nat.eqb x (fst q')); [reflexivity|apply D2, N'].
    + split; [reflexivity|]. intros q'. destruct (Nat.eqb x (fst q')); [reflexivity|apply D2].
  - destruct g as [p|]; [|exact Logic.I]. rewrite (proj2 (Nat.eqb_neq _ _) N). reflexivity.
Qed.
Definition plain_rel (g : option place) (st : state) (s s' : state) : Prop := rel g s s' /\ kept g st s.
Lemma kept_trans g a b c : kept g a b -> kept g b c -> kept g a c.
Proof. destruct g; cbn; congruence. Qed.
Lemma kept_refl g a : kept g a a.
Proof. destruct g; cbn; auto. Qed.
Lemma plain_leave g x st o o' : orel (plain_rel g st) o o' -> (match g with None => True | Some p => x <> fst p end) -> orel (plain_rel g st) (leave x o) (leave x o').
Proof.
  intros H N. destruct o, o'; cbn in *; auto; destruct H as [H K]; destruct (rel_renew g x (fun _ => []) _ _ H N) as [A B]; (split; [exact A|exact (kept_trans _ _ _ _ K B)]).
Qed.
Lemma looping_rel g (run run' : state -> outcome) :
  (forall st st', rel g st st' -> orel (plain_rel g st) (run st) (run' st')) ->
  forall fuel st st', rel g st st' -> orel (plain_rel g st) (looping run fuel st) (looping run' fuel st').
Proof.
  intros H fuel. induction fuel as [|fuel IH]; intros st st' R; cbn; [exact Logic.I|].
  specialize (H st st' R). destruct (run st) as [| |s|s|s], (run' st') as [| |s'|s'|s']; cbn in H; try contradiction; cbn; auto.
  destruct H as [H K]. eapply orel_mono; [|apply IH, H]. intros a b [A B]. split; [exact A|exact (kept_trans _ _ _ _ K B)].
Qed.
Lemma asking_rel g (run run' : state -> outcome) y p :
  (forall st st', rel g st st' -> orel (plain_rel g st) (run st) (run' st')) ->
  (match g with None => True | Some a => forall n, ~ related (resolve n p) a end) ->
  forall fuel st st', rel g st st' -> orel (plain_rel g st) (asking run y fuel p st) (asking run' y fuel p st').
Proof.
  intros H N fuel. induction fuel as [|fuel IH]; intros st st' R; [exact Logic.I|]. cbn [asking].
  assert (I' : ints st' = ints st) by (symmetry; apply R). rewrite I'. set (q := resolve (ints st) p).
  assert (Nq : match g with None => True | Some a => ~ related q a end) by (destruct g; [apply N|exact Logic.I]).
  destruct (rel_usable g q st st' R Nq) as [-> ->].
  assert (E : store st q = store st' q).
  { destruct R as (_ & _ & _ & D). destruct g as [a|]; apply D. intros ->. apply Nq. split; [reflexivity|]. left. exists []. rewrite app_nil_r. reflexivity. }
  rewrite <- E. destruct (store st q) as [|z l]; [split; [exact R|apply kept_refl]|].
  assert (R2 := rel_set g y z _ _ (rel_put g q l _ _ R)). specialize (H _ _ R2).
  assert (K0 : kept g st (set_int y z (put q l st))).
  { destruct g as [a|]; cbn; [|exact Logic.I]. destruct (place_eqb q a) eqn:Ea; [|reflexivity]. apply place_eqb_spec in Ea. exfalso. apply Nq. rewrite Ea.
    split; [reflexivity|]. left. exists []. rewrite app_nil_r. reflexivity. }
  destruct (run (set_int y z (put q l st))) as [| |s|s|s], (run' (set_int y z (put q l st'))) as [| |s'|s'|s']; cbn in H; try contradiction; cbn; auto;
    destruct H as [H K]; assert (K1 := kept_trans _ _ _ _ K0 K).
  - eapply orel_mono; [|apply IH, H]. intros a b [A B]. split; [exact A|exact (kept_trans _ _ _ _ K1 B)].
  - split; assumption.
  - split; assumption.
Qed.
Lemma plain g s : apart g s -> forall fuel st st', rel g st st' -> orel (plain_rel g st) (exec fuel s st) (exec fuel s st').
Proof.
  induction s; intros H fuel st st' R.
  - split; [exact R|apply kept_refl].
  - assert (H' : apart g s1 /\ apart g s2) by (destruct g; exact H). destruct H' as [H1 H2]. cbn.
    specialize (IHs1 H1 fuel st st' R). destruct (exec fuel s1 st) as [| |s|s|s], (exec fuel s1 st') as [| |s'|s'|s']; cbn in IHs1; try contradiction; cbn; auto.
    destruct IHs1 as [A B]. eapply orel_mono; [|apply IHs2; [exact H2|exact A]]. intros a b [A' B']. split; [exact A'|exact (kept_trans _ _ _ _ B B')].
  - cbn. assert (I' : ints st' = ints st) by (symmetry; apply R). rewrite I'.
    assert (N : match g with None => True | Some a => ~ related (resolve (ints st) p) a end) by (destruct g; [apply H|exact Logic.I]).
    destruct (rel_usable g _ st st' R N) as [-> ->]. cbn. apply rel_use; assumption.
  - cbn. split; [apply rel_call, R|destruct g; cbn; auto].
  - cbn. assert (T : trace st' = trace st) by (symmetry; apply R). rewrite T. split; [apply rel_set, rel_call, R|destruct g; cbn; auto].
  - assert (H' : apart g s1 /\ apart g s2) by (destruct g; exact H). destruct H' as [H1 H2]. cbn.
    assert (T : trace st' = trace st) by (symmetry; apply R). rewrite T. destruct (bool_of c (trace st)); auto.
  - assert (H' : apart g s) by (destruct g; exact H). cbn. apply looping_rel; [|exact R]. intros; apply IHs; assumption.
  - split; [exact R|apply kept_refl].
  - split; [exact R|apply kept_refl].
  - assert (H' : apart g s /\ match g with None => True | Some p => x <> fst p end) by (destruct g; cbn in H; tauto). destruct H' as [H1 H2]. cbn.
    assert (T : trace st' = trace st) by (symmetry; apply R). rewrite T. apply plain_leave; [|exact H2].
    destruct (rel_renew g x (fresh f (trace st)) _ _ (rel_call g f _ _ R) H2) as [A B].
    eapply orel_mono; [|apply IHs; [exact H1|exact A]]. intros a b [A' B']. split; [exact A'|]. refine (kept_trans _ _ _ _ _ B').
    destruct g; cbn in *; auto.
  - assert (H' : apart g s) by (destruct g; exact H). cbn. apply IHs; assumption.
  - assert (H' : apart g s /\ match g with None => True | Some a => forall n, ~ related (resolve n p) a end) by (destruct g; cbn in H; tauto). destruct H' as [H1 H2].
    cbn. apply asking_rel; [|exact H2|exact R]. intros; apply IHs; assumption.
  - destruct g; contradiction.
Qed.

(* Numbers that are not set *)
Definition oint (i : name) (n : nat) (o : outcome) : Prop := match o with Norm s | Brk s | Ret s => ints s i = n | _ => True end.
Lemma ints_kept i s : sets i s = false -> forall fuel st, oint i (ints st i) (exec fuel s st).
Proof.
  induction s; intros H fuel st; cbn in H |- *; auto.
  - apply orb_false_iff in H. destruct H as [H1 H2]. specialize (IHs1 H1 fuel st). destruct (exec fuel s1 st); cbn in *; auto. rewrite <- IHs1. apply IHs2, H2.
  - destruct (usable _ st); cbn; auto.
  - rewrite H. reflexivity.
  - apply orb_false_iff in H. destruct H as [H1 H2]. destruct (bool_of c (trace st)); auto.
  - assert (X : forall k st, oint i (ints st i) (looping (exec fuel s) k st)); [|apply X].
    intros k. induction k as [|k IHk]; intros t; cbn; auto. specialize (IHs H fuel t). destruct (exec fuel s t); cbn in *; auto. rewrite <- IHs. apply IHk.
  - specialize (IHs H fuel (renew x (fresh f (trace st)) (call f st))). destruct (exec fuel s _); cbn in *; auto.
  - apply orb_false_iff in H. destruct H as [H1 H2].
    assert (X : forall k st, oint i (ints st i) (asking (exec fuel s) y k p st)); [|apply X].
    intros k. induction k as [|k IHk]; intros t; cbn [asking]; [exact Logic.I|]. destruct (usable _ t); [|exact Logic.I]. destruct (store t (resolve (ints t) p)) as [|z l]; [reflexivity|].
    specialize (IHs H2 fuel (set_int y z (put (resolve (ints t) p) l t))). cbn [ints set_int put] in IHs. rewrite H1 in IHs.
    destruct (exec fuel s _); cbn in *; auto. rewrite <- IHs. apply IHk.
  - apply orb_false_iff in H. destruct H as [H1 H2].
    assert (X : forall back, (forall l t, ints (back l t) i = ints t i) -> forall k cur st, oint i (ints st i) (rounds (exec fuel s) y k back cur st)).
    { intros back Hb k. induction k as [|k IHk]; intros cur t; cbn; auto. destruct cur as [|z cur]; [apply Hb|].
      specialize (IHs H2 fuel (set_int y z t)). cbn [ints set_int] in IHs. rewrite H1 in IHs. destruct (exec fuel s _); cbn in *; auto; try (rewrite Hb; exact IHs). rewrite <- IHs. apply IHk. }
    destruct (usable _ st && (by_ref || is_var p)); [|exact Logic.I]. destruct by_ref.
    + apply (X _) with (st := away _ st). reflexivity.
    + apply (X _) with (st := away _ st). reflexivity.
Qed.
Lemma resolve_kept n n' p : (forall i, index_of i p = true -> n' i = n i) -> resolve n' p = resolve n p.
Proof.
  induction p; cbn; intros H; auto.
  - rewrite IHp; auto.
  - rewrite IHp, (H i); [reflexivity|rewrite Nat.eqb_refl; reflexivity|]. intros j J. apply H. rewrite J. apply orb_true_r.
Qed.

(* The loop itself *)
Lemma loop_rel fuel y p b q back : apart (Some q) b ->
  (forall i, index_of i p = true -> i <> y /\ sets i b = false) ->
  forall k st st', rel (Some q) st st' -> resolve (ints st) p = q ->
  (exists s l s', rel (Some q) s s' /\ store s q = l /\
     (asking (exec fuel b) y k p st = Norm s /\ rounds (exec fuel b) y k back (store st q) st' = Norm (back l s') \/
      asking (exec fuel b) y k p st = Ret s /\ rounds (exec fuel b) y k back (store st q) st' = Ret (back l s'))) \/
  (asking (exec fuel b) y k p st = Out /\ rounds (exec fuel b) y k back (store st q) st' = Out).
Proof.
  intros Ha Hi k. induction k as [|k IH]; intros st st' R Eq; [right; split; reflexivity|]. cbn [asking rounds]. rewrite Eq.
  assert (U : usable q st = true) by (unfold usable; destruct R as (_ & _ & -> & _); reflexivity). rewrite U.
  destruct (store st q) as [|z l] eqn:E.
  - left. exists st, [], st'. split; [exact R|]. split; [exact E|]. left. split; reflexivity.
  - assert (R2 : rel (Some q) (set_int y z (put q l st)) (set_int y z st')).
    { apply rel_set. destruct R as (A & B & C & D & F). repeat (split; [assumption|]). cbn. intros q' N. destruct (place_eqb q q') eqn:Q; [apply place_eqb_spec in Q; congruence|apply F, N]. }
    assert (E2 : store (set_int y z (put q l st)) q = l) by (cbn; rewrite place_eqb_refl; reflexivity).
    assert (I2 : forall i, index_of i p = true -> oint i (ints st i) (exec fuel b (set_int y z (put q l st)))).
    { intros i J. destruct (Hi i J) as [N S]. pose proof (ints_kept i b S fuel (set_int y z (put q l st))) as X. cbn [ints set_int put] in X.
      rewrite (proj2 (Nat.eqb_neq _ _) N) in X. exact X. }
    pose proof (plain (Some q) b Ha fuel _ _ R2) as P.
    destruct (exec fuel b (set_int y z (put q l st))) as [| |s|s|s], (exec fuel b (set_int y z st')) as [| |s'|s'|s']; cbn in P; try contradiction.
    + right. split; reflexivity.
    + destruct P as [P K]. cbn [kept] in K. rewrite E2 in K. cbn in I2.
      destruct (IH s s' P) as [(s1 & l1 & s1' & X)|X].
      * rewrite <- Eq. apply resolve_kept, I2.
      * left. exists s1, l1, s1'. rewrite K in X. exact X.
      * right. rewrite K in X. exact X.
    + destruct P as [P K]. cbn [kept] in K. rewrite E2 in K. left. exists s, l, s'. split; [exact P|]. split; [exact K|]. left. split; reflexivity.
    + destruct P as [P K]. cbn [kept] in K. rewrite E2 in K. left. exists s, l, s'. split; [exact P|]. split; [exact K|]. right. split; reflexivity.
Qed.
Lemma start_rel q st st' : rel None st st' -> rel (Some q) st (away (q :: gone st') st').
Proof. intros (A & B & C & D & E). repeat (split; [assumption|]). cbn. rewrite D. split; [reflexivity|]. intros. apply E. Qed.
(* for y in p.by_ref() *)
Lemma for_by_ref fuel id y p b st st' : (forall n, apart (Some (resolve n p)) b) -> (forall i, index_of i p = true -> i <> y /\ sets i b = false) ->
  rel None st st' -> orel (rel None) (exec fuel (SWhile id y p b) st) (exec fuel (SFor true y p b) st').
Proof.
  intros Ha Hi R. cbn. assert (I' : ints st' = ints st) by (symmetry; apply R). rewrite I'. set (q := resolve (ints st) p).
  destruct (rel_usable None q st st' R Logic.I) as [_ ->]. cbn [andb orb].
  set (back := fun l st'0 => put q l (away (gone st') st'0)).
  assert (E : store st' q = store st q) by (symmetry; apply R). rewrite E.
  assert (G : gone st' = []) by apply R.
  destruct (loop_rel fuel y p b q back (Ha (ints st)) Hi fuel st (away (q :: gone st') st') (start_rel q _ _ R) eq_refl) as [(s & l & s' & P & K & [[-> ->]|[-> ->]])|[-> ->]]; try exact Logic.I.
  - cbn. destruct P as (A & B & C & D & F). repeat (split; [assumption|]). cbn. intros q'. destruct (place_eqb q q') eqn:Q.
    + apply place_eqb_spec in Q. subst q'. exact K.
    + apply F. intros ->. rewrite place_eqb_refl in Q. discriminate.
  - cbn. destruct P as (A & B & C & D & F). repeat (split; [assumption|]). cbn. intros q'. destruct (place_eqb q q') eqn:Q.
    + apply place_eqb_spec in Q. subst q'. exact K.
    + apply F. intros ->. rewrite place_eqb_refl in Q. discriminate.
Qed.
(* for y in x *)
Lemma for_by_move fuel id y x b st st' : apart (Some (x, [])) b ->
  rel None st st' -> orel (rel (Some (x, []))) (exec fuel (SWhile id y (PVar x) b) st) (exec fuel (SFor false y (PVar x) b) st').
Proof.
  intros Ha R. cbn. destruct (rel_usable None (x, []) st st' R Logic.I) as [_ ->]. cbn [andb orb].
  assert (E : store st' (x, []) = store st (x, [])) by (symmetry; apply R). rewrite E.
  destruct (loop_rel fuel y (PVar x) b (x, []) (fun _ s => s) Ha ltac:(discriminate) fuel st _ (start_rel (x, []) _ _ R) eq_refl)
    as [(s & l & s' & P & K & [[-> ->]|[-> ->]])|[-> ->]]; cbn; auto.
Qed.
End Run.
