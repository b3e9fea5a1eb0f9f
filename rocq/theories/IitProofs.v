From Coq Require Import List Bool PeanoNat Lia.
Import ListNotations.
From Verif Require Import IitSpec IitModel.

Section Run.
Variable fn : nat -> nat -> nat.
Variable pred : nat -> nat -> bool.
Variable opt : nat -> nat -> option nat.
Variable flat : nat -> nat -> iter.
Notation next := (next fn pred opt flat).
(* Iterators that never end *)
Fixpoint inf (i : iter) : Prop :=
  match i with
  | IRepeat _ | IFrom _ => True
  | IZip a b => inf a /\ inf b
  | IChain oa b => match oa with Some a => inf a | None => False end \/ inf b
  | ICycle w _ => forall fuel, next fuel w <> None_
  | IMap _ a | IFilter _ a | IFilterMap _ a | ISkip _ a | ISkipWhile _ _ a | IEnumerate _ a => inf a
  | IFlat _ _ a => inf a
  | _ => False
  end.
Definition goes_on (r : answer) : Prop := match r with Unknown => True | None_ => False | Some_ _ i => inf i end.
Lemma inf_next fuel : forall i, inf i -> goes_on (next fuel i).
Proof.
  induction fuel as [|fuel IH]; intros i H; [exact I|]. destruct i; cbn [inf] in H; try contradiction.
  - exact I.
  - exact I.
  - cbn [IitSpec.next]. destruct H as [Ha Hb]. pose proof (IH _ Ha) as A. destruct (next fuel i1) as [| |x a]; cbn in A; try contradiction; [exact I|].
    pose proof (IH _ Hb) as B. destruct (next fuel i2) as [| |y b]; cbn in B |- *; try contradiction; auto.
  - cbn [IitSpec.next]. destruct a as [a|].
    + destruct H as [H|H].
      * pose proof (IH _ H) as A. destruct (next fuel a) as [| |x a']; cbn in A |- *; try contradiction; auto.
      * destruct (next fuel a) as [| |x a']; cbn; auto. apply IH. cbn. auto.
    + destruct H as [[]|H]. pose proof (IH _ H) as A. destruct (next fuel i) as [| |x b]; cbn in A |- *; try contradiction; auto.
  - cbn [IitSpec.next]. destruct (next fuel i2) as [| |x c]; [exact I| |exact H].
    pose proof (H fuel) as N. destruct (next fuel i1) as [| |x c]; [exact I|congruence|exact H].
  - cbn [IitSpec.next]. pose proof (IH _ H) as A. destruct (next fuel i) as [| |x a]; cbn in A |- *; auto.
  - cbn [IitSpec.next]. pose proof (IH _ H) as A. destruct (next fuel i) as [| |x a]; cbn in A |- *; auto. destruct (pred f x); [exact A|]. apply IH. exact A.
  - cbn [IitSpec.next]. pose proof (IH _ H) as A. destruct (next fuel i) as [| |x a]; cbn in A |- *; auto. destruct (opt f x); [exact A|]. apply IH. exact A.
  - cbn [IitSpec.next]. destruct inner as [j|].
    + destruct (next fuel j) as [| |x j']; [exact I| |exact H]. apply IH. exact H.
    + pose proof (IH _ H) as A. destruct (next fuel i) as [| |x a]; cbn in A |- *; auto.
  - cbn [IitSpec.next]. destruct n as [|n]; pose proof (IH _ H) as A; destruct (next fuel i) as [| |x a]; cbn in A |- *; auto.
  - cbn [IitSpec.next]. pose proof (IH _ H) as A. destruct (next fuel i) as [| |x a]; cbn in A |- *; auto. destruct (started || negb (pred f x)); [exact A|]. apply IH. exact A.
  - cbn [IitSpec.next]. pose proof (IH _ H) as A. destruct (next fuel i) as [| |x a]; cbn in A |- *; auto.
Qed.
Lemma inf_consume stop : (forall x, stop x = false) -> forall fuel i, inf i -> consume fn pred opt flat stop fuel i = None.
Proof.
  intros S fuel. induction fuel as [|fuel IH]; intros i H; [reflexivity|]. cbn. pose proof (inf_next fuel i H) as A.
  destruct (next fuel i) as [| |x a]; cbn in A; [reflexivity|contradiction|]. rewrite S. apply IH, A.
Qed.
Lemma fand_inf a b : fand a b = Infinite -> a = Infinite /\ b = Infinite.
Proof. destruct a, b; cbn; auto; discriminate. Qed.
Lemma for_inf a b : for_ a b = Infinite -> a = Infinite \/ b = Infinite.
Proof. destruct a, b; cbn; auto; discriminate. Qed.
Lemma expr_ind2 (P : expr -> Prop) :
  (forall m r arg f, P r -> (forall a, arg = Some a -> P a) -> P (EMethod m r arg f)) -> (forall x, P (ERepeat x)) -> (forall a b, P (ERange a b)) ->
  (forall t, (forall e, t = Some e -> P e) -> P (EBlock t)) -> (forall e, P e -> P (ERef e)) -> (forall l, P (EOther l)) -> forall e, P e.
Proof.
  intros H1 H2 H3 H4 H5 H6. fix F 1. intros [m r [a|] f|x|a b|[e|]|e|l].
  - apply H1; [apply F|]. intros a' E. injection E as <-. apply F.
  - apply H1; [apply F|discriminate].
  - apply H2.
  - apply H3.
  - apply H4. intros e' E. injection E as <-. apply F.
  - apply H4. discriminate.
  - apply H5, F.
  - apply H6.
Qed.
Lemma infinite_inf e : is_infinite e = Infinite -> cycles_ok fn pred opt flat e -> inf (start e).
Proof.
  induction e as [m r arg f IHr IHa|x|a b|t IHt|e IHe|l] using expr_ind2; intros H C.
  - cbn [cycles_ok] in C. destruct C as (C1 & C2 & C3).
    assert (A : forall e, match arg with Some a => is_infinite a | None => Finite end = Infinite -> arg = Some e -> inf (start e)).
    { intros e E ->. apply (IHa e eq_refl E C3). }
    cbn [is_infinite] in H. destruct m; cbn in H; try discriminate; try (apply fand_inf in H; destruct H as [H Hcap]; try discriminate Hcap).
    + apply fand_inf in H. destruct H as [Hr Ha]. cbn. destruct arg as [a|]; [|discriminate]. split; auto.
    + apply for_inf in H. cbn. destruct H as [H|H]; [left; auto|right]. destruct arg as [a|]; [auto|discriminate].
    + cbn. apply C1. reflexivity.
    + cbn; auto.
    + cbn; auto.
    + cbn; auto.
    + cbn; auto.
    + cbn; auto.
    + cbn; auto.
    + cbn; auto.
    + cbn; auto.
    + cbn; auto.
  - exact I.
  - destruct b; [discriminate|exact I].
  - destruct t as [e|]; [|discriminate]. cbn. apply (IHt e eq_refl); auto.
  - cbn. auto.
  - discriminate.
Qed.
End Run.
