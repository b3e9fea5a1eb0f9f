(** Dropping `all` and `any` around one condition. *)
From Verif Require Export CfgModel.

(** ** Specification *)
(** The value of an item of `cfg`; items under other names are opaque.  `not` has one item. *)
Section Eval.
  Variable set_ : nat -> bool.
  Variable other : nat -> list item -> bool.
  Fixpoint holds (i : item) : bool :=
    match i with
    | Atom n => set_ n
    | Lit b => b
    | Group All l => forallb holds l
    | Group Any l => existsb holds l
    | Group Not l => match l with [x] => negb (holds x) | _ => false end
    | Group (Other n) l => other n l
    end.
End Eval.
(** An `all` or `any` with one item, or an empty `all`, under `all` and `any` only. *)
Inductive needless : item -> Prop :=
| One h x : h = All \/ h = Any -> needless (Group h [x])
| Empty : needless (Group All [])
| Under h x l : h = All \/ h = Any -> In x l -> needless x -> needless (Group h l).

(** ** Proofs *)
Section Induction.
  Variable P : item -> Prop.
  Hypothesis atom : forall n, P (Atom n).
  Hypothesis lit : forall b, P (Lit b).
  Hypothesis group : forall h l, (forall x, In x l -> P x) -> P (Group h l).
  Fixpoint item_ind2 (i : item) : P i :=
    match i with
    | Atom n => atom n
    | Lit b => lit b
    | Group h l => group h l ((fix go l : forall x, In x l -> P x := match l with [] => fun x J => False_ind _ J | y :: r => fun x J => match J with or_introl E => eq_ind y P (item_ind2 y) x E | or_intror J => go r x J end end) l)
    end.
End Induction.
Lemma reports_group h l : reports (Group h l) = match h with Any | All => map (option_map (fun l' => [Group h l'])) (check_nested_cfg l) ++ match h, l with _, [x] => [Some [x]] | All, [] => [None] | _, _ => [] end | _ => [] end.
Proof. destruct h; reflexivity. Qed.
Lemma nested_in l : forall before r, In r (nested before l) <-> exists a x b q, l = a ++ x :: b /\ In q (reports x) /\ r = option_map (fun x' => before ++ a ++ x' ++ b) q.
Proof.
  induction l as [|x l IH]; intros before r; cbn [nested].
  - split; [intros []|]. intros (a & x & b & q & E & _). destruct a; discriminate E.
  - fold nested. rewrite in_app_iff, IH, in_map_iff. split.
    + intros [(q & <- & J)|(a & y & b & q & -> & J & ->)].
      * exists [], x, l, q. auto.
      * exists (x :: a), y, b, q. split; [reflexivity|]. split; [exact J|]. destruct q; [|reflexivity]. cbn. rewrite <- app_assoc. reflexivity.
    + intros (a & y & b & q & E & J & ->). destruct a as [|z a]; injection E as -> E.
      * left. subst l. exists q. auto.
      * right. exists a, y, b, q. split; [exact E|]. split; [exact J|]. destruct q; [|reflexivity]. cbn. rewrite <- app_assoc. reflexivity.
Qed.
Lemma reports_sound s o i : forall r, In (Some r) (reports i) -> exists j, r = [j] /\ holds s o j = holds s o i.
Proof.
  induction i as [n|b|h l IH] using item_ind2; intros r J; try (destruct J; fail). rewrite reports_group in J.
  assert (HH : h = All \/ h = Any) by (destruct h; try (destruct J; fail); auto).
  assert (J' : In (Some r) (map (option_map (fun l' => [Group h l'])) (check_nested_cfg l)) \/ exists x, l = [x] /\ r = [x]).
  { destruct HH as [-> | ->]; apply in_app_or in J; destruct J as [J|J]; auto; right; destruct l as [|x [|y l]]; cbn in J; try (destruct J; fail); destruct J as [J|[]]; try discriminate J; injection J as <-; exists x; auto. }
  clear J. destruct J' as [J|(x & -> & ->)].
  - apply in_map_iff in J. destruct J as (q & E & J). destruct q as [l'|]; [|discriminate E]. injection E as <-. unfold check_nested_cfg in J. apply nested_in in J. destruct J as (a & x & b & q & -> & J & E). destruct q as [x'|]; [|discriminate E]. injection E as ->.
    destruct (IH x ltac:(apply in_or_app; right; left; reflexivity) x' J) as (j & -> & Q). eexists. split; [reflexivity|]. cbn [app]. destruct HH as [-> | ->]; cbn; [rewrite !forallb_app|rewrite !existsb_app]; cbn; rewrite Q; reflexivity.
  - exists x. split; [reflexivity|]. destruct HH as [-> | ->]; cbn; [rewrite andb_true_r|rewrite orb_false_r]; reflexivity.
Qed.
Lemma reports_complete i : reports i = [] -> ~ needless i.
Proof.
  induction i as [n|b|h l IH] using item_ind2; intros E N; inversion N as [h' x HH|  |h' x l' HH J NX]; subst.
  - rewrite reports_group in E. destruct HH as [-> | ->]; destruct (map _ _); discriminate E.
  - discriminate E.
  - apply (IH x J); [|exact NX]. destruct (reports x) as [|r rs] eqn:R; [reflexivity|]. exfalso.
    apply in_split in J. destruct J as (a & b & ->).
    assert (K : In (option_map (fun x' => [] ++ a ++ x' ++ b) r) (check_nested_cfg (a ++ x :: b))). { apply nested_in. exists a, x, b, r. split; [reflexivity|]. split; [rewrite R; left; reflexivity|reflexivity]. }
    apply (in_map (option_map (fun l' => [Group h l']))) in K. assert (E' : map (option_map (fun l' => [Group h l'])) (check_nested_cfg (a ++ x :: b)) = []).
    { rewrite reports_group in E. destruct HH as [-> | ->]; destruct (map _ _); [reflexivity|discriminate E|reflexivity|discriminate E]. }
    rewrite E' in K. destruct K.
Qed.
