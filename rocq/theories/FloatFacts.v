(** The IEEE comparison of [SpecFloat] is a total preorder on the non-NaN values. *)
From Coq Require Import ZArith SpecFloat Lia Bool.
From Verif Require Import RustFacts.
Open Scope Z_scope.

Definition lex3 (a b : Z * Z * Z) : comparison :=
  let '(a1, a2, a3) := a in let '(b1, b2, b3) := b in
  match a1 ?= b1 with Eq => match a2 ?= b2 with Eq => a3 ?= b3 | c => c end | c => c end.
Definition fkey (f : spec_float) : Z * Z * Z :=
  match f with
  | S754_zero _ => (0, 0, 0)
  | S754_infinity s => ((if s then -2 else 2), 0, 0)
  | S754_nan => (0, 0, 0)
  | S754_finite s m e => if s then (-1, - e, - Z.pos m) else (1, e, Z.pos m)
  end.

Lemma SFcompare_key x y : SFcompare x y = if is_nan x || is_nan y then None else Some (lex3 (fkey x) (fkey y)).
Proof.
  destruct x as [sx|sx| |sx mx ex], y as [sy|sy| |sy my ey]; try destruct sx; try destruct sy; try reflexivity; cbn.
  - f_equal. rewrite (Z.compare_opp ex ey). rewrite (Z.compare_antisym ex ey). destruct (ex ?= ey); reflexivity.
Qed.

Definition lex_lt (a b : Z * Z * Z) : Prop :=
  let '(a1, a2, a3) := a in let '(b1, b2, b3) := b in a1 < b1 \/ a1 = b1 /\ (a2 < b2 \/ a2 = b2 /\ a3 < b3).
Lemma lex3_Lt a b : lex3 a b = Lt <-> lex_lt a b.
Proof.
  destruct a as [[a1 a2] a3], b as [[b1 b2] b3]. cbn.
  destruct (Z.compare_spec a1 b1), (Z.compare_spec a2 b2), (Z.compare_spec a3 b3); split; intros; try discriminate; try lia; auto.
Qed.
Lemma lex3_Gt a b : lex3 a b = Gt <-> lex_lt b a.
Proof.
  destruct a as [[a1 a2] a3], b as [[b1 b2] b3]. cbn.
  destruct (Z.compare_spec a1 b1), (Z.compare_spec a2 b2), (Z.compare_spec a3 b3); split; intros; try discriminate; try lia; auto.
Qed.
Lemma lex3_Eq a b : lex3 a b = Eq <-> a = b.
Proof.
  destruct a as [[a1 a2] a3], b as [[b1 b2] b3]. cbn.
  destruct (Z.compare_spec a1 b1), (Z.compare_spec a2 b2), (Z.compare_spec a3 b3); split; intros H'; try discriminate; subst; try reflexivity;
    injection H'; intros; lia.
Qed.
Lemma lex3_refl a : lex3 a a = Eq.
Proof. now apply lex3_Eq. Qed.
Lemma lex3_antisym a b : lex3 b a = CompOpp (lex3 a b).
Proof.
  destruct (lex3 a b) eqn:E; cbn.
  - apply lex3_Eq in E. subst. apply lex3_refl.
  - apply lex3_Gt. now apply lex3_Lt.
  - apply lex3_Lt. now apply lex3_Gt.
Qed.
Lemma lex_lt_trans a b c : lex_lt a b -> lex_lt b c -> lex_lt a c.
Proof. destruct a as [[a1 a2] a3], b as [[b1 b2] b3], c as [[c1 c2] c3]. cbn. lia. Qed.
Lemma lex_lt_irrefl a : ~ lex_lt a a.
Proof. destruct a as [[a1 a2] a3]. cbn. lia. Qed.

(** Every value has a rank; comparison is comparison of ranks unless a NaN is involved. *)
Definition rank3 (v : val) : Z * Z * Z :=
  match v with VI _ z => (z, 0, 0) | VB b => (Z.b2z b, 0, 0) | VF f => fkey f | VO _ _ => (0, 0, 0) end.
Definition vnan (v : val) : bool := match v with VF f => is_nan f | _ => false end.
Lemma val_cmp_rank3 a b o : val_cmp a b = Ok o ->
  o = (if vnan a || vnan b then None else Some (lex3 (rank3 a) (rank3 b))) /\ val_ty a = val_ty b.
Proof.
  destruct a as [ta x|x|x|], b as [tb y|y|y|]; cbn [val_cmp vnan rank3 orb]; try discriminate.
  - destruct (ity_eqb ta tb) eqn:E; [|discriminate]. intros [= <-]. split; [|cbn; f_equal; now apply ity_eqb_eq].
    cbn. f_equal. destruct (x ?= y); reflexivity.
  - intros [= <-]. split; [|reflexivity]. cbn. f_equal. destruct x, y; reflexivity.
  - intros [= <-]. split; [|reflexivity]. apply SFcompare_key.
Qed.
