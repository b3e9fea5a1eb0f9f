(* Proofs about SrtModel.v *)
From Coq Require Import List Bool PeanoNat.
Import ListNotations.
From Verif Require Import SrtSpec SrtModel.

Lemma peel_no_ref e : peel e = no_ref e.
Proof. induction e; cbn; auto. Qed.
Section ExprInd.
Variable P : expr -> Prop.
Hypothesis HA : forall l, Forall P l -> P (EArray l).
Hypothesis HT : forall l, Forall P l -> P (ETup l).
Hypothesis HC : forall f l, P f -> Forall P l -> P (ECall f l).
Hypothesis HM : forall m r l, P r -> Forall P l -> P (EMethod m r l).
Hypothesis HB : forall o a b, P a -> P b -> P (EBin o a b).
Hypothesis HU : forall o a, P a -> P (EUn o a).
Hypothesis HL : forall n, P (ELit n).
Hypothesis HK : forall t a, P a -> P (ECast t a).
Hypothesis HF : forall a f, P a -> P (EField a f).
Hypothesis HP : forall s, P (EPath s).
Hypothesis HR : forall a, P a -> P (ERef a).
Fixpoint expr_ind' (e : expr) : P e :=
  let all := fix all l : Forall P l := match l with [] => Forall_nil P | x :: l => Forall_cons x (expr_ind' x) (all l) end in
  match e with
  | EArray l => HA l (all l)
  | ETup l => HT l (all l)
  | ECall f l => HC f l (expr_ind' f) (all l)
  | EMethod m r l => HM m r l (expr_ind' r) (all l)
  | EBin o a b => HB o a b (expr_ind' a) (expr_ind' b)
  | EUn o a => HU o a (expr_ind' a)
  | ELit n => HL n
  | ECast t a => HK t a (expr_ind' a)
  | EField a f => HF a f (expr_ind' a)
  | EPath s => HP s
  | ERef a => HR a (expr_ind' a)
  end.
End ExprInd.
Section PatInd.
Variable P : pat -> Prop.
Hypothesis HT : forall d l, Forall P l -> P (PTup d l).
Hypothesis HB0 : forall x, P (PBind x None).
Hypothesis HB1 : forall x p, P p -> P (PBind x (Some p)).
Hypothesis HW : P PWild.
Hypothesis HR : forall p, P p -> P (PRef p).
Fixpoint pat_ind' (p : pat) : P p :=
  let all := fix all l : Forall P l := match l with [] => Forall_nil P | x :: l => Forall_cons x (pat_ind' x) (all l) end in
  match p with
  | PTup d l => HT d l (all l)
  | PBind x None => HB0 x
  | PBind x (Some p) => HB1 x p (pat_ind' p)
  | PWild => HW
  | PRef p => HR p (pat_ind' p)
  end.
End PatInd.

Section Run.
Variable array tuple : list nat -> nat.
Variable call : nat -> list nat -> nat.
Variable method : nat -> nat -> list nat -> nat.
Variable bin : nat -> nat -> nat -> nat.
Variable un : nat -> nat -> nat.
Variable cast : nat -> nat -> nat.
Variable field : nat -> nat -> nat.
Variable global : list ident -> nat.
Variable part : option nat -> nat -> nat -> nat -> nat.
Notation eval := (eval array tuple call method bin un cast field global).
Notation bind := (bind part).

Lemma eval_no_ref r e : eval r (no_ref e) = eval r e.
Proof. induction e; cbn; auto. Qed.
Lemma alike_no_ref a b : alike a (no_ref b) = alike a b.
Proof.
  assert (I : forall b, no_ref (no_ref b) = no_ref b) by (induction b0; cbn; auto).
  revert b. induction a; intros b; cbn [alike]; rewrite ?I; auto.
Qed.
Lemma alike_peel1 a b : alike a (peel1 b) = alike a b.
Proof. rewrite <- (alike_no_ref a (peel1 b)), <- (alike_no_ref a b). destruct b; reflexivity. Qed.
Lemma eval_peel1 r b : eval r (peel1 b) = eval r b.
Proof. destruct b; reflexivity. Qed.

Section Envs.
Variable m : binding_map.
Variable left : bool.
Variable r1 r2 : env.
Hypothesis mapped : forall x y, get m left x = Some y -> exists v, r1 x = Some v /\ r2 y = Some v.
Hypothesis others : forall x, contains_key m true x = false -> contains_key m false x = false -> r1 x = r2 x.
Definition same (a : expr) : Prop := forall b, mirrored_exprs m left a b = true -> alike a b = true -> eval r1 a = eval r2 b.
Lemma lists l : Forall same l -> forall l', zip_all (mirrored_exprs m left) l l' = true -> all2 alike l l' = true ->
  map (eval r1) l = map (eval r2) l'.
Proof.
  induction 1; intros [|y l'] Z A; cbn in *; try discriminate; auto.
  apply andb_true_iff in Z. apply andb_true_iff in A. destruct Z, A. f_equal; auto.
Qed.
Lemma zip_eq s : forall s', zip_idents s s' = true -> length s = length s' -> s = s'.
Proof.
  induction s; intros [|y s'] Z L; cbn in *; try discriminate; auto.
  apply andb_true_iff in Z. destruct Z as [Z1 Z2]. apply Nat.eqb_eq in Z1. subst. f_equal. auto.
Qed.
Ltac split_and := repeat match goal with H : _ && _ = true |- _ => apply andb_true_iff in H; destruct H end;
  repeat match goal with H : Nat.eqb _ _ = true |- _ => apply Nat.eqb_eq in H; subst end.
Lemma mirrored_same : forall a, same a.
Proof.
  induction a using expr_ind'; intros b M A; cbn [mirrored_exprs alike] in M, A;
    try (rewrite peel_no_ref in M; rewrite <- (eval_no_ref r2 b); destruct (no_ref b); try discriminate; cbn [SrtSpec.eval]; split_and).
  - f_equal. eapply lists; eauto.
  - f_equal. eapply lists; eauto.
  - f_equal; eauto. eapply lists; eauto.
  - f_equal; eauto. eapply lists; eauto.
  - f_equal; eauto.
  - f_equal; eauto.
  - reflexivity.
  - f_equal; eauto.
  - f_equal; eauto.
  - apply orb_true_iff in M. destruct M as [M|M].
    + apply andb_true_iff in M. destruct M as [Z F]. apply zip_eq in Z; [|assumption]. subst segments.
      destruct s as [|x [|? ?]]; try reflexivity. cbn in F. rewrite andb_true_r in F.
      apply andb_true_iff in F. destruct F as [F1 F2]. apply negb_true_iff in F1, F2. rewrite (others x F1 F2). reflexivity.
    + destruct s as [|x [|? ?]]; try discriminate. destruct segments as [|y [|? ?]]; try discriminate.
      destruct (get m left x) eqn:G; [|discriminate]. apply Nat.eqb_eq in M. subst. destruct (mapped _ _ G) as (v & -> & ->). reflexivity.
  - cbn [SrtSpec.eval]. rewrite <- (eval_peel1 r2 b). apply IHa; auto. rewrite alike_peel1. assumption.
Qed.
End Envs.

(* What the patterns bind *)
Definition names_of (l : list (ident * nat)) := map fst l.
Lemma names_bind p : forall v, map fst (bind p v) = names p.
Proof.
  induction p using pat_ind'; intros v; cbn; auto.
  - generalize (length l). generalize 0. induction H; intros i n; cbn; auto. rewrite map_app, H. f_equal. apply IHForall.
  - rewrite IHp. reflexivity.
Qed.
Definition good (p : pat) : Prop := forall q m m', no_sub p = true -> no_sub q = true -> mirrored_pats p q m = Some m' -> forall w,
  (forall x y, In (x, y) m' -> In (x, y) m \/ exists v, In (x, v) (bind p w) /\ In (y, v) (bind q w)) /\
  (forall x y, In (x, y) m -> In (x, y) m') /\
  (forall x, In x (names p) -> In x (map fst m')) /\ (forall x, In x (names q) -> In x (map snd m')).
Lemma dots_eq a b : dots_eqb a b = true -> a = b.
Proof. destruct a, b; cbn; intros H; try discriminate; auto. apply Nat.eqb_eq in H. congruence. Qed.
Lemma pats_good : forall p, good p.
Proof.
  induction p using pat_ind'; intros q mp m' Np Nq M w; destruct q; cbn [mirrored_pats] in M; try discriminate.
  - destruct (dots_eqb d dots && (length l =? length l0)) eqn:E; [|discriminate].
    apply andb_true_iff in E. destruct E as [E L]. apply dots_eq in E. apply Nat.eqb_eq in L. subst dots. cbn [no_sub SrtSpec.bind names] in *.
    rewrite <- L. generalize 0 as i. generalize (length l) as n. revert l0 mp m' L Nq M Np.
    induction H as [|p l Hp Hl IH]; intros [|q l0] mp m' L Nq M Np n i; cbn in *; try discriminate.
    + injection M as <-. repeat split; auto; intros; contradiction.
    + destruct (mirrored_pats p q mp) as [m1|] eqn:M1; [|discriminate].
      apply andb_true_iff in Np. apply andb_true_iff in Nq. destruct Np as [Np1 Np2], Nq as [Nq1 Nq2]. injection L as L.
      destruct (Hp q mp m1 Np1 Nq1 M1 (part d n i w)) as (A1 & A2 & A3 & A4).
      destruct (IH l0 m1 m' L Nq2 M Np2 n (S i)) as (B1 & B2 & B3 & B4).
      split; [|split; [|split]].
      * intros x y I. destruct (B1 x y I) as [I1|(v & V1 & V2)].
        -- destruct (A1 x y I1) as [I2|(v & V1 & V2)]; [left; assumption|right; exists v; rewrite !in_app_iff; auto].
        -- right; exists v; rewrite !in_app_iff; auto.
      * auto.
      * intros x I. apply in_app_iff in I. destruct I as [I|I]; auto. apply A3 in I. apply in_map_iff in I. destruct I as ([x' y'] & <- & I).
        apply in_map_iff. exists (x', y'). auto.
      * intros x I. apply in_app_iff in I. destruct I as [I|I]; auto. apply A4 in I. apply in_map_iff in I. destruct I as ([x' y'] & <- & I).
        apply in_map_iff. exists (x', y'). auto.
  - destruct sub; [cbn in Nq; discriminate|]. injection M as <-. cbn. split; [|split; [|split]].
    + intros a b [E|I]; [|left; assumption]. injection E as <- <-. right. exists w. auto.
    + auto.
    + intros a [<-|[]]. auto.
    + intros a [<-|[]]. auto.
  - injection M as <-. cbn. split; [|split; [|split]]; auto; intros; contradiction.
  - cbn in Np, Nq. exact (IHp q mp m' Np Nq M w).
Qed.

Lemma lookup_in l : forall x v, NoDup (map fst l) -> In (x, v) l -> lookup l x = Some v.
Proof.
  induction l as [|[y w] l IH]; intros x v N I; cbn in *; [contradiction|]. inversion N; subst.
  destruct I as [E|I]; [injection E as -> ->; rewrite Nat.eqb_refl; reflexivity|].
  destruct (Nat.eqb_spec y x); [subst; exfalso; apply H1; apply in_map_iff; exists (x, v); auto|auto].
Qed.
Lemma lookup_none l : forall x, ~ In x (map fst l) -> lookup l x = None.
Proof.
  induction l as [|[y w] l IH]; intros x N; cbn in *; auto. destruct (Nat.eqb_spec y x); [subst; exfalso; auto|auto].
Qed.
Lemma get_left m x y : get m true x = Some y -> In (x, y) m.
Proof.
  unfold get. destruct (find _ m) as [[a b]|] eqn:F; [|discriminate]. intros E. injection E as <-.
  apply find_some in F. destruct F as [F1 F2]. apply Nat.eqb_eq in F2. cbn in *. subst. assumption.
Qed.
Lemma get_right m x y : get m false x = Some y -> In (y, x) m.
Proof.
  unfold get. destruct (find _ m) as [[a b]|] eqn:F; [|discriminate]. intros E. injection E as <-.
  apply find_some in F. destruct F as [F1 F2]. apply Nat.eqb_eq in F2. cbn in *. subst. assumption.
Qed.
Lemma key_left m x : contains_key m true x = false -> ~ In x (map fst m).
Proof.
  unfold contains_key, get. destruct (find _ m) as [[a b]|] eqn:F; [discriminate|]. intros _ I. apply in_map_iff in I.
  destruct I as ([a b] & <- & I). apply (find_none _ _ F) in I. cbn in I. rewrite Nat.eqb_refl in I. discriminate.
Qed.
Lemma key_right m x : contains_key m false x = false -> ~ In x (map snd m).
Proof.
  unfold contains_key, get. destruct (find _ m) as [[a b]|] eqn:F; [discriminate|]. intros _ I. apply in_map_iff in I.
  destruct I as ([a b] & <- & I). apply (find_none _ _ F) in I. cbn in I. rewrite Nat.eqb_refl in I. discriminate.
Qed.

Section Closure.
Variable l r : pat.
Variable m : binding_map.
Hypothesis NL : no_sub l = true.
Hypothesis NR : no_sub r = true.
Hypothesis D : NoDup (names l ++ names r).
Hypothesis M : mirrored_pats l r [] = Some m.
Definition both u v := lookup (bind l u ++ bind r v).
Definition one u := lookup (bind l u).
Lemma app_both u v : NoDup (map fst (bind l u ++ bind r v)).
Proof. rewrite map_app, !names_bind. assumption. Qed.
Lemma nodup_l u : NoDup (map fst (bind l u)).
Proof. rewrite names_bind. revert D. generalize (names r). induction (names l); intros s N; constructor; inversion N; subst.
  - intros I. apply H1. apply in_app_iff. auto.
  - eauto. Qed.
Lemma pair_val x y w : In (x, y) m -> exists v, In (x, v) (bind l w) /\ In (y, v) (bind r w).
Proof. intros I. destruct (pats_good l r [] m NL NR M w) as (A & _). destruct (A x y I) as [[]|V]. assumption. Qed.
Lemma pair_both x y u v w : In (x, y) m -> exists c d,
  both u v x = Some c /\ one u x = Some c /\ both w u y = Some c /\ both u v y = Some d /\ one v x = Some d.
Proof.
  intros I. destruct (pair_val x y u I) as (c & C1 & C2), (pair_val x y v I) as (d & D1 & D2). exists c, d. unfold both, one.
  repeat split; apply lookup_in; auto using app_both, nodup_l; apply in_app_iff; auto.
Qed.
Lemma other_both x u v : contains_key m true x = false -> contains_key m false x = false -> both u v x = None /\ one u x = None.
Proof.
  intros K1 K2. apply key_left in K1. apply key_right in K2. destruct (pats_good l r [] m NL NR M u) as (_ & _ & A & B).
  unfold both, one. split; apply lookup_none; rewrite ?map_app, !names_bind, ?in_app_iff; intros I; [destruct I as [I|I]|]; eauto.
Qed.
Ltac envs := first [ intros x K1 K2; repeat match goal with |- context [both ?u ?v x] => rewrite (proj1 (other_both x u v K1 K2)) end;
  repeat match goal with |- context [one ?u x] => rewrite (proj2 (other_both x u u K1 K2)) end; reflexivity ].
Lemma straight a b u v : mirrored_exprs m true a b = true -> alike a b = true ->
  eval (both u v) a = eval (one u) a /\ eval (both u v) b = eval (one v) a.
Proof.
  intros E A. split.
  - transitivity (eval (both u u) b).
    + apply (mirrored_same m true); auto; [|envs]. intros x y G. apply get_left in G.
      destruct (pair_both x y u v u G) as (c & d & ? & ? & ? & ? & ?); solve [exists c; auto | exists d; auto].
    + symmetry. apply (mirrored_same m true); auto; [|envs]. intros x y G. apply get_left in G.
      destruct (pair_both x y u v u G) as (c & d & ? & ? & ? & ? & ?); solve [exists c; auto | exists d; auto].
  - symmetry. apply (mirrored_same m true); auto; [|envs]. intros x y G. apply get_left in G.
    destruct (pair_both x y u v u G) as (c & d & ? & ? & ? & ? & ?); solve [exists c; auto | exists d; auto].
Qed.
Lemma reversed a b u v : mirrored_exprs m false a b = true -> alike a b = true ->
  eval (both u v) b = eval (one u) b /\ eval (both u v) a = eval (one v) b.
Proof.
  intros E A. split.
  - transitivity (eval (both u u) a).
    + symmetry. apply (mirrored_same m false); auto; [|envs]. intros y x G. apply get_right in G.
      destruct (pair_both x y u v u G) as (c & d & ? & ? & ? & ? & ?); solve [exists c; auto | exists d; auto].
    + apply (mirrored_same m false); auto; [|envs]. intros y x G. apply get_right in G.
      destruct (pair_both x y u v u G) as (c & d & ? & ? & ? & ? & ?); solve [exists c; auto | exists d; auto].
  - apply (mirrored_same m false); auto; [|envs]. intros y x G. apply get_right in G.
    destruct (pair_both x y u v u G) as (c & d & ? & ? & ? & ? & ?); solve [exists c; auto | exists d; auto].
Qed.
End Closure.
End Run.
Lemma insert_ext c c' : (forall x y, c x y = c' x y) -> forall x l, insert c x l = insert c' x l.
Proof. intros H x. induction l; cbn; auto. rewrite H. destruct (c' x a); congruence. Qed.
Lemma sort_ext c c' : (forall x y, c x y = c' x y) -> forall l, sort c l = sort c' l.
Proof. intros H. induction l; cbn; auto. rewrite IHl. apply insert_ext. assumption. Qed.
