From Coq Require Import List ZArith Bool PeanoNat Lia.
Import ListNotations.
From Verif Require Import RcuSpec RcuModel.

Section Flow.
Variable op : nat -> Z -> Z -> option Z.
Variable un : nat -> Z -> option Z.
Variable calls : nat -> Z -> trace -> Z.
Variables (ps : list name) (body : expr).
Hypothesis op_total : forall o a b, op o a b <> None.
Hypothesis un_total : forall o a, un o a <> None.
Notation eval := (eval op un calls ps body).

(* The names that make no difference *)
Variable L : list name.
Definition agree (m1 m2 : env) : Prop := forall x, ~ In x L -> m1 x = m2 x.
Definition relevant (u : use) : Prop :=
  match u with
  | Dropped => False
  | Argument i => forall p, nth_error ps i = Some p -> ~ In p L
  | Update x => ~ In x L
  | Used => True
  end.
Definition safe (u : use) (e : expr) : Prop :=
  forall x o, In (x, o) (occ u e) -> In x L -> exists i p, o = Some i /\ nth_error ps i = Some p /\ In p L.
Definition like (u : use) (r1 r2 : outcome) : Prop :=
  match r1, r2 with
  | Ok v1 m1 h1, Ok v2 m2 h2 => h1 = h2 /\ agree m1 m2 /\ (relevant u -> v1 = v2)
  | Return v1 h1, Return v2 h2 => v1 = v2 /\ h1 = h2
  | Panic h1, Panic h2 => h1 = h2
  | Timeout, Timeout => True
  | _, _ => False
  end.
Lemma like_used u r1 r2 : like Used r1 r2 -> like u r1 r2.
Proof. destruct r1, r2; cbn; try tauto. Qed.
Lemma bind_like u w r1 r2 k1 k2 : like u r1 r2 ->
  (forall v1 v2 m1 m2 h, agree m1 m2 -> (relevant u -> v1 = v2) -> like w (k1 v1 m1 h) (k2 v2 m2 h)) ->
  like w (bind r1 k1) (bind r2 k2).
Proof. destruct r1, r2; cbn; try tauto. intros (-> & A & V) K. apply K; assumption. Qed.
Lemma agree_upd m1 m2 x v1 v2 : agree m1 m2 -> (~ In x L -> v1 = v2) -> agree (upd m1 x v1) (upd m2 x v2).
Proof. intros A V y N. unfold upd. destruct (Nat.eqb_spec x y) as [->|_]; [apply V, N|apply A, N]. Qed.
Lemma agree_bindings : forall ps0 vs1 vs2, length vs1 = length vs2 ->
  (forall i p, nth_error ps0 i = Some p -> ~ In p L -> nth_error vs1 i = nth_error vs2 i) ->
  agree (bindings ps0 vs1) (bindings ps0 vs2).
Proof.
  induction ps0 as [|p ps0 IH]; intros vs1 vs2 Len E; [intros x _; reflexivity|].
  destruct vs1 as [|v1 vs1], vs2 as [|v2 vs2]; try discriminate Len; [intros x _; reflexivity|].
  cbn. apply agree_upd.
  - apply IH; [cbn in Len; lia|]. intros i q H N. exact (E (S i) q H N).
  - intros N. specialize (E 0 p eq_refl N). cbn in E. congruence.
Qed.
Definition eager (e : expr) : Prop := forall x, In x (lazy_on e) -> ~ In x L.
(* Without one of the names, every use is fine. *)
Fixpoint size (e : expr) : nat :=
  S match e with
    | ELit _ | EVar _ => 0
    | EUn _ a | ECall _ a | ERet a | EAssign _ a | EAssignOp _ _ a => size a
    | EBin _ a b | ELazy _ a b | EWhen a b | EWhile a b | ESeq a b | ELet _ a b => size a + size b
    | EIf a b c => size a + size b + size c
    | ERec es => list_sum (map size es)
    end.
Lemma occ_vars : forall n e, size e <= n -> forall u x o, In (x, o) (occ u e) -> In x (vars e).
Proof.
  induction n as [|n IH]; intros e Le u x o; [destruct e; cbn in Le; lia|].
  assert (R : forall y, In (x, o) (recorded u y) -> x = y).
  { intros y. destruct u as [|i|z|]; cbn; try tauto.
    - intros [E|[]]. congruence.
    - destruct (Nat.eqb y z); cbn; [tauto|]. intros [E|[]]. congruence.
    - intros [E|[]]. congruence. }
  destruct e as [z|y|k a b|w a b|k a|y a|k y a|f a|es|c a b|c a|c a|a b|y a b|a]; cbn [occ vars size] in *;
    rewrite ?in_app_iff in *; try (intros H; specialize (IH a ltac:(lia) _ x o H); cbn; rewrite ?in_app_iff; tauto);
    try (intros [H|H]; [specialize (IH a ltac:(lia) _ x o H)|specialize (IH b ltac:(lia) _ x o H)]; cbn; rewrite ?in_app_iff; tauto);
    try (intros [H|H]; [specialize (IH c ltac:(lia) _ x o H)|specialize (IH a ltac:(lia) _ x o H)]; cbn; rewrite ?in_app_iff; tauto).
  - intros [].
  - intros H. left. symmetry. apply R, H.
  - generalize 0. induction es as [|a es IHes]; intros i; [intros []|].
    change (list_sum (map size (a :: es))) with (size a + list_sum (map size es)) in Le. cbn [flat_map]. rewrite !in_app_iff. intros [H|H].
    + left. apply (IH a ltac:(lia) _ x o H).
    + right. apply (IHes ltac:(lia) (S i) H).
  - intros [H|[H|H]]; [specialize (IH c ltac:(lia) _ x o H)|specialize (IH a ltac:(lia) _ x o H)|specialize (IH b ltac:(lia) _ x o H)]; tauto.
Qed.
Lemma absent_safe u e : (forall x, In x (vars e) -> ~ In x L) -> safe u e.
Proof. intros N x o H I. destruct (N x (occ_vars _ e (le_n _) u x o H) I). Qed.

Fixpoint arg_occ (i : nat) (es : list expr) : list (name * option nat) :=
  match es with [] => [] | a :: es => occ (Argument i) a ++ arg_occ (S i) es end.
Lemma occ_rec u es : occ u (ERec es) = arg_occ 0 es.
Proof. cbn [occ]. generalize 0. induction es as [|a es IH]; intros i; [reflexivity|]. cbn [arg_occ]. f_equal. Qed.

Definition body_ok := safe Used body /\ eager body.
Theorem eval_like : body_ok -> forall n e u m1 m2 h, safe u e -> eager e -> agree m1 m2 -> like u (eval n e m1 h) (eval n e m2 h).
Proof.
  intros (Sb & Eb). induction n as [|n IH]; intros e u m1 m2 h S E A; [exact I|].
  destruct e as [z|y|k a b|w a b|k a|y a|k y a|f a|es|c a b|c a|c a|a b|y a b|a]; cbn [RcuSpec.eval].
  - cbn. auto.
  - cbn. repeat split; auto. intros R. destruct (in_dec Nat.eq_dec y L) as [H|H]; [|apply A, H]. exfalso.
    unfold safe in S. cbn [occ] in S. destruct u as [|i|z|]; cbn in *.
    + exact R.
    + destruct (S y (Some i) (or_introl eq_refl) H) as (j & p & Ej & Np & Ip). injection Ej as <-. exact (R p Np Ip).
    + destruct (Nat.eqb_spec y z) as [->|N]; [exact (R H)|].
      destruct (S y None (or_introl eq_refl) H) as (j & p & Ej & _). discriminate Ej.
    + destruct (S y None (or_introl eq_refl) H) as (j & p & Ej & _). discriminate Ej.
  - assert (Sa : safe u a) by (intros x o H; apply S; cbn; apply in_or_app; auto).
    assert (Sb' : safe u b) by (intros x o H; apply S; cbn; apply in_or_app; auto).
    assert (Ea : eager a) by (intros x H; apply E; cbn; apply in_or_app; auto).
    assert (Eb' : eager b) by (intros x H; apply E; cbn; apply in_or_app; auto).
    eapply bind_like; [apply (IH a u); assumption|]. intros v1 v2 n1 n2 g A1 V1.
    eapply bind_like; [apply (IH b u); assumption|]. intros w1 w2 o1 o2 g2 A2 V2. unfold arith.
    pose proof (op_total k v1 w1). pose proof (op_total k v2 w2).
    destruct (op k v1 w1) eqn:E1, (op k v2 w2) eqn:E2; try congruence. cbn. repeat split; auto.
    intros R. rewrite V1, V2 in E1 by exact R. congruence.
  - assert (Sa : safe Used a). { apply absent_safe. intros x H. apply E. cbn. apply in_or_app. auto. }
    assert (Sb' : safe u b) by (intros x o H; apply S; cbn; apply in_or_app; auto).
    assert (Ea : eager a) by (intros x H; apply E; cbn; rewrite !in_app_iff; auto).
    assert (Eb' : eager b) by (intros x H; apply E; cbn; rewrite !in_app_iff; auto).
    eapply bind_like; [apply (IH a Used); assumption|]. intros v1 v2 n1 n2 g A1 V1. rewrite V1 by exact I.
    destruct (Bool.eqb (v2 =? 0)%Z w); [cbn; auto|]. apply IH; assumption.
  - eapply bind_like; [apply (IH a u); [exact S|exact E|exact A]|]. intros v1 v2 n1 n2 g A1 V1. unfold arith.
    pose proof (un_total k v1). pose proof (un_total k v2).
    destruct (un k v1) eqn:E1, (un k v2) eqn:E2; try congruence. cbn. repeat split; auto.
    intros R. rewrite V1 in E1 by exact R. congruence.
  - eapply bind_like; [apply (IH a (Update y)); [exact S|exact E|exact A]|]. intros v1 v2 n1 n2 g A1 V1. cbn.
    repeat split; auto. apply agree_upd; assumption.
  - eapply bind_like; [apply (IH a (Update y)); [exact S|exact E|exact A]|]. intros v1 v2 n1 n2 g A1 V1. unfold arith.
    pose proof (op_total k (n1 y) v1). pose proof (op_total k (n2 y) v2).
    destruct (op k (n1 y) v1) eqn:E1, (op k (n2 y) v2) eqn:E2; try congruence. cbn. repeat split; auto.
    apply agree_upd; [assumption|]. intros N. rewrite (A1 y N), (V1 N) in E1. congruence.
  - eapply bind_like; [apply (IH a Used); [exact S|exact E|exact A]|]. intros v1 v2 n1 n2 g A1 V1. rewrite V1 by exact I. cbn. auto.
  - set (evals := fix evals (es : list expr) (vs : list Z) (m : env) (h : trace) : outcome :=
        match es with
        | [] => match eval n body (bindings ps vs) h with Ok v _ h | Return v h => Ok v m h | r => r end
        | a :: es => bind (eval n a m h) (fun v m h => evals es (vs ++ [v]) m h)
        end).
    assert (G : forall es vs1 vs2 m1 m2 h, agree m1 m2 -> length vs1 = length vs2 ->
      (forall j p, nth_error ps j = Some p -> ~ In p L -> nth_error vs1 j = nth_error vs2 j) ->
      (forall x o, In (x, o) (arg_occ (length vs1) es) ->
         In x L -> exists i p, o = Some i /\ nth_error ps i = Some p /\ In p L) ->
      (forall x, In x (flat_map lazy_on es) -> ~ In x L) ->
      like u (evals es vs1 m1 h) (evals es vs2 m2 h)).
    { clear es S E A m1 m2 h. induction es as [|a es IHes]; intros vs1 vs2 m1 m2 h A Len Ev S E.
      - cbn. pose proof (IH body Used (bindings ps vs1) (bindings ps vs2) h Sb Eb (agree_bindings ps vs1 vs2 Len Ev)) as B.
        destruct (eval n body (bindings ps vs1) h), (eval n body (bindings ps vs2) h); cbn in *; try tauto.
      - cbn [evals]. eapply (bind_like (Argument (length vs1))).
        + apply IH; [|intros x H; apply E; cbn; apply in_or_app; auto|exact A].
          intros x o H. apply S. apply in_or_app. auto.
        + intros v1 v2 n1 n2 g A1 V1. apply IHes; auto.
          * rewrite !app_length. cbn. lia.
          * intros j p Hp N. destruct (Nat.lt_trichotomy j (length vs1)) as [H|[H|H]].
            -- rewrite !nth_error_app1 by lia. apply (Ev j p Hp N).
            -- subst j. rewrite !nth_error_app2 by lia. rewrite Len, Nat.sub_diag. cbn. rewrite V1; [reflexivity|].
               intros q Hq. rewrite Hp in Hq. congruence.
            -- rewrite (proj2 (nth_error_None (vs1 ++ [v1]) j)), (proj2 (nth_error_None (vs2 ++ [v2]) j));
                 [reflexivity| |]; rewrite app_length; cbn; lia.
          * intros x o H. apply S. apply in_or_app. right. rewrite app_length in H. cbn in H. rewrite Nat.add_1_r in H. exact H.
          * intros x H. apply E. cbn. apply in_or_app. auto. }
    apply G; auto.
  - assert (Sc : safe Used c) by (intros x o H; apply S; cbn; apply in_or_app; auto).
    assert (Sa : safe Used a) by (intros x o H; apply S; cbn; rewrite !in_app_iff; auto).
    assert (Sb' : safe Used b) by (intros x o H; apply S; cbn; rewrite !in_app_iff; auto).
    assert (Ec : eager c) by (intros x H; apply E; cbn; rewrite !in_app_iff; auto).
    assert (Ea : eager a) by (intros x H; apply E; cbn; rewrite !in_app_iff; auto).
    assert (Eb' : eager b) by (intros x H; apply E; cbn; rewrite !in_app_iff; auto).
    eapply bind_like; [apply (IH c Used); assumption|]. intros v1 v2 n1 n2 g A1 V1. rewrite V1 by exact I.
    destruct (v2 =? 0)%Z; apply like_used, IH; assumption.
  - assert (Sc : safe Used c) by (intros x o H; apply S; cbn; apply in_or_app; auto).
    assert (Sa : safe Dropped a) by (intros x o H; apply S; cbn; rewrite !in_app_iff; auto).
    assert (Ec : eager c) by (intros x H; apply E; cbn; rewrite !in_app_iff; auto).
    assert (Ea : eager a) by (intros x H; apply E; cbn; rewrite !in_app_iff; auto).
    eapply bind_like; [apply (IH c Used); assumption|]. intros v1 v2 n1 n2 g A1 V1. rewrite V1 by exact I.
    destruct (v2 =? 0)%Z; [cbn; auto|]. eapply bind_like; [apply (IH a Dropped); assumption|]. intros. cbn. auto.
  - assert (Sc : safe Used c) by (intros x o H; apply S; cbn; apply in_or_app; auto).
    assert (Sa : safe Used a) by (intros x o H; apply S; cbn; rewrite !in_app_iff; auto).
    assert (Ec : eager c) by (intros x H; apply E; cbn; rewrite !in_app_iff; auto).
    assert (Ea : eager a) by (intros x H; apply E; cbn; rewrite !in_app_iff; auto).
    eapply bind_like; [apply (IH c Used); assumption|]. intros v1 v2 n1 n2 g A1 V1. rewrite V1 by exact I.
    destruct (v2 =? 0)%Z; [cbn; auto|]. eapply bind_like; [apply (IH a Used); assumption|]. intros w1 w2 o1 o2 g2 A2 _.
    apply like_used, IH; assumption.
  - assert (Sa : safe Dropped a) by (intros x o H; apply S; cbn; apply in_or_app; auto).
    assert (Sb' : safe u b) by (intros x o H; apply S; cbn; apply in_or_app; auto).
    assert (Ea : eager a) by (intros x H; apply E; cbn; apply in_or_app; auto).
    assert (Eb' : eager b) by (intros x H; apply E; cbn; apply in_or_app; auto).
    eapply bind_like; [apply (IH a Dropped); assumption|]. intros v1 v2 n1 n2 g A1 _. apply IH; assumption.
  - assert (Sa : safe Used a) by (intros x o H; apply S; cbn; apply in_or_app; auto).
    assert (Sb' : safe u b) by (intros x o H; apply S; cbn; apply in_or_app; auto).
    assert (Ea : eager a) by (intros x H; apply E; cbn; apply in_or_app; auto).
    assert (Eb' : eager b) by (intros x H; apply E; cbn; apply in_or_app; auto).
    eapply bind_like; [apply (IH a Used); assumption|]. intros v1 v2 n1 n2 g A1 V1. apply IH; try assumption.
    apply agree_upd; [assumption|]. intros _. apply V1. exact I.
  - eapply bind_like; [apply (IH a Used); [exact S|exact E|exact A]|]. intros v1 v2 n1 n2 g A1 V1. rewrite V1 by exact I. cbn. auto.
Qed.
Theorem call_same : body_ok -> forall n vs1 vs2 h, length vs1 = length vs2 ->
  (forall i p, nth_error ps i = Some p -> ~ In p L -> nth_error vs1 i = nth_error vs2 i) ->
  call op un calls ps body n vs1 h = call op un calls ps body n vs2 h.
Proof.
  intros B n vs1 vs2 h Len E. unfold call.
  pose proof (eval_like B n body Used _ _ h (proj1 B) (proj2 B) (agree_bindings ps vs1 vs2 Len E)) as K.
  destruct (eval n body (bindings ps vs1) h), (eval n body (bindings ps vs2) h); cbn in K; try tauto.
  - destruct K as (-> & _ & V). rewrite V by exact I. reflexivity.
  - destruct K as (-> & ->). reflexivity.
  - congruence.
Qed.
End Flow.
