From Coq Require Import List ZArith Bool PeanoNat Lia.
Import ListNotations.
From Verif Require Import RngSpec RngModel.
Local Open Scope Z_scope.

Lemma pure_eval op calls it e st : pure e = true -> exists v, eval op calls it e st = Some (v, st).
Proof.
  induction e; cbn; try discriminate; intros H; try (eexists; reflexivity);
    apply andb_true_iff in H; destruct H as [H1 H2];
    destruct (IHe1 H1) as [u ->]; destruct (IHe2 H2) as [v ->]; eexists; reflexivity.
Qed.

Lemma has_false p l : has p l = false -> forall n, In n l -> p n = false.
Proof.
  unfold has. intros H n Hn. destruct (p n) eqn:E; [|reflexivity].
  assert (existsb p l = true) by (apply existsb_exists; eauto). congruence.
Qed.

Section Body.
Variable op : nat -> Z -> Z -> Z.
Variable calls : nat -> Z -> trace -> Z.
Variable i : name.
Variable s : sq.
Variable l : loc.
Variable p : Z.
Variable enum : bool.

Definition fine (ns : list note) : Prop :=
  ~ In Indirect ns /\ (forall t, In (Direct t) ns -> t = s) /\ (enum = false -> ~ In Nonindex ns).
Lemma fine_app a b : fine (a ++ b) -> fine a /\ fine b.
Proof.
  intros (H1 & H2 & H3). split; (split; [|split]).
  - intros H. apply H1, in_or_app; auto.
  - intros t H. apply H2, in_or_app; auto.
  - intros E H. apply (H3 E), in_or_app; auto.
  - intros H. apply H1, in_or_app; auto.
  - intros t H. apply H2, in_or_app; auto.
  - intros E H. apply (H3 E), in_or_app; auto.
Qed.

Definition rel (a b : state) : Prop :=
  (forall x, x <> i -> vars a x = vars b x) /\ arrs a = arrs b /\ mats a = mats b /\ calls_made a = calls_made b /\
  vars a i = p /\ (enum = true -> vars b i = p) /\ locate s a = Some l.
Definition rel_v (a b : option (Z * state)) : Prop :=
  match a, b with Some (u, a), Some (v, b) => u = v /\ rel a b | None, None => True | _, _ => False end.
Definition rel_s (a b : option state) : Prop :=
  match a, b with Some a, Some b => rel a b | None, None => True | _, _ => False end.

Lemma see_fine x a b : fine (see i x) -> rel a b -> vars a x = vars b x.
Proof.
  unfold see. intros (_ & _ & F) (R1 & _ & _ & _ & R5 & R6 & _). destruct (Nat.eqb_spec x i) as [->|N].
  - destruct enum eqn:E; [rewrite R5, R6; auto|]. exfalso. apply (F eq_refl). left. reflexivity.
  - apply R1, N.
Qed.
Lemma content_rel loc0 a b : rel a b -> content loc0 a = content loc0 b.
Proof. intros (_ & R2 & R3 & _). destruct loc0; cbn; rewrite ?R2, ?R3; reflexivity. Qed.
Lemma load_rel loc0 z a b : rel a b -> load loc0 z a = load loc0 z b.
Proof. intros R. unfold load. rewrite (content_rel loc0 a b R). reflexivity. Qed.
Lemma locate_rel t a b : (forall v k, t = SRow v (KVar k) -> vars a k = vars b k) -> rel a b -> locate t a = locate t b.
Proof.
  intros H (_ & _ & R3 & _). destruct t as [v|v k]; [reflexivity|]. cbn. rewrite R3.
  destruct k as [z|k]; [reflexivity|]. rewrite (H v k eq_refl). reflexivity.
Qed.
Lemma replace_length {A} n (x : A) ls : length (replace n x ls) = length ls.
Proof. revert n; induction ls; destruct n; cbn; auto. Qed.
Lemma locate_put t loc0 c a : locate t (put loc0 c a) = locate t a.
Proof.
  destruct t as [v|v k]; [reflexivity|]. destruct loc0 as [w|w n]; cbn; [reflexivity|].
  destruct (Nat.eqb_spec w v) as [->|]; [|reflexivity]. rewrite replace_length. reflexivity.
Qed.
Lemma put_rel loc0 c a b : rel a b -> rel (put loc0 c a) (put loc0 c b).
Proof.
  intros R. pose proof R as (R1 & R2 & R3 & R4 & R5 & R6 & R7).
  unfold rel. rewrite locate_put. destruct loc0; cbn; rewrite ?R2, ?R3; repeat split; auto.
Qed.
Lemma store_rel loc0 z v a b : rel a b -> rel_s (store loc0 z v a) (store loc0 z v b).
Proof.
  intros R. unfold store. rewrite (content_rel loc0 a b R). destruct (z <? 0); [exact Logic.I|].
  destruct (_ <? _)%nat; [|exact Logic.I]. apply put_rel, R.
Qed.

(* An index that is seen: it is the element, or its parts are *)
Lemma check_index_fine m t a inner :
  fine (check_index i m t a inner) ->
  (t = s /\ a = EVar i /\ (forall v k, t = SRow v (KVar k) -> k <> i)) \/
  (~ (t = s /\ a = EVar i) /\ fine inner /\ (forall v k, t = SRow v (KVar k) -> fine (see i k))).
Proof.
  intros F.
  assert (G : forall b, uses i a = b ->
    fine (if b then (if m then [Mut (sq_name t)] else []) ++ [match a with EVar _ => Direct t | _ => Indirect end] else see_sq i t ++ inner) ->
    (t = s /\ a = EVar i) \/ (~ (t = s /\ a = EVar i) /\ fine inner /\ (forall v k, t = SRow v (KVar k) -> fine (see i k)))).
  { clear F. intros [|] U F.
    - left. apply fine_app in F. destruct F as [_ (F1 & F2 & _)]. destruct a; cbn in F1; try (exfalso; apply F1; left; reflexivity).
      cbn in U. apply Nat.eqb_eq in U. subst. split; [|reflexivity]. apply F2. left. reflexivity.
    - right. apply fine_app in F. destruct F as [F1 F2]. split; [|split; [exact F2|]].
      + intros [_ ->]. cbn in U. rewrite Nat.eqb_refl in U. discriminate.
      + intros v k ->. cbn in F1. change (Referenced v :: see i k) with ([Referenced v] ++ see i k) in F1.
        apply fine_app in F1. apply F1. }
  destruct t as [v|v [z|k]].
  - destruct (G _ eq_refl F) as [[A B]|H]; [left|right; exact H]. repeat split; auto. intros; discriminate.
  - destruct (G _ eq_refl F) as [[A B]|H]; [left|right; exact H]. repeat split; auto. intros; discriminate.
  - cbn in F. destruct (Nat.eqb_spec k i) as [->|N].
    + exfalso. apply (proj1 F). left. reflexivity.
    + destruct (G _ eq_refl F) as [[A B]|H]; [left|right; exact H]. repeat split; auto.
      intros v' k' E. inversion E; subst. exact N.
Qed.

Notation ev := (eval op calls).
Lemma with_item_eval e : no_item_e e = true -> fine (visit i e) -> forall a b, rel a b ->
  rel_v (ev None e a) (ev (Some (l, p)) (with_item_e i s e) b).
Proof.
  induction e; cbn [no_item_e visit with_item_e]; intros NI F st1 st2 R.
  - cbn. auto.
  - cbn. split; [apply (see_fine x); assumption|assumption].
  - apply andb_true_iff in NI. destruct NI as [N1 N2]. apply fine_app in F. destruct F as [F1 F2].
    cbn. specialize (IHe1 N1 F1 _ _ R). destruct (ev None e1 st1) as [[u st1']|], (ev (Some (l, p)) (with_item_e i s e1) st2) as [[u' st2']|]; cbn in IHe1; try contradiction; [|exact Logic.I].
    destruct IHe1 as [<- R1]. specialize (IHe2 N2 F2 _ _ R1). destruct (ev None e2 st1') as [[v st1'']|], (ev (Some (l, p)) (with_item_e i s e2) st2') as [[v' st2'']|]; cbn in IHe2; try contradiction; [|exact Logic.I].
    destruct IHe2 as [<- R2]. split; auto.
  - apply andb_true_iff in NI. destruct NI as [N1 N2]. apply fine_app in F. destruct F as [F1 F2].
    cbn. specialize (IHe1 N1 F1 _ _ R). destruct (ev None e1 st1) as [[u st1']|], (ev (Some (l, p)) (with_item_e i s e1) st2) as [[u' st2']|]; cbn in IHe1; try contradiction; [|exact Logic.I].
    destruct IHe1 as [<- R1]. specialize (IHe2 N2 F2 _ _ R1). destruct (ev None e2 st1') as [[v st1'']|], (ev (Some (l, p)) (with_item_e i s e2) st2') as [[v' st2'']|]; cbn in IHe2; try contradiction; [|exact Logic.I].
    destruct IHe2 as [<- R2]. split; auto.
  - cbn. specialize (IHe NI F _ _ R). destruct (ev None e st1) as [[u st1']|], (ev (Some (l, p)) (with_item_e i s e) st2) as [[u' st2']|]; cbn in IHe; try contradiction; [|exact Logic.I].
    destruct IHe as [<- R1]. pose proof R1 as (Q1 & Q2 & Q3 & Q4 & Q5 & Q6 & Q7). split; [rewrite Q4; reflexivity|].
    unfold rel. cbn. rewrite Q4. repeat split; auto.
  - apply check_index_fine in F. destruct F as [(E1 & E2 & Hk)|(NE & F & Hk)].
    + subst s0 e. destruct (sq_dec s s) as [_|]; [|contradiction]. destruct (expr_dec (EVar i) (EVar i)) as [_|]; [|contradiction].
      cbn. pose proof R as (Q1 & Q2 & Q3 & Q4 & Q5 & Q6 & Q7). rewrite Q7, Q5, (load_rel l p st1 st2 R).
      destruct (load l p st2); [split; auto|exact Logic.I].
    + assert (E : (if sq_dec s s0 then if expr_dec e (EVar i) then EItem else EIdx s0 (with_item_e i s e) else EIdx s0 (with_item_e i s e)) = EIdx s0 (with_item_e i s e)).
      { destruct (sq_dec s s0); [|reflexivity]. destruct (expr_dec e (EVar i)); [|reflexivity]. subst. exfalso. apply NE. auto. }
      rewrite E. cbn. specialize (IHe NI F _ _ R).
      destruct (ev None e st1) as [[u st1']|], (ev (Some (l, p)) (with_item_e i s e) st2) as [[u' st2']|]; cbn in IHe; try contradiction; [|exact Logic.I].
      destruct IHe as [<- R1].
      rewrite (locate_rel s0 st1' st2'); [|intros v k EE; apply (see_fine k); [apply (Hk v), EE|exact R1]|exact R1].
      destruct (locate s0 st2') as [l0|]; [|exact Logic.I]. rewrite (load_rel l0 u st1' st2' R1).
      destruct (load l0 u st2'); [split; auto|exact Logic.I].
  - cbn. destruct R as (R1 & R2 & R3 & R'). rewrite R2. split; [reflexivity|repeat split; try apply R'; auto].
  - cbn. destruct R as (R1 & R2 & R3 & R'). rewrite R3. split; [reflexivity|repeat split; try apply R'; auto].
  - discriminate.
Qed.

Lemma set_rel x v a b :
  x <> i -> (forall w k, s = SRow w (KVar k) -> k <> x) -> rel a b -> rel (set x v a) (set x v b).
Proof.
  intros N K (R1 & R2 & R3 & R4 & R5 & R6 & R7). unfold rel. cbn. repeat split; auto.
  - intros y Hy. destruct (Nat.eqb x y); auto.
  - destruct (Nat.eqb_spec x i); [contradiction|exact R5].
  - destruct (Nat.eqb_spec x i); [contradiction|exact R6].
  - destruct s as [w|w [z|k]]; auto. cbn in *. destruct (Nat.eqb_spec x k) as [->|]; [|exact R7].
    exfalso. apply (K w k); reflexivity.
Qed.

Lemma with_item_exec body : no_item body = true -> fine (visit_stmt i body) ->
  ~ In i (assigned body) -> (forall w k, s = SRow w (KVar k) -> ~ In k (assigned body)) ->
  forall a b, rel a b -> rel_s (exec op calls None body a) (exec op calls (Some (l, p)) (with_item i s body) b).
Proof.
  induction body; cbn [no_item visit_stmt with_item assigned]; intros NI F NA K st1 st2 R.
  - exact R.
  - apply andb_true_iff in NI. destruct NI as [N1 N2]. apply fine_app in F. destruct F as [F1 F2]. cbn.
    assert (A1 : ~ In i (assigned body1)) by (intros H; apply NA, in_or_app; auto).
    assert (A2 : ~ In i (assigned body2)) by (intros H; apply NA, in_or_app; auto).
    assert (K1 : forall w k, s = SRow w (KVar k) -> ~ In k (assigned body1)) by (intros w k E H; apply (K w k E), in_or_app; auto).
    assert (K2 : forall w k, s = SRow w (KVar k) -> ~ In k (assigned body2)) by (intros w k E H; apply (K w k E), in_or_app; auto).
    specialize (IHbody1 N1 F1 A1 K1 _ _ R).
    destruct (exec op calls None body1 st1), (exec op calls (Some (l, p)) (with_item i s body1) st2); cbn in IHbody1; try contradiction; [|exact Logic.I].
    apply IHbody2; assumption.
  - cbn. pose proof (with_item_eval e NI F _ _ R) as H.
    destruct (ev None e st1) as [[u a]|], (ev (Some (l, p)) (with_item_e i s e) st2) as [[u' b]|]; cbn in H; try contradiction; [apply H|exact Logic.I].
  - apply fine_app in F. destruct F as [_ F]. cbn. pose proof (with_item_eval e NI F _ _ R) as H.
    destruct (ev None e st1) as [[u a]|], (ev (Some (l, p)) (with_item_e i s e) st2) as [[u' b]|]; cbn in H; try contradiction; [|exact Logic.I].
    destruct H as [<- H]. cbn. apply set_rel; [| |exact H].
    + intros ->. apply NA. left. reflexivity.
    + intros w k E ->. apply (K w x E). left. reflexivity.
  - apply andb_true_iff in NI. destruct NI as [N1 N2]. apply fine_app in F. destruct F as [F1 F2].
    pose proof (with_item_eval e N2 F2 _ _ R) as H.
    apply check_index_fine in F1. destruct F1 as [(E1 & E2 & Hk)|(NE & F & Hk)].
    + subst s0 a. destruct (sq_dec s s) as [_|]; [|contradiction]. destruct (expr_dec (EVar i) (EVar i)) as [_|]; [|contradiction].
      cbn. destruct (ev None e st1) as [[u a]|], (ev (Some (l, p)) (with_item_e i s e) st2) as [[u' b]|]; cbn in H; try contradiction; [|exact Logic.I].
      destruct H as [<- H]. pose proof H as (Q1 & Q2 & Q3 & Q4 & Q5 & Q6 & Q7). rewrite Q7, Q5. apply store_rel, H.
    + assert (E : (if sq_dec s s0 then if expr_dec a (EVar i) then SItem (with_item_e i s e) else SStore s0 (with_item_e i s a) (with_item_e i s e) else SStore s0 (with_item_e i s a) (with_item_e i s e)) = SStore s0 (with_item_e i s a) (with_item_e i s e)).
      { destruct (sq_dec s s0); [|reflexivity]. destruct (expr_dec a (EVar i)); [|reflexivity]. subst. exfalso. apply NE. auto. }
      rewrite E. cbn. destruct (ev None e st1) as [[u st1']|], (ev (Some (l, p)) (with_item_e i s e) st2) as [[u' st2']|]; cbn in H; try contradiction; [|exact Logic.I].
      destruct H as [<- H]. pose proof (with_item_eval a N1 F _ _ H) as H'.
      destruct (ev None a st1') as [[w st1'']|], (ev (Some (l, p)) (with_item_e i s a) st2') as [[w' st2'']|]; cbn in H'; try contradiction; [|exact Logic.I].
      destruct H' as [<- R1].
      rewrite (locate_rel s0 st1'' st2''); [|intros v k EE; apply (see_fine k); [apply (Hk v), EE|exact R1]|exact R1].
      destruct (locate s0 st2'') as [l0|]; [|exact Logic.I]. apply store_rel, R1.
  - discriminate.
  - apply andb_true_iff in NI. destruct NI as [NI N2]. apply andb_true_iff in NI. destruct NI as [N0 N1].
    apply fine_app in F. destruct F as [F0 F]. apply fine_app in F. destruct F as [F1 F2].
    assert (A1 : ~ In i (assigned body1)) by (intros H; apply NA, in_or_app; auto).
    assert (A2 : ~ In i (assigned body2)) by (intros H; apply NA, in_or_app; auto).
    assert (K1 : forall w k, s = SRow w (KVar k) -> ~ In k (assigned body1)) by (intros w k E H; apply (K w k E), in_or_app; auto).
    assert (K2 : forall w k, s = SRow w (KVar k) -> ~ In k (assigned body2)) by (intros w k E H; apply (K w k E), in_or_app; auto).
    cbn. pose proof (with_item_eval c N0 F0 _ _ R) as H.
    destruct (ev None c st1) as [[u a]|], (ev (Some (l, p)) (with_item_e i s c) st2) as [[u' b]|]; cbn in H; try contradiction; [|exact Logic.I].
    destruct H as [<- H]. destruct (u =? 0); [apply IHbody2|apply IHbody1]; assumption.
Qed.
End Body.

(* The positions *)
Lemma nth_range a b n : (n < Z.to_nat (b - a))%nat -> nth_error (range a b) n = Some (a + Z.of_nat n).
Proof.
  intros H. unfold range. rewrite nth_error_map, (nth_error_nth' _ 0%nat) by (rewrite seq_length; exact H).
  rewrite seq_nth by exact H. reflexivity.
Qed.
Lemma range_split a n : 0 <= a -> (n <= Z.to_nat a)%nat -> range 0 a = range 0 (Z.of_nat n) ++ range (Z.of_nat n) a.
Proof.
  intros H1 H2. unfold range. rewrite !Z.sub_0_r, Nat2Z.id.
  replace (Z.to_nat a) with (n + Z.to_nat (a - Z.of_nat n))%nat by lia.
  rewrite seq_app, map_app. f_equal. cbn.
  replace (Z.to_nat (Z.of_nat (n + Z.to_nat (a - Z.of_nat n)) - Z.of_nat n)) with (Z.to_nat (a - Z.of_nat n)) by lia.
  generalize (Z.to_nat (a - Z.of_nat n)) as m. intros m.
  assert (G : forall k, map (fun x : nat => Z.of_nat x) (seq (n + k) m) = map (fun x => Z.of_nat n + Z.of_nat x) (seq k m)).
  { induction m; intros k; cbn; [reflexivity|]. f_equal; [lia|]. rewrite <- IHm. f_equal. f_equal. lia. }
  specialize (G 0%nat). rewrite Nat.add_0_r in G. exact G.
Qed.
Lemma range_length a b : length (range a b) = Z.to_nat (b - a).
Proof. unfold range. rewrite map_length, seq_length. reflexivity. Qed.
Lemma skipn_range a len : 0 <= a -> 0 <= len -> skipn (Z.to_nat a) (range 0 len) = range a len.
Proof.
  intros H L. destruct (Z_le_gt_dec a len) as [Hl|Hl].
  - rewrite (range_split len (Z.to_nat a)) by lia. rewrite Z2Nat.id by lia.
    rewrite skipn_app, range_length. replace (Z.to_nat a - Z.to_nat (a - 0))%nat with 0%nat by lia.
    rewrite skipn_all2 by (rewrite range_length; lia). reflexivity.
  - rewrite skipn_all2 by (rewrite range_length; lia). unfold range. replace (Z.to_nat (len - a)) with 0%nat by lia. reflexivity.
Qed.
Lemma firstn_range a b len : b <= len -> firstn (Z.to_nat (b - a)) (range a len) = range a b.
Proof.
  intros H. unfold range. rewrite firstn_map. f_equal.
  destruct (Z_le_gt_dec a b).
  - replace (Z.to_nat (len - a)) with (Z.to_nat (b - a) + Z.to_nat (len - b))%nat by lia.
    rewrite seq_app, firstn_app, seq_length, Nat.sub_diag, firstn_all2 by (rewrite seq_length; lia). apply app_nil_r.
  - replace (Z.to_nat (b - a)) with 0%nat by lia. reflexivity.
Qed.
