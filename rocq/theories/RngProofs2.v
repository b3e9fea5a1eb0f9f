From Coq Require Import List ZArith Bool PeanoNat Lia.
Import ListNotations.
From Verif Require Import RngSpec RngModel RngProofs.
Local Open Scope Z_scope.

Section Loop.
Variable op : nat -> Z -> Z -> Z.
Variable calls : nat -> Z -> trace -> Z.

(* Between two rounds *)
Definition between (i : name) (s : sq) (l : loc) (a b : state) : Prop :=
  (forall x, x <> i -> vars a x = vars b x) /\ arrs a = arrs b /\ mats a = mats b /\ calls_made a = calls_made b /\
  (forall v, locate s (set i v a) = Some l).

Lemma each_items i s l enum body ps :
  no_item body = true -> fine s enum (visit_stmt i body) -> ~ In i (assigned body) ->
  (forall w k, s = SRow w (KVar k) -> k <> i /\ ~ In k (assigned body)) ->
  forall a b, between i s l a b ->
  same_but i (each op calls i body ps a) (each_item op calls (if enum then Some i else None) l (with_item i s body) ps b).
Proof.
  intros NI F NA K. induction ps as [|p ps IH]; intros a b B.
  - cbn. destruct B as (B1 & B2 & B3 & B4 & _). auto.
  - cbn.
    assert (R : rel i s l p enum (set i p a) (match (if enum then Some i else None) with Some i0 => set i0 p b | None => b end)).
    { destruct B as (B1 & B2 & B3 & B4 & B5).
      assert (Si : vars (set i p a) i = p) by (cbn; rewrite Nat.eqb_refl; reflexivity).
      assert (So : forall st x, x <> i -> vars (set i p st) x = vars st x).
      { intros st x Hx. cbn. destruct (Nat.eqb_spec i x); [congruence|reflexivity]. }
      destruct enum; (split; [|split; [|split; [|split; [|split; [|split]]]]]); auto.
      - intros x Hx. rewrite !So by exact Hx. auto.
      - intros _. cbn. rewrite Nat.eqb_refl. reflexivity.
      - intros x Hx. rewrite !So by exact Hx. auto.
      - discriminate. }
    pose proof (with_item_exec op calls i s l p enum body NI F NA (fun w k E => proj2 (K w k E)) _ _ R) as H.
    destruct (exec op calls None body (set i p a)) as [a'|],
      (exec op calls (Some (l, p)) (with_item i s body) (match (if enum then Some i else None) with Some i0 => set i0 p b | None => b end)) as [b'|];
      cbn in H; try contradiction; [|exact Logic.I].
    apply IH. destruct H as (Q1 & Q2 & Q3 & Q4 & Q5 & Q6 & Q7). repeat split; auto.
    intros v. destruct s as [w|w [z|k]]; auto. cbn. destruct (Nat.eqb_spec i k) as [->|N]; [|exact Q7].
    exfalso. apply (proj1 (K w k eq_refl)). reflexivity.
Qed.

Lemma directs_one l s : directs l = [s] -> forall t, In (Direct t) l -> t = s.
Proof.
  intros H t Ht. assert (I' : In t (directs l)).
  { unfold directs. apply nodup_In, in_flat_map. exists (Direct t). split; [exact Ht|]. left. reflexivity. }
  rewrite H in I'. destruct I' as [->|[]]. reflexivity.
Qed.
Lemma directs_in l s : directs l = [s] -> In (Direct s) l.
Proof.
  intros H. assert (I' : In s (directs l)) by (rewrite H; left; reflexivity).
  unfold directs in I'. apply nodup_In, in_flat_map in I'. destruct I' as (n & Hn & Hs).
  destruct n; cbn in Hs; try contradiction. destruct Hs as [->|[]]. exact Hn.
Qed.
Lemma direct_row i : forall v k,
  (forall e, In (Direct (SRow v (KVar k))) (visit i e) -> k <> i).
Proof.
  assert (C : forall m t a inner v k, In (Direct (SRow v (KVar k))) (check_index i m t a inner) -> k <> i \/ In (Direct (SRow v (KVar k))) inner).
  { intros m t a inner v k.
    assert (G : In (Direct (SRow v (KVar k)))
        (if uses i a then (if m then [Mut (sq_name t)] else []) ++ [match a with EVar _ => Direct t | _ => Indirect end] else see_sq i t ++ inner) ->
        t = SRow v (KVar k) \/ In (Direct (SRow v (KVar k))) inner).
    { destruct (uses i a).
      - intros H. apply in_app_or in H. destruct H as [H|[H|[]]].
        + destruct m; cbn in H; [destruct H as [H|[]]; discriminate|contradiction].
        + destruct a; try discriminate. inversion H. auto.
      - intros H. apply in_app_or in H. destruct H as [H|H]; [|auto]. exfalso.
        destruct t as [w|w [z|k']]; cbn in H; unfold see in H; repeat (destruct H as [H|H]; try discriminate); try contradiction.
        destruct (Nat.eqb k' i); destruct H as [H|[]]; discriminate. }
    destruct t as [w|w [z|k']]; cbn [check_index].
    - intros H. destruct (G H) as [E|E]; [discriminate|auto].
    - intros H. destruct (G H) as [E|E]; [discriminate|auto].
    - destruct (Nat.eqb_spec k' i); intros H; [destruct H as [H|[]]; discriminate|].
      destruct (G H) as [E|E]; [inversion E; subst; auto|auto]. }
  intros v k e. induction e; cbn [visit]; intros H; try contradiction.
  - unfold see in H. destruct (Nat.eqb x i); destruct H as [H|[]]; discriminate.
  - apply in_app_or in H. destruct H; auto.
  - apply in_app_or in H. destruct H; auto.
  - auto.
  - apply C in H. destruct H; auto.
  - destruct H as [H|[]]; discriminate.
  - destruct H as [H|[]]; discriminate.
Qed.
Lemma direct_row_stmt i v k : forall b, In (Direct (SRow v (KVar k))) (visit_stmt i b) -> k <> i.
Proof.
  induction b; cbn [visit_stmt]; intros H; try contradiction.
  - apply in_app_or in H. destruct H; auto.
  - apply (direct_row i v k _ H).
  - apply in_app_or in H. destruct H as [H|H]; [|apply (direct_row i v k _ H)].
    unfold see in H. destruct (Nat.eqb x i); destruct H as [H|[]]; discriminate.
  - apply in_app_or in H. destruct H as [H|H]; [|apply (direct_row i v k _ H)].
    (* the place that is changed is seen as one that is read, but for the note that it is changed *)
    assert (G : In (Direct (SRow v (KVar k))) (visit i (EIdx s a))).
    { cbn [visit]. destruct s as [w|w [z|k']]; cbn [check_index] in *; destruct (uses i a);
        try (destruct (Nat.eqb k' i)); cbn in *; repeat (destruct H as [H|H]; try discriminate); auto. }
    apply (direct_row i v k _ G).
  - apply (direct_row i v k _ H).
  - apply in_app_or in H. destruct H as [H|H]; [apply (direct_row i v k _ H)|].
    apply in_app_or in H. destruct H; auto.
Qed.

Lemma set_locate i s v st l : (forall w k, s = SRow w (KVar k) -> k <> i) -> locate s st = Some l -> locate s (set i v st) = Some l.
Proof.
  intros K H. destruct s as [w|w [z|k]]; auto. cbn in *. destruct (Nat.eqb_spec i k) as [->|]; [|exact H].
  exfalso. apply (K w k); reflexivity.
Qed.

Lemma eval_same e it st u v : eval op calls it e st = Some (u, st) -> eval op calls it e st = Some (v, st) -> u = v.
Proof. intros H1 H2. rewrite H1 in H2. inversion H2. reflexivity. Qed.

(* The positions left by what is suggested *)
Lemma adaptors_range array_len i start end_ closed body f st l u v :
  check array_len i start end_ closed body = Some f ->
  pure start = true -> pure end_ = true ->
  eval op calls None start st = Some (u, st) -> eval op calls None end_ st = Some (v, st) ->
  let len := Z.of_nat (length (content l st)) in
  locate (item_of f) st = Some l ->
  (forall w, end_ = ELen w \/ end_ = ERows w -> w = sq_name (item_of f) -> item_of f = SArr w /\ end_ = ELen w) ->
  (forall n, array_len (item_of f) = Some n -> n = len) ->
  0 <= u -> (if closed then v + 1 else v) <= len ->
  (closed = true -> end_ <> ELen (sq_name (item_of f))) ->
  adapts op calls (adaptors f) (range 0 len) st = Some (range u (if closed then v + 1 else v), st).
Proof.
  unfold check. destruct (has _ (visit_stmt i body)); [discriminate|].
  destruct (directs (visit_stmt i body)) as [|s [|]]; try discriminate.
  destruct (has (referenced (sq_name s)) _); [discriminate|].
  set (zero := match start with ELit 0 => true | _ => false end).
  destruct (negb zero && _ && _); [discriminate|].
  set (tk := match end_ with EAdd a b => if expr_dec start a then (b, true) else if expr_dec start b then (a, true) else (end_, false) | _ => (end_, false) end).
  destruct tk as [te plus] eqn:Etk. subst tk.
  set (nt := is_len_call end_ (sq_name s) || is_end_eq_array_len end_ closed (array_len s)).
  destruct (negb nt && _ && _); [discriminate|].
  intros H P1 P2 E1 E2. inversion H; subst f; clear H. cbn. intros Hl Hlen Harr Hu Hb Hcl.
  set (len := Z.of_nat (length (content l st))) in *. set (b := if closed then v + 1 else v) in *.
  assert (L0 : 0 <= len) by (unfold len; lia).
  assert (Z0 : zero = true -> u = 0).
  { unfold zero. destruct start; try discriminate. destruct z; try discriminate. intros _. cbn in E1. inversion E1. reflexivity. }
  assert (SK : forall ps rest, adapts op calls ((if zero then [] else [Skip start]) ++ rest) ps st = adapts op calls rest (skipn (Z.to_nat u) ps) st).
  { intros ps rest. destruct zero; cbn; [rewrite (Z0 eq_refl); reflexivity|]. rewrite E1. reflexivity. }
  assert (SK' : forall ps, adapts op calls (if zero then [] else [Skip start]) ps st = Some (skipn (Z.to_nat u) ps, st)).
  { intros ps. specialize (SK ps []). rewrite app_nil_r in SK. exact SK. }
  assert (NT : nt = true -> plus = false /\ b = len).
  { unfold nt. intros N. apply orb_true_iff in N. destruct N as [N|N].
    - assert (end_ = ELen (sq_name s) /\ s = SArr (sq_name s)) as [Ee Es].
      { destruct end_; try discriminate; cbn in N; apply Nat.eqb_eq in N; subst.
        - destruct (Hlen (sq_name s) (or_introl eq_refl) eq_refl) as [-> _]. split; reflexivity.
        - destruct (Hlen (sq_name s) (or_intror eq_refl) eq_refl) as [_ EE]. discriminate. }
      rewrite Ee in Etk. inversion Etk. split; [reflexivity|].
      rewrite Ee in E2. cbn in E2. inversion E2. rewrite Es in Hl. cbn in Hl. inversion Hl; subst l. unfold len, b. cbn.
      destruct closed; [|congruence]. exfalso. apply (Hcl eq_refl). exact Ee.
    - destruct end_; try discriminate. cbn in N. destruct (array_len s) as [n|] eqn:En; [|discriminate].
      apply Z.leb_le in N. specialize (Harr n eq_refl). inversion Etk. split; [reflexivity|].
      cbn in E2. inversion E2; subst. unfold b in *. lia. }
  destruct nt eqn:Ent.
  - destruct (NT eq_refl) as [-> ->]. cbn [app]. rewrite SK'. rewrite skipn_range by lia. reflexivity.
  - destruct plus.
    + rewrite SK. rewrite skipn_range by lia.
      assert (T : exists w, eval op calls None te st = Some (w, st) /\ v = u + w).
      { destruct end_; try discriminate. cbn in P2. apply andb_true_iff in P2. destruct P2 as [Pa Pb].
        destruct (pure_eval op calls None _ st Pa) as [x Ex]. destruct (pure_eval op calls None _ st Pb) as [y Ey].
        cbn in E2. rewrite Ex, Ey in E2. inversion E2; subst v.
        destruct (expr_dec start end_1) as [->|].
        - inversion Etk; subst te. exists y. split; [exact Ey|]. rewrite Ex in E1. inversion E1. lia.
        - destruct (expr_dec start end_2) as [->|]; [|discriminate].
          inversion Etk; subst te. exists x. split; [exact Ex|]. rewrite Ey in E1. inversion E1. lia. }
      destruct T as (w & Ew & ->). destruct closed; cbn; rewrite Ew; unfold b in *.
      * replace (w + 1) with (u + w + 1 - u) by lia. rewrite firstn_range by lia. reflexivity.
      * replace w with (u + w - u) at 1 by lia. rewrite firstn_range by lia. reflexivity.
    + assert (te = end_) as ->.
      { destruct end_; try (inversion Etk; reflexivity). destruct (expr_dec start end_1); [discriminate|]. destruct (expr_dec start end_2); [discriminate|]. inversion Etk. reflexivity. }
      assert (FB : firstn (Z.to_nat b) (range 0 len) = range 0 b).
      { rewrite <- (firstn_range 0 b len) by exact Hb. rewrite Z.sub_0_r. reflexivity. }
      assert (FS : skipn (Z.to_nat u) (range 0 b) = range u b).
      { destruct (Z_le_gt_dec 0 b); [apply skipn_range; lia|]. unfold range.
        replace (Z.to_nat (b - 0)) with 0%nat by lia. replace (Z.to_nat (b - u)) with 0%nat by lia. apply skipn_nil. }
      destruct closed; cbn [app adapts adapt]; rewrite E2, SK'; fold b; unfold b in *; rewrite FB, FS; reflexivity.
Qed.

Lemma range_loop_items array_len i start end_ closed body f st l u v :
  check array_len i start end_ closed body = Some f ->
  no_item body = true ->
  pure start = true -> pure end_ = true ->
  ~ In i (assigned body) ->
  (forall w k, item_of f = SRow w (KVar k) -> ~ In k (assigned body)) ->
  (forall w, end_ = ELen w \/ end_ = ERows w -> w = sq_name (item_of f) -> item_of f = SArr w /\ end_ = ELen w) ->
  locate (item_of f) st = Some l ->
  (forall n, array_len (item_of f) = Some n -> n = Z.of_nat (length (content l st))) ->
  eval op calls None start st = Some (u, st) -> eval op calls None end_ st = Some (v, st) ->
  0 <= u -> (if closed then v + 1 else v) <= Z.of_nat (length (content l st)) ->
  same_but i (for_range op calls i start end_ closed body st)
    (for_items op calls (if enumerate f then Some i else None) (item_of f) (adaptors f) (with_item i (item_of f) body) st).
Proof.
  intros C NI P1 P2 NA K Hlen Hl Harr E1 E2 Hu Hb.
  assert (Hcl : closed = true -> end_ <> ELen (sq_name (item_of f))).
  { intros -> ->. destruct (Hlen _ (or_introl eq_refl) eq_refl) as [Es _]. rewrite Es in Hl. cbn in Hl. inversion Hl; subst l.
    cbn in E2. inversion E2; subst v. cbn in Hb. lia. }
  pose proof (adaptors_range array_len i start end_ closed body f st l u v C P1 P2 E1 E2 Hl Hlen Harr Hu Hb Hcl) as A.
  unfold for_range, for_items. rewrite E1, E2, Hl, A.
  assert (FC : directs (visit_stmt i body) = [item_of f] /\ fine (item_of f) (enumerate f) (visit_stmt i body)).
  { clear - C. unfold check in C. destruct (has _ (visit_stmt i body)) eqn:HI; [discriminate|].
    destruct (directs (visit_stmt i body)) as [|s [|]] eqn:D; try discriminate.
    destruct (has (referenced (sq_name s)) _); [discriminate|].
    destruct (negb _ && _ && _); [discriminate|].
    destruct (match end_ with EAdd _ _ => _ | _ => _ end) as [te plus].
    destruct (negb _ && _ && _); [discriminate|]. inversion C; subst f; clear C. cbn. split; [reflexivity|].
    split; [|split].
    - intros H. pose proof (has_false _ _ HI _ H). discriminate.
    - apply directs_one, D.
    - intros E H. pose proof (has_false _ _ E _ H). discriminate. }
  destruct FC as [D F].
  assert (KI : forall w k, item_of f = SRow w (KVar k) -> k <> i).
  { intros w k E. apply directs_in in D. rewrite E in D. apply (direct_row_stmt i w k _ D). }
  apply each_items; auto.
  - intros w k E. split; [apply (KI w k E)|apply (K w k E)].
  - repeat split; auto. intros z. apply set_locate; [exact KI|exact Hl].
Qed.
End Loop.
