(** Proofs about booleans.rs: terminals that do not matter. *)
From Coq Require Import Lia.
From Verif Require Export BoolProofs.

Lemma count_flat_map (l : list qbool) i : count_occ Nat.eq_dec (flat_map qterms l) i = list_sum (map (fun b => count_occ Nat.eq_dec (qterms b) i) l).
Proof. induction l as [|b l IH]; cbn; [reflexivity|]. now rewrite count_occ_app, IH. Qed.
Lemma terminals_count b : forall s i, terminals (stats_rec b s) i = terminals s i + count_occ Nat.eq_dec (qterms b) i.
Proof.
  assert (F : forall l, Forall (fun b => forall s i, terminals (stats_rec b s) i = terminals s i + count_occ Nat.eq_dec (qterms b) i) l ->
    forall s i, terminals (fold_left (fun s b => stats_rec b s) l s) i = terminals s i + count_occ Nat.eq_dec (flat_map qterms l) i).
  { induction 1 as [|b' l Hb Hl IH]; intros s i; cbn; [lia|]. rewrite IH, Hb, count_occ_app. lia. }
  induction b as [| |n|q IH|l IH|l IH] using qbool_ind'; intros s i; cbn [stats_rec qterms]; cbn [terminals add_op count_occ]; try lia.
  - cbn [add_term terminals]. destruct (Nat.eq_dec n i) as [E|E], (Nat.eqb_spec i n) as [F'|F']; try congruence; lia.
  - rewrite IH. destruct q; reflexivity.
  - rewrite F by assumption. reflexivity.
  - rewrite F by assumption. reflexivity.
Qed.
Lemma terminal_stats_count b i : terminals (terminal_stats b) i = count_occ Nat.eq_dec (qterms b) i.
Proof. unfold terminal_stats. now rewrite terminals_count. Qed.

Lemma judge_bug s t : forall is imp i, judge s t is imp = LogicBug i -> In i is /\ terminals s i <> 0 /\ terminals t i = 0.
Proof.
  induction is as [|j is IH]; intros imp i H; cbn [judge] in H; [destruct imp; discriminate|].
  destruct (terminals s j <? terminals t j); [discriminate|].
  destruct (negb (terminals s j =? 0) && (terminals t j =? 0)) eqn:E.
  - injection H as <-. apply andb_true_iff in E as [E1 E2]. apply negb_true_iff, Nat.eqb_neq in E1. apply Nat.eqb_eq in E2. cbn. auto.
  - apply IH in H as (H1 & H2). cbn. auto.
Qed.
Lemma judge_improvement s t : forall is imp, judge s t is imp = Improvement -> forall i, In i is -> terminals t i <= terminals s i.
Proof.
  induction is as [|j is IH]; intros imp H i I; cbn [judge] in H; [destruct I|].
  destruct (Nat.ltb_spec (terminals s j) (terminals t j)) as [|LE]; [discriminate|].
  destruct (negb (terminals s j =? 0) && (terminals t j =? 0)); [discriminate|].
  destruct I as [<-|I]; [auto|]. eapply IH; eauto.
Qed.
Lemma judge_all_inl s i q : forall l imps, judge_all s l imps = inl (i, q) -> In q l /\ judge s (terminal_stats q) (seq 0 32) false = LogicBug i.
Proof.
  induction l as [|x l IH]; intros imps H; [discriminate|]. cbn [judge_all] in H.
  destruct (judge s (terminal_stats x) (seq 0 32) false) eqn:J; try (apply IH in H as [H1 H2]; cbn; auto; fail).
  injection H as <- <-. cbn. auto.
Qed.
Lemma judge_all_inr s q : forall l imps r, judge_all s l imps = inr r -> In q r -> In q imps \/ (In q l /\ judge s (terminal_stats q) (seq 0 32) false = Improvement).
Proof.
  induction l as [|x l IH]; intros imps r H I; cbn [judge_all] in H; [injection H as ->; auto|].
  destruct (judge s (terminal_stats x) (seq 0 32) false) eqn:J; try discriminate; apply (IH _ _ H) in I as [I|[I1 I2]]; cbn; auto.
  apply in_app_iff in I as [I|[<-|[]]]; auto.
Qed.

(** Terminals stand for different leaves. *)
Definition distinct (ts : list bx) : Prop := forall i j, i < j < length ts -> ~ stands (term_at ts j) (term_at ts i).
Lemma find_terminal_none e : forall ts n, find_terminal e n ts = None -> forall x, In x ts -> ~ stands e x.
Proof.
  induction ts as [|y ts IH]; intros n H x X; [destruct X|]. cbn [find_terminal] in H.
  destruct (bx_eqb e y) eqn:E; [discriminate|].
  assert (REC : find_terminal e (S n) ts = None -> In x ts -> ~ stands e x) by (intros R I; eapply IH; eauto).
  destruct X as [<-|X].
  - intros [S|S]; [unfold same_leaf in S; congruence|]. destruct S as (p & p' & o & l & r & l' & r' & -> & -> & HO & E1 & E2).
    unfold operand_eqb in H. rewrite HO, E1, E2, !Nat.eqb_refl in H. replace (cop_eqb (negate o) (negate o)) with true in H by (symmetry; now apply cop_eqb_eq). discriminate.
  - destruct e as [| | | |p o l r| | |]; auto. destruct y as [| | | |p' o' l' r'| | |]; auto.
    destruct (has_ord l && cop_eqb (negate o) o' && operand_eqb l l' && operand_eqb r r'); [discriminate|auto].
Qed.
Lemma extract_distinct : forall e op ts v ts', distinct ts -> extract op e ts = Some (v, ts') -> distinct ts'.
Proof.
  assert (TERM : forall e ts v ts', distinct ts -> (match terminal e ts with Some (q, ts) => Some ([q], ts) | None => None end) = Some (v, ts') -> distinct ts').
  { intros e ts v ts' D H. unfold terminal in H. destruct (find_terminal e 0 ts) as [q|] eqn:F; [injection H as _ <-; auto|].
    destruct (length ts <? 32); [|discriminate]. injection H as _ <-. intros i j [L1 L2]. rewrite app_length in L2. cbn [length] in L2.
    destruct (Nat.eq_dec j (length ts)) as [->|N].
    - unfold term_at at 1. rewrite nth_middle. unfold term_at. rewrite app_nth1 by lia. eapply find_terminal_none; eauto. apply nth_In. lia.
    - unfold term_at. rewrite !app_nth1 by lia. apply D. lia. }
  induction e as [a IH|p a IH1 b IH2|p a IH1 b IH2|b0|p o l r|st m r|st m r bd IH|n]; intros op ts v ts' D H; cbn [extract] in H; try (eapply TERM; eauto; fail).
  - destruct (extract None a ts) as [[[|q [|q' l]] t]|] eqn:E; try discriminate. injection H as _ <-. eapply IH; eauto.
  - destruct (extract (Some BAnd) a ts) as [[va t]|] eqn:E1; [|discriminate]. destruct (extract (Some BAnd) b t) as [[vb t']|] eqn:E2; [|discriminate]. injection H as _ <-. eauto.
  - destruct (extract (Some BOr) a ts) as [[va t]|] eqn:E1; [|discriminate]. destruct (extract (Some BOr) b t) as [[vb t']|] eqn:E2; [|discriminate]. injection H as _ <-. eauto.
  - destruct b0; injection H as _ <-; auto.
Qed.
Lemma run_distinct e q ts : run e = Some (q, ts) -> distinct ts.
Proof.
  intros H. unfold run in H. destruct (extract None e []) as [[[|q' [|q'' l]] t]|] eqn:E; try discriminate. injection H as -> ->.
  eapply extract_distinct; [|exact E]. intros i j [_ L]. cbn in L. lia.
Qed.
Lemma bx_eqb_sym a : forall b, bx_eqb a b = bx_eqb b a.
Proof.
  assert (CS : forall a b, cop_eqb a b = cop_eqb b a) by (intros [] []; reflexivity).
  assert (MS : forall a b, mname_eqb a b = mname_eqb b a) by (intros [] []; reflexivity).
  assert (BS : forall a b, Bool.eqb a b = Bool.eqb b a) by (intros [] []; reflexivity).
  induction a as [a IH|p a IH1 b IH2|p a IH1 b IH2|v|p o l r|st m r|st m r bd IH|n]; intros [a'|p' a' b'|p' a' b'|v'|p' o' l' r'|st' m' r'|st' m' r' bd'|n']; cbn; auto.
  - now rewrite IH1, IH2.
  - now rewrite IH1, IH2.
  - unfold operand_eqb. now rewrite CS, (Nat.eqb_sym (oid l)), (Nat.eqb_sym (oid r)).
  - now rewrite BS, MS, (Nat.eqb_sym r).
  - now rewrite BS, MS, (Nat.eqb_sym r), IH.
  - apply Nat.eqb_sym.
Qed.
Lemma stands_sym e x y : operands_ok e -> In x (leaves e) -> In y (leaves e) -> stands x y -> stands y x.
Proof.
  intros OK IX IY [S|S]; [left; unfold same_leaf in *; now rewrite bx_eqb_sym|]. right.
  destruct S as (p & p' & o & l & r & l' & r' & -> & -> & HO & E1 & E2).
  exists p', p, (negate o), l', r', l, r. rewrite negate_involutive. repeat split; auto.
  rewrite <- HO. symmetry. apply (OK l r l' r'); auto; [apply (leaf_comparisons _ _ IX)|apply (leaf_comparisons _ _ IY)]; left; reflexivity.
Qed.

Lemma unused_terminal e expr ts q i : operands_ok e -> run e = Some (expr, ts) -> (forall v, qeval v q = qeval v expr) ->
  In i (qterms expr) -> ~ In i (qterms q) ->
  In (term_at ts i) (leaves e) /\
  forall L L', consistent (leaves e) L -> consistent (leaves e) L' -> (forall y, In y (leaves e) -> ~ stands y (term_at ts i) -> L y = L' y) -> leval L e = leval L' e.
Proof.
  intros OK R Q I NI. pose proof (run_distinct _ _ _ R) as D. destruct (run_sound _ _ _ R) as (A1 & A2 & A3 & A4).
  pose proof (A3 i I) as LI. assert (IX : forall n, n < length ts -> In (term_at ts n) (leaves e)) by (intros n N; apply A1; apply nth_In; lia).
  split; [auto|]. intros L L' CL CL' AG. rewrite <- (A4 L CL), <- (A4 L' CL').
  set (u := fun n => if n <? length ts then tval L ts n else false). set (u' := fun n => if n <? length ts then tval L' ts n else false).
  assert (E1 : qeval (tval L ts) expr = qeval u expr) by (apply qeval_ext; intros n N; unfold u; destruct (Nat.ltb_spec n (length ts)); [auto|specialize (A3 n N); lia]).
  assert (E2 : qeval (tval L' ts) expr = qeval u' expr) by (apply qeval_ext; intros n N; unfold u'; destruct (Nat.ltb_spec n (length ts)); [auto|specialize (A3 n N); lia]).
  rewrite E1, E2, <- !Q. apply qeval_ext. intros n N. unfold u, u'. destruct (Nat.ltb_spec n (length ts)) as [LT|]; [|auto]. apply AG; [auto|].
  intros S. assert (NE : n <> i) by congruence. destruct (Nat.lt_ge_cases i n) as [C|C]; [exact (D i n (conj C LT) S)|].
  apply (D n i); [lia|]. eapply stands_sym; eauto.
Qed.
