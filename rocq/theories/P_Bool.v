(** C30: boolean simplification. *)
From Coq Require Import Lia.
From Verif Require Export BoolProofs3.

Definition suggestions (r : report) : list (list tok) :=
  match r with OverlyComplex _ t => [t] | Nonminimal l => l end.

Lemma leaf_ok e x : source_ok e -> In x (leaves e) -> source_ok x /\ is_leaf x /\ incl (comparisons x) (comparisons e).
Proof.
  intros OK I. split; [|split; [|now apply leaf_comparisons]].
  - induction e as [a IH|p a IH1 b IH2|p a IH1 b IH2|v|p o l r|st m r|st m r bd IH|n]; cbn [leaves] in I; try (destruct I as [<-|[]]; exact OK); [apply IH; [apply OK|auto]| | |destruct I];
      apply in_app_iff in I as [I|I]; [apply IH1|apply IH2|apply IH1|apply IH2]; auto; apply OK.
  - clear OK. induction e as [a IH|p a IH1 b IH2|p a IH1 b IH2|v|p o l r|st m r|st m r bd IH|n]; cbn [leaves] in I; try (destruct I as [<-|[]]; exact Logic.I); auto; [| |destruct I];
      apply in_app_iff in I as [I|I]; auto.
Qed.
Lemma terms_ok e q ts : source_ok e -> run e = Some (q, ts) -> forall n, source_ok (term_at ts n) /\ is_leaf (term_at ts n) /\ incl (comparisons (term_at ts n)) (comparisons e).
Proof.
  intros OK R n. destruct (run_sound _ _ _ R) as (A1 & _). destruct (Nat.lt_ge_cases n (length ts)) as [L|L].
  - apply leaf_ok; [auto|]. apply A1. apply nth_In. lia.
  - unfold term_at. rewrite nth_overflow by lia. cbn. split; [auto|]. split; [auto|]. intros x [].
Qed.
Lemma U_reads C t m : U C LOr t m -> exists e', reads_as t e' /\ forall w s, Law C w -> eval w s e' = m w s.
Proof. intros (e' & (f0 & R) & V). exists e'. split; [|exact V]. exists f0. specialize (R f0 [] (le_n _) I). now rewrite app_nil_r in R. Qed.
Lemma candidate_reads simplify msrv e expr ts q : simplifies simplify -> source_ok e -> casts_plain e -> one_type e -> run e = Some (expr, ts) -> In q (candidates simplify expr) ->
  exists e', reads_as (print msrv ts q) e' /\ forall w s, lawful w e -> eval w s e' = eval w s e.
Proof.
  intros S OK CP OT R I. pose proof (candidates_sound simplify expr S) as CS. rewrite Forall_forall in CS. destruct (CS q I) as [PR EQ].
  destruct (print_reads (comparisons e) CP ts (terms_ok e expr ts OK R) msrv q PR) as (X & _). apply O_U, U_reads in X as (e' & RD & V). exists e'. split; [auto|].
  intros w s LW. pose proof (law_of w e LW OT) as LW'. rewrite V by auto. unfold qv. rewrite EQ.
  destruct (run_sound _ _ _ R) as (_ & _ & _ & A4). rewrite A4 by now apply consistent_eval. apply leval_eval.
Qed.

(** Every suggestion for an expression, put in place of it as a whole, is read as an expression with the
    same value in every world where types with `Ord` are totally ordered; the operands of each comparison
    have one type and no left operand ends in the type of a cast without being one.
    Missing: the expression inside a larger one, which is wrong, see below; side effects and panics of
    the operands. *)
Theorem nonminimal_bool_sound_partial simplify msrv e r t :
  simplifies simplify -> source_ok e -> casts_plain e -> one_type e ->
  bool_expr simplify msrv e = Some r -> In t (suggestions r) ->
  exists e', reads_as t e' /\ forall w s, lawful w e -> eval w s e' = eval w s e.
Proof.
  intros S OK CP OT H I. unfold bool_expr in H. destruct (run e) as [[expr ts]|] eqn:R; [|discriminate].
  destruct (7 <? ops (terminal_stats expr)); [discriminate|].
  destruct (judge_all (terminal_stats expr) (candidates simplify expr) []) as [[i q]|[|q0 imps]] eqn:J.
  - injection H as <-. destruct I as [<-|[]]. apply judge_all_inl in J as [J _]. eapply candidate_reads; eauto.
  - destruct (check_simplify_not msrv e) as [t'|] eqn:K; [|discriminate]. injection H as <-. destruct I as [<-|[]].
    apply (check_simplify_not_reads (comparisons e) CP) in K; [|auto|apply incl_refl]. apply U_compare, A_of, O_of, O_U, U_reads in K as (e' & RD & V).
    exists e'. split; [auto|]. intros w s LW. apply V. now apply law_of.
  - injection H as <-. cbn [suggestions] in I. change (In t (map (print msrv ts) (q0 :: imps))) in I. apply in_map_iff in I as (q & <- & I).
    apply (judge_all_inr _ q _ _ _ J) in I as [[]|[I _]]. eapply candidate_reads; eauto.
Qed.
Print Assumptions nonminimal_bool_sound_partial.

(** When nothing better than removing a negation is found, the suggestion can be put anywhere: it is read as
    one operand whatever follows. *)
Theorem simplify_not_any_context msrv e t :
  source_ok e -> casts_plain e -> one_type e -> check_simplify_not msrv e = Some t ->
  exists e' fuel, (forall f rest, fuel <= f -> parse f LUnary (t ++ rest) = Some (e', rest)) /\
    forall w s, lawful w e -> eval w s e' = eval w s e.
Proof.
  intros OK CP OT H. apply (check_simplify_not_reads (comparisons e) CP) in H as (e' & (f0 & R) & V); [|auto|apply incl_refl].
  exists e', f0. split; [intros f rest L; apply R; [auto|exact I]|]. intros w s LW. apply V. now apply law_of.
Qed.
Print Assumptions simplify_not_any_context.

(** A "logic bug" is one: some condition in the expression has no influence on its value, whatever the
    values of the conditions. *)
Theorem overly_complex_sound simplify msrv e i t :
  simplifies simplify -> operands_ok e -> bool_expr simplify msrv e = Some (OverlyComplex i t) ->
  exists x, In x (leaves e) /\
    forall L L', consistent (leaves e) L -> consistent (leaves e) L' ->
      (forall y, In y (leaves e) -> ~ (same_leaf y x \/ opposite_leaf y x) -> L y = L' y) ->
      leval L e = leval L' e.
Proof.
  intros S OK H. unfold bool_expr in H. destruct (run e) as [[expr ts]|] eqn:R; [|discriminate].
  destruct (7 <? ops (terminal_stats expr)); [discriminate|].
  destruct (judge_all (terminal_stats expr) (candidates simplify expr) []) as [[j q]|[|q0 imps]] eqn:J; [|destruct (check_simplify_not msrv e); discriminate|discriminate].
  injection H as <- <-. apply judge_all_inl in J as [J1 J2]. apply judge_bug in J2 as (_ & B1 & B2). rewrite terminal_stats_count in B1, B2.
  pose proof (candidates_sound simplify expr S) as CS. rewrite Forall_forall in CS. destruct (CS q J1) as [_ EQ].
  exists (term_at ts j). apply (unused_terminal e expr ts q j OK R EQ).
  - apply (count_occ_In Nat.eq_dec). lia.
  - intros I. apply (count_occ_In Nat.eq_dec) in I. lia.
Qed.
Print Assumptions overly_complex_sound.

(** No suggestion of `nonminimal_bool` uses a condition more often than the expression it is for. *)
Theorem nonminimal_bool_no_more simplify e expr ts imps q n :
  run e = Some (expr, ts) -> judge_all (terminal_stats expr) (candidates simplify expr) [] = inr imps -> In q imps -> n < 32 ->
  count_occ Nat.eq_dec (qterms q) n <= count_occ Nat.eq_dec (qterms expr) n.
Proof.
  intros R J I L. apply (judge_all_inr _ q _ _ _ J) in I as [[]|[_ I]]. rewrite <- !terminal_stats_count. eapply judge_improvement; eauto. apply in_seq. lia.
Qed.
Print Assumptions nonminimal_bool_no_more.

(** `!a == b` is `a != b`, and so on. *)
Theorem inverted_bool_sound eq l r eq' l' r' w s : inverted_bool eq l r = Some (eq', l', r') ->
  xorb (negb eq') (Bool.eqb (eval w s l') (eval w s r')) = xorb (negb eq) (Bool.eqb (eval w s l) (eval w s r)).
Proof.
  assert (N : forall x, eval w s (XNot x) = negb (eval w s x)) by reflexivity.
  intros H. destruct l, r; cbn [inverted_bool] in H; try discriminate; injection H as <- <- <-; rewrite ?N;
    repeat match goal with |- context [eval w s ?x] => destruct (eval w s x) end; destruct eq; reflexivity.
Qed.
Print Assumptions inverted_bool_sound.

(** *** What goes wrong *)
Definition word (n : nat) : operand := {| oid := n; oty := 0; has_ord := true; is_cast := false; in_parens := false; ends_in_type := false |}.
(** The crate on functions that are already sums of products, and on one more. *)
Definition literalb (b : qbool) : bool := match b with Term _ | Not (Term _) => true | _ => false end.
Definition productb (b : qbool) : bool := match b with And (x :: l) => forallb literalb (x :: l) | _ => literalb b end.
Definition sumb (b : qbool) : bool := match b with True_ | False_ => true | Or (x :: l) => forallb productb (x :: l) | _ => productb b end.
Definition implication : qbool := Not (And [Not (Term 0); Term 1]).
Definition tautology : qbool := Or [Term 0; And [Term 0; Term 1]].
Definition crate (b : qbool) : list qbool :=
  if qbool_eqb b implication then [Or [Term 0; Not (Term 1)]]
  else if qbool_eqb b tautology then [Term 0]
  else if sumb b then [b] else [].
Lemma literalb_ok b : literalb b = true -> literal b.
Proof. destruct b as [| | |[]| |]; cbn; try discriminate; auto. Qed.
Lemma literals_ok l : forallb literalb l = true -> Forall literal l.
Proof. intros H. apply Forall_forall. intros x X. apply literalb_ok. rewrite forallb_forall in H. auto. Qed.
Lemma productb_ok b : productb b = true -> product b.
Proof.
  intros H. destruct b as [| |n|q|[|x l]|l]; try (left; now apply literalb_ok). right. exists (x :: l). split; [auto|]. split; [discriminate|]. now apply literals_ok.
Qed.
Lemma sumb_ok b : sumb b = true -> sum_of_products b.
Proof.
  intros H. destruct b as [| |n|q|l|[|x l]]; unfold sum_of_products; auto; try (right; right; left; now apply productb_ok); try discriminate.
  right; right; right. exists (x :: l). split; [auto|]. split; [discriminate|]. apply Forall_forall. intros y Y. apply productb_ok.
  change (forallb productb (x :: l) = true) in H. rewrite forallb_forall in H. auto.
Qed.
Lemma qbool_eqb_eval v a : forall b, qbool_eqb a b = true -> qeval v a = qeval v b.
Proof.
  assert (G : forall l, Forall (fun a => forall b, qbool_eqb a b = true -> qeval v a = qeval v b) l -> forall l',
    (fix go (l l' : list qbool) : bool := match l, l' with [], [] => true | x :: l, y :: l' => qbool_eqb x y && go l l' | _, _ => false end) l l' = true ->
    forallb (qeval v) l = forallb (qeval v) l' /\ existsb (qeval v) l = existsb (qeval v) l').
  { induction 1 as [|x l Hx Hl IH]; intros [|y l'] H; try discriminate; [auto|]. apply andb_true_iff in H as [H1 H2]. cbn. rewrite (Hx y H1). destruct (IH l' H2) as [-> ->]. auto. }
  induction a as [| |n|q IH|l IH|l IH] using qbool_ind'; intros [| |n'|q'|l'|l'] H; try discriminate; auto.
  - cbn in *. apply Nat.eqb_eq in H. now subst.
  - cbn in *. f_equal. auto.
  - cbn in H |- *. now apply (G l IH l').
  - cbn in H |- *. now apply (G l IH l').
Qed.
Lemma crate_simplifies : simplifies crate.
Proof.
  intros b q I. unfold crate in I. destruct (qbool_eqb b implication) eqn:E1; [|destruct (qbool_eqb b tautology) eqn:E2; [|destruct (sumb b) eqn:E3; [|destruct I]]]; destruct I as [<-|[]].
  - split; [now apply sumb_ok|]. intros v. rewrite (qbool_eqb_eval v _ _ E1). cbn. destruct (v 0), (v 1); reflexivity.
  - split; [now apply sumb_ok|]. intros v. rewrite (qbool_eqb_eval v _ _ E2). cbn. destruct (v 0), (v 1); reflexivity.
  - split; [now apply sumb_ok|auto].
Qed.

(** An order between two types need not be total though `Ord` is implemented for the first: for `!(a < b)`
    the suggestion is `a >= b`. *)
Definition foreign (n : nat) : operand := {| oid := n; oty := 1; has_ord := true; is_cast := false; in_parens := false; ends_in_type := false |}.
Definition incomparable : world :=
  {| atom := fun _ _ => false; compare := fun _ _ _ => None; option_ := fun _ _ => None; result_ := fun _ _ => None; other_method := fun _ _ _ => false; other_method_f := fun _ _ _ _ => false;
     other_method_f_ext := fun _ _ _ _ _ _ => eq_refl |}.
Theorem nonminimal_bool_types_refuted :
  exists simplify e t e' w, simplifies simplify /\ source_ok e /\ casts_plain e /\ lawful w e /\
    bool_expr simplify true e = Some (Nonminimal [t]) /\ reads_as t e' /\ eval w [] e' <> eval w [] e.
Proof.
  exists crate, (XNot (XCmp true Lt (word 0) (foreign 1))), [TLp; TOperand (word 0); TCmp Ge; TOperand (foreign 1); TRp], (XCmp false Ge (word 0) (foreign 1)), incomparable.
  split; [exact crate_simplifies|]. split; [vm_compute; repeat split; auto|]. split; [intros l r [E|[]] _; injection E as <- <-; reflexivity|].
  split; [intros l r s [E|[]] _ OT; injection E as <- <-; discriminate OT|]. split; [vm_compute; reflexivity|]. split; [exists 10; reflexivity|]. vm_compute. discriminate.
Qed.
Print Assumptions nonminimal_bool_types_refuted.

(** For `!(a + b as u64 >= c)` the suggestion is `(a + b as u64 < c)`, which is no expression. *)
Theorem nonminimal_bool_cast_refuted :
  exists simplify e t, simplifies simplify /\ source_ok e /\ one_type e /\ bool_expr simplify true e = Some (Nonminimal [t]) /\ forall e', ~ reads_as t e'.
Proof.
  set (sum := {| oid := 0; oty := 0; has_ord := true; is_cast := false; in_parens := false; ends_in_type := true |}).
  exists crate, (XNot (XCmp true Ge sum (word 1))), [TLp; TOperand sum; TCmp Lt; TOperand (word 1); TRp].
  split; [exact crate_simplifies|]. split; [repeat split; intros; discriminate|]. split; [intros l r [E|[]] _; injection E as <- <-; reflexivity|].
  split; [vm_compute; reflexivity|]. intros e' (f & H).
  do 8 (destruct f as [|f]; [discriminate|]). cbn in H. discriminate.
Qed.
Print Assumptions nonminimal_bool_cast_refuted.

(** A part of an expression gets its own suggestion, without parentheses: in `c && !(!a && b)` the part
    `!(!a && b)` is to be replaced by `!b || a`. *)
Theorem nonminimal_bool_context_refuted :
  exists simplify c e pre t e' w, simplifies simplify /\ source_ok (XAnd false c e) /\ text (XAnd false c e) = pre ++ text e /\
    bool_expr simplify true e = Some (Nonminimal [t]) /\ reads_as (pre ++ t) e' /\ eval w [] e' <> eval w [] (XAnd false c e).
Proof.
  set (w := {| atom := fun n _ => Nat.eqb n 0; compare := fun _ _ _ => None; option_ := fun _ _ => None; result_ := fun _ _ => None; other_method := fun _ _ _ => false; other_method_f := fun _ _ _ _ => false;
     other_method_f_ext := fun _ _ _ _ _ _ => eq_refl |}).
  exists crate, (XAtom 2), (XNot (XAnd true (XNot (XAtom 0)) (XAtom 1))), [TAtom 2; TAnd], [TNot; TAtom 1; TOr; TAtom 0], (XOr false (XAnd false (XAtom 2) (XNot (XAtom 1))) (XAtom 0)), w.
  split; [exact crate_simplifies|]. split; [vm_compute; auto 10|]. split; [reflexivity|]. split; [vm_compute; reflexivity|]. split; [exists 10; reflexivity|]. vm_compute. discriminate.
Qed.
Print Assumptions nonminimal_bool_context_refuted.

(** Cases that meet the hypotheses. *)
Example C30_nontrivial :
  (let e := XNot (XAnd true (XCmp false Lt (word 0) (word 1)) (XNot (XMeth true is_some 7))) in
   source_ok e /\ casts_plain e /\ one_type e /\ operands_ok e) /\
  bool_expr crate true (XNot (XAnd true (XNot (XCmp true Ge (word 0) (word 1))) (XMethF true is_some_and 7 (XCmp false Eq (word 3) (word 4))))) =
    Some (Nonminimal [[TMethF true is_none_or 7; TOperand (word 3); TCmp Ne; TOperand (word 4); TRp; TOr; TLp; TOperand (word 0); TCmp Ge; TOperand (word 1); TRp]]) /\
  bool_expr crate true (XOr false (XAtom 5) (XAnd false (XAtom 5) (XAtom 6))) = Some (OverlyComplex 1 [TAtom 5]) /\
  inverted_bool true (XNot (XAtom 1)) (XAtom 2) = Some (false, XAtom 1, XAtom 2).
Proof.
  split; [|split; [vm_compute; reflexivity|split; [vm_compute; reflexivity|reflexivity]]]. split; [cbn; repeat split; auto; discriminate|]. split; [intros l r [E|[]] _; injection E as <- <-; reflexivity|].
  split; [intros l r [E|[]] _; injection E as <- <-; reflexivity|].
  intros l r l' r' [E|[]] [E'|[]] _; injection E as <- <-; injection E' as <- <-; reflexivity.
Qed.
