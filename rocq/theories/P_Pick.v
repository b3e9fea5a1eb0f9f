(** C96-C101: which form of branching to use. *)
From Verif Require Import CloSpec CloModel CloIdent MatModel MatProofs TailModel P_Mat.
From Verif Require Import PickModel PickProofs PickProofs2 PickPut PickProofs4 PickProofs5.

Definition arm2 (r : expr) p g a q h b := EMatch false r [(p, g, a); (q, h, b)].
Definition no_e : expr := EBlock None [] None.
Definition yes := ECall 8 [].
Ltac in_list H := repeat (destruct H as [H|H]; [try discriminate H; inversion H; subst; clear H|]); [..|destruct H].

(** ** C96: match_bool, match_like_matches_macro *)

(** A `match` on a bool with two arms becomes an `if`: same result, same effects, from every state. *)
Theorem match_bool_keeps : forall w fuel e e', match_bool e = Some e' -> is_bool w fuel e -> handled w fuel e ->
  forall s, eval w fuel e' s = eval w fuel e s.
Proof. exact match_bool_sound. Qed.
Print Assumptions match_bool_keeps.
(** A `match` or `if let` whose arms are `true` and `false` becomes `matches!` or `!matches!`. *)
Theorem matches_macro_keeps : forall w fuel e e', to_matches e = Some e' -> handled w fuel e ->
  forall s, eval w fuel e' s = eval w fuel e s.
Proof. exact to_matches_sound. Qed.
Print Assumptions matches_macro_keeps.
(** `match f8() { false if f8() => f5(), _ => f6() }`, and one whose first arm is unit. *)
Example C96_bool :
  let e := arm2 yes (PBool false) (Some yes) (ECall 5 []) PWild None (ECall 6 []) in
  let e2 := arm2 yes (PBool true) None no_e (PBool false) None (ECall 6 []) in
  match_bool e = Some (EIf (and_e (ENot yes) yes) (blk (ECall 5 [])) (Some (blk (ECall 6 [])))) /\
  match_bool e2 = Some (EIf (ENot yes) (blk (ECall 6 [])) None) /\
  is_bool w1 5 e /\ handled w1 5 e /\ is_bool w1 5 e2 /\ handled w1 5 e2 /\ run e = (OVal (VInt 6), ([], [6; 8])).
Proof.
  assert (B : forall s v s', eval w1 5 yes s = (OVal v, s') -> v = VBool true) by (intros s v s' E; vm_compute in E; inversion E; reflexivity).
  repeat split; try (vm_compute; reflexivity).
  - intros r R s v s' E. inversion R; subst. rewrite (B _ _ _ E). eauto.
  - intros t r arms R s v s' E. inversion R; subst. exists PWild, (ECall 6 []). split; [right; left; reflexivity|discriminate].
  - intros r R s v s' E. inversion R; subst. rewrite (B _ _ _ E). eauto.
  - intros t r arms R s v s' E. inversion R; subst. rewrite (B _ _ _ E). exists (PBool true), no_e. split; [left; reflexivity|discriminate].
Qed.
(** `match Some(f5()) { Some(5) => { false } None => false, _ => true }`, one arm with a guard, and an `if let`. *)
Example C96_matches :
  let r := some (ECall 5 []) in
  let e := EMatch false r [(psome (PLit 5), None, blk (EBool false)); (pnone, None, EBool false); (PWild, None, EBool true)] in
  let e2 := arm2 r (psome (pv 0)) (Some (EEq false (v 0) (EInt 5))) (EBool true) PWild None (EBool false) in
  let e3 := EIfLet (psome (PLit 5)) r (blk (EBool false)) (Some (blk (EBool true))) in
  to_matches e = Some (ENot (matches_e r [(psome (PLit 5), None, EBool true); (pnone, None, EBool true)])) /\
  to_matches e2 = Some (matches_e r [(psome (pv 0), Some (EEq false (v 0) (EInt 5)), EBool true)]) /\
  to_matches e3 = Some (ENot (matches_e r [(psome (PLit 5), None, EBool true)])) /\
  handled w1 5 e /\ handled w1 5 e2 /\ run e = (OVal (VBool false), ([], [5])) /\ run e2 = (OVal (VBool true), ([], [5])).
Proof.
  repeat split; try (vm_compute; reflexivity); intros t r arms R s x s' E; inversion R; subst; exists PWild; eexists;
    (split; [|discriminate]); cbn; auto.
Qed.

(** ** C97: redundant_pattern_matching *)

(** `if let Some(_) = e` becomes `if e.is_some()`, and so on; `if let true = e` becomes `if e`. *)
Theorem if_let_variant_keeps : forall w fuel e e', if_let_variant e = Some e' -> fits w fuel e ->
  forall s, eval w fuel e' s = eval w fuel e s.
Proof. exact if_let_variant_sound. Qed.
Print Assumptions if_let_variant_keeps.
(** `matches!(e, true)` becomes `e`. *)
Theorem matches_true_keeps : forall w fuel e e', matches_true e = Some e' -> is_bool w fuel e ->
  forall s, eval w fuel e' s = eval w fuel e s.
Proof. exact matches_true_sound. Qed.
Print Assumptions matches_true_keeps.
(** `match e { Some(_) if g => true, _ => false }` becomes `e.is_some() && g`, and so on.  Partial: a guard on an arm with
    `false` is dropped (refuted below). *)
Theorem match_variant_partial : forall w fuel e e', match_variant e = Some e' -> fits w fuel e -> exhaustive e ->
  bool_guards w fuel e -> guard_read e -> forall s, eval w fuel e' s = eval w fuel e s.
Proof. exact match_variant_sound. Qed.
Print Assumptions match_variant_partial.
(** `match Some(1) { Some(_) if !f8() => false, _ => true }` is true, and becomes `Some(1).is_none()`. *)
Theorem match_variant_guard_refuted : exists e e', match_variant e = Some e' /\
  fst (run e) = OVal (VBool true) /\ fst (run e') = OVal (VBool false).
Proof.
  exists (arm2 (some (EInt 1)) (psome PWild) (Some (ENot yes)) (EBool false) PWild None (EBool true)). eexists.
  split; [vm_compute; reflexivity|]. split; vm_compute; reflexivity.
Qed.
Print Assumptions match_variant_guard_refuted.
(** `if let Err(..) = Ok(f5()) { f6() } else { f7() }`, `match Some(f5()) { Some(_) if f8() => true, _ => false }`,
    `match Ok(f5()) { Err(_) => false, Ok(_) => true }`, `matches!(f8(), false)`. *)
Example C97_nontrivial :
  let e := EIfLet (PData (KCtor c_err) [] (Some 0)) (okk (ECall 5 [])) (ECall 6 []) (Some (ECall 7 [])) in
  let e2 := arm2 (some (ECall 5 [])) (psome PWild) (Some yes) (EBool true) PWild None (EBool false) in
  let e3 := arm2 (okk (ECall 5 [])) (perr PWild) None (EBool false) (pok PWild) None (EBool true) in
  let e4 := matches_e yes [(PBool false, None, EBool true)] in
  if_let_variant e = Some (EIf (EMeth TResult MIsBad (okk (ECall 5 [])) []) (ECall 6 []) (Some (ECall 7 []))) /\
  match_variant e2 = Some (and_e (EMeth TOption MIsGood (some (ECall 5 [])) []) yes) /\
  match_variant e3 = Some (EMeth TResult MIsGood (okk (ECall 5 [])) []) /\
  matches_true e4 = Some (ENot yes) /\
  fits w1 5 e /\ fits w1 5 e2 /\ exhaustive e2 /\ bool_guards w1 5 e2 /\ guard_read e2 /\ is_bool w1 5 e4 /\
  run e = (OVal (VInt 7), ([], [7; 5])) /\ run e2 = (OVal (VBool true), ([], [8; 5])).
Proof.
  repeat split; try (vm_compute; reflexivity).
  - intros p r t [(a & b & E)|(tr & arms & g & b & E & _)] PT s x s' R; [|discriminate]. inversion E; subst. vm_compute in PT. inversion PT; subst.
    vm_compute in R. inversion R; subst. discriminate.
  - intros p r t [(a & b & E)|(tr & arms & g & b & E & I)] PT s x s' R; [discriminate|]. inversion E; subst. in_list I; vm_compute in PT; inversion PT; subst.
    vm_compute in R. inversion R; subst. discriminate.
  - intros tr r arms p g b t E I PT x V. inversion E; subst. exists PWild, (EBool false). split; [right; left; reflexivity|discriminate].
  - intros tr r arms p g b E I s x s' R. inversion E; subst. in_list I. vm_compute in R. inversion R; subst. eauto.
  - intros r p g h E. inversion E.
  - intros r R s x s' E. inversion R; subst. vm_compute in E. inversion E; subst. eauto.
Qed.

(** ** C98: needless_match *)

(** A `match` each of whose arms gives back what it matched becomes its scrutinee.  Partial: patterns bind no variable twice,
    constructors have a fixed number of fields, and the whole is not a unit made of a value (refuted below). *)
Theorem needless_match_partial : forall w fuel e e' ar, reborrows w -> needless_match e = Some e' -> linear e ->
  arity_respected w fuel ar e -> same_type w fuel e ->
  forall s, fst (eval w fuel e s) <> OStuck -> eval w fuel e' s = eval w fuel e s.
Proof. intros w fuel e e' ar RB. exact (needless_match_sound w fuel RB e e' ar). Qed.
Print Assumptions needless_match_partial.
(** The same for a chain of `if let`.  Partial: what gets past all patterns to a `None` is None, and an `else if let` does not
    look at an effect a second time (both refuted below). *)
Theorem needless_if_let_partial : forall w fuel opt e e' ar, reborrows w -> needless_if_let opt e = Some e' ->
  Forall once (chain e) -> Forall (fun a => sized_expr ar (peel_stmt a) = true) (chain_bodies e) ->
  (forall r, scrutinee e = Some r -> forall s v s', eval w fuel r s = (OVal v, s') -> sized ar v = true) ->
  same_type w fuel e -> past w fuel e -> looks_once e -> forall s, eval w fuel e' s = eval w fuel e s.
Proof. intros w fuel opt e e' ar RB. exact (needless_if_let_sound w fuel RB opt e e' ar). Qed.
Print Assumptions needless_if_let_partial.
(** `if let Some(5) = Some(6) { Some(5) } else { None }` is None. *)
Theorem needless_if_let_literal_refuted : exists e e', needless_if_let true e = Some e' /\
  fst (run e) = OVal none_v /\ fst (run e') = OVal (some_v (VInt 6)).
Proof.
  exists (EIfLet (psome (PLit 5)) (some (EInt 6)) (blk (some (EInt 5))) (Some (blk none))). eexists.
  split; [vm_compute; reflexivity|]. split; vm_compute; reflexivity.
Qed.
Print Assumptions needless_if_let_literal_refuted.
(** `if let None = Some(f()) { None } else if let Some(x) = Some(f()) { Some(x) } else { None }` calls `f` twice. *)
Theorem needless_if_let_effect_refuted : exists e e', needless_if_let true e = Some e' /\
  run e = (OVal (some_v (VInt 5)), ([], [5; 5])) /\ run e' = (OVal (some_v (VInt 5)), ([], [5])).
Proof.
  exists (EIfLet pnone (some (ECall 5 [])) (blk none)
            (Some (EIfLet (psome (pv 0)) (some (ECall 5 [])) (blk (some (v 0))) (Some (blk none))))). eexists.
  split; [vm_compute; reflexivity|]. split; vm_compute; reflexivity.
Qed.
Print Assumptions needless_if_let_effect_refuted.
(** `match Some(1) { Some(x) => { Some(x); } None => { None; } }` is unit: the statement of a block counts as its value. *)
Theorem needless_match_statement_refuted : exists e e', needless_match e = Some e' /\
  fst (run e) = OVal unit_v /\ fst (run e') = OVal (some_v (VInt 1)).
Proof.
  exists (match2_ (some (EInt 1)) (psome (pv 0)) (EBlock None [SSemi (some (v 0))] None) pnone (EBlock None [SSemi none] None)). eexists.
  split; [vm_compute; reflexivity|]. split; vm_compute; reflexivity.
Qed.
Print Assumptions needless_match_statement_refuted.
Definition ar1 (c : nat) : nat := if Nat.eqb c c_none then 0 else 1.
(** `match Ok(f5()) { Ok(5) => Ok(5), Ok(x) => { Ok(x) } Err(e) => Err(e) }`; and
    `if let Some(x) = Some(f5()) { Some(x) } else { None }`. *)
Example C98_nontrivial :
  let r := okk (ECall 5 []) in
  let e := EMatch false r [(pok (PLit 5), None, okk (EInt 5)); (pok (pv 0), None, blk (okk (v 0))); (perr (pv 1), None, err (v 1))] in
  let r2 := some (ECall 5 []) in
  let e2 := EIfLet (psome (pv 0)) r2 (blk (some (v 0))) (Some (blk none)) in
  needless_match e = Some r /\ needless_if_let true e2 = Some r2 /\
  linear e /\ arity_respected w1 5 ar1 e /\ same_type w1 5 e /\ run e = (OVal (ok_v (VInt 5)), ([], [5])) /\
  Forall once (chain e2) /\ past w1 5 e2 /\ looks_once e2 /\ same_type w1 5 e2 /\
  needless_match (match2_ r (pok (pv 0)) (okk (v 1)) (perr (pv 1)) (err (v 1))) = None.
Proof.
  assert (O : forall k p, once p -> once (PData (KCtor k) [p] None)).
  { intros k p O v bs M. destruct v as [| |k' vs| |]; try discriminate. cbn [match_pat] in M. destruct (kind_eqb (KCtor k) k'); [|discriminate].
    destruct vs as [|x [|]]; try discriminate; destruct (match_pat p x) as [b|] eqn:E; try discriminate. inversion M; subst. rewrite app_nil_r. eauto. }
  assert (OV : forall x, once (pv x)) by (intros x v bs M; inversion M; subst; repeat constructor; intros []).
  assert (OL : forall z, once (PLit z)).
  { intros z v bs M. destruct v; try discriminate. cbn in M. destruct (Z.eqb z z0); inversion M; subst. constructor. }
  repeat split; try (vm_compute; reflexivity); try exact I.
  - repeat constructor; apply O; auto.
  - repeat constructor.
  - intros r R s x s' E. inversion R; subst. vm_compute in E. inversion E; subst. reflexivity.
  - intros r R s x s1 s2 E E2. inversion R; subst. vm_compute in E2. discriminate.
  - repeat constructor; apply O; auto.
  - intros N r R s x s' E M. inversion R; subst. vm_compute in E. inversion E; subst. inversion M; subst. discriminate.
  - intros r R s x s1 s2 E E2. inversion R; subst. vm_compute in E2. discriminate.
Qed.

(** ** C99: single_match, single_match_else *)

(** A `match` with one pattern of interest becomes `if let`, or `if e == K` where `==` is derived. *)
Theorem single_match_keeps : forall w fuel eq e e', single_match eq e = Some e' -> handled w fuel e ->
  (eq = true -> derived_eq w fuel e) -> forall s, eval w fuel e' s = eval w fuel e s.
Proof. exact single_match_sound. Qed.
Print Assumptions single_match_keeps.
(** `match Some(f5()) { Some(x) => f6(x), _ => {} }`; `match f5() { 5 => f6(), _ => { f7(); f8() } }`; `match 5 { 5 => f6(), _ => () }`. *)
Example C99_nontrivial :
  let e := match2_ (some (ECall 5 [])) (psome (pv 0)) (ECall 6 [v 0]) PWild no_e in
  let els := EBlock None [SSemi (ECall 7 [])] (Some yes) in
  let e2 := match2_ (ECall 5 []) (PLit 5) (ECall 6 []) PWild els in
  single_match false e = Some (EIfLet (psome (pv 0)) (some (ECall 5 [])) (blk (ECall 6 [v 0])) None) /\
  single_match true e2 = Some (EIf (EEq false (ECall 5 []) (EInt 5)) (blk (ECall 6 [])) (Some els)) /\
  single_match true (match2_ (EInt 5) (PLit 5) (ECall 6 []) PWild (EData KTup [])) = Some (ECall 6 []) /\
  single_match true (match2_ (ECall 5 []) (PLit 5) (ECall 6 []) PWild (ECall 7 [])) = None /\
  handled w1 5 e /\ handled w1 5 e2 /\ derived_eq w1 5 e2 /\ run e2 = (OVal (VInt 6), ([], [6; 5])).
Proof.
  repeat split; try (vm_compute; reflexivity).
  1,2: intros t r arms R s x s' E; inversion R; subst; exists PWild; eexists; (split; [|discriminate]); cbn; auto.
  intros r p a q b E k K s u s1 x s2 R KE. inversion E; subst. inversion K; subst. cbn in KE. inversion KE; subst.
  vm_compute in R. inversion R; subst. reflexivity.
Qed.

(** ** C100: collapsible_match *)

(** An `if` that fills an arm becomes the guard of the arm.  Partial: the `if` is all there is in the arm, and the values of
    the arm's pattern that fail the new guard get to the arm whose body is the `else`; neither is guaranteed (refuted below). *)
Theorem collapsible_guard_partial : forall w fuel e e', reborrows w -> In e' (collapse_guard e) -> collapses w fuel e ->
  forall s, eval w fuel e' s = eval w fuel e s.
Proof. intros w fuel e e' RB. exact (collapse_guard_sound w fuel RB e e'). Qed.
Print Assumptions collapsible_guard_partial.
(** An `if let` or `match` on a variable of an outer `if let`: its pattern can take the place of the variable.  Partial:
    names are distinct, and the variable is bound by value. *)
Theorem collapsible_if_let_partial : forall w fuel p r a b e', reborrows w -> In e' (collapse_pattern (EIfLet p r a b)) ->
  nested w fuel r p a -> (forall c, b = Some c -> unmentioned p c) ->
  forall s, eval w fuel e' s = eval w fuel (EIfLet p r a b) s.
Proof. intros w fuel p r a b e' RB. exact (collapse_if_let_sound w fuel RB p r a b e'). Qed.
Print Assumptions collapsible_if_let_partial.
(** The same in the arm of a `match`.  Partial: moreover the arm has no guard, and values of its pattern get to the arm whose
    body is the `else` (both refuted below). *)
Theorem collapsible_match_partial : forall w fuel r arms e', reborrows w -> In e' (collapse_pattern (EMatch false r arms)) ->
  nests w fuel (EMatch false r arms) -> forall s, eval w fuel e' s = eval w fuel (EMatch false r arms) s.
Proof. intros w fuel r arms e' RB. exact (collapse_match_sound w fuel RB r arms e'). Qed.
Print Assumptions collapsible_match_partial.
(** `match Some(1) { Some(_) => if !f8() { 1 } else { 2 }, None => 2 }`: no arm is left for `Some(_)`. *)
Theorem collapsible_guard_exhaustive_refuted : exists e e', In e' (collapse_guard e) /\
  fst (run e) = OVal (VInt 2) /\ fst (run e') = OStuck.
Proof.
  exists (match2_ (some (EInt 1)) (psome PWild) (EIf (ENot yes) (EInt 1) (Some (EInt 2))) pnone (EInt 2)). eexists.
  split; [left; reflexivity|]. split; vm_compute; reflexivity.
Qed.
Print Assumptions collapsible_guard_exhaustive_refuted.
(** `match Some(1) { Some(_) => { if f8() { 5 } else { f(3) }; } _ => f(3) }`: the value of the `if` was thrown away. *)
Theorem collapsible_guard_statement_refuted : exists e e', In e' (collapse_guard e) /\
  fst (run e) = OVal unit_v /\ fst (run e') = OVal (VInt 5).
Proof.
  exists (match2_ (some (EInt 1)) (psome PWild) (EBlock None [SSemi (EIf yes (EInt 5) (Some (ECall 3 [])))] None) PWild (ECall 3 [])). eexists.
  split; [left; reflexivity|]. split; vm_compute; reflexivity.
Qed.
Print Assumptions collapsible_guard_statement_refuted.
(** `match Some(2) { Some(x) if f8() => match x { 1 => 5, _ => 0 }, Some(_) => 7, _ => 0 }` with `Some(1)` for the first pattern. *)
Theorem collapsible_match_between_refuted : exists e e', In e' (collapse_pattern e) /\
  fst (run e) = OVal (VInt 0) /\ fst (run e') = OVal (VInt 7).
Proof.
  exists (EMatch false (some (EInt 2))
    [(psome (pv 0), Some yes, match2_ (v 0) (PLit 1) (EInt 5) PWild (EInt 0)); (psome PWild, None, EInt 7); (PWild, None, EInt 0)]). eexists.
  split; [left; reflexivity|]. split; vm_compute; reflexivity.
Qed.
Print Assumptions collapsible_match_between_refuted.
(** `match Some(2) { Some(x) if f8() => match x { 1 => 5, _ => 0 }, _ => 0 }`: the guard is not looked at any more. *)
Theorem collapsible_match_guard_refuted : exists e e', In e' (collapse_pattern e) /\
  run e = (OVal (VInt 0), ([], [8])) /\ run e' = (OVal (VInt 0), ([], [])).
Proof.
  exists (arm2 (some (EInt 2)) (psome (pv 0)) (Some yes) (match2_ (v 0) (PLit 1) (EInt 5) PWild (EInt 0)) PWild None (EInt 0)). eexists.
  split; [left; reflexivity|]. split; vm_compute; reflexivity.
Qed.
Print Assumptions collapsible_match_guard_refuted.
(** `match Some(f5()) { Some(x) => { if x == 5 { f6() } } _ => {} }`. *)
Example C100_guard :
  let r := some (ECall 5 []) in
  let c := EEq false (v 0) (EInt 5) in
  let e := match2_ r (psome (pv 0)) (blk (EIf c (ECall 6 []) None)) PWild no_e in
  collapse_guard e = [arm2 r (psome (pv 0)) (Some c) (ECall 6 []) PWild None no_e] /\
  collapses w1 5 e /\ run e = (OVal (VInt 6), ([], [6; 5])).
Proof.
  repeat split; try (vm_compute; reflexivity).
  - rename H into E, H0 into P. destruct pre as [|a [|a' [|a'' pre]]]; inversion E; subst; cbn in P; inversion P; subst. apply Braced, Bare.
  - rename H into E, H0 into P, H1 into RF. destruct pre as [|a [|a' [|a'' pre]]]; inversion E; subst; cbn in P; inversion P; subst.
    vm_compute in RF. inversion RF; subst. intros y I. reflexivity.
  - rename H into E, H0 into P, H1 into RF. intros M. destruct pre as [|a [|a' [|a'' pre]]]; inversion E; subst; cbn in P; inversion P; subst.
    vm_compute in RF. inversion RF; subst. exists [], PWild, []. split; [reflexivity|]. split; [apply Forall_nil|]. split; [discriminate|intros y []].
Qed.
(** `if let Some(x) = Some(Some(f5())) { if let Some(y) = x { f6(y) } else { f7() } } else { f7() }`, and
    `match Some(Some(f5())) { Some(x) => match x { None => f7(), Some(y) => f6(y) }, None => f7() }`. *)
Example C100_pattern :
  let r := some (some (ECall 5 [])) in
  let i := EIfLet (psome (pv 1)) (v 0) (ECall 6 [v 1]) (Some (ECall 7 [])) in
  let e := EIfLet (psome (pv 0)) r (blk i) (Some (ECall 7 [])) in
  let i2 := match2_ (v 0) pnone (ECall 7 []) (psome (pv 1)) (ECall 6 [v 1]) in
  let e2 := EMatch false r [(psome (pv 0), None, blk i2); (PWild, None, ECall 7 [])] in
  collapse_pattern e = [EIfLet (psome (psome (pv 1))) r (ECall 6 [v 1]) (Some (ECall 7 []))] /\
  collapse_pattern e2 = [EMatch false r [(psome (psome (pv 1)), None, ECall 6 [v 1]); (PWild, None, ECall 7 [])]] /\
  nested w1 5 r (psome (pv 0)) (blk i) /\ nests w1 5 e2 /\ run e = (OVal (VInt 6), ([], [6; 5])) /\ run e2 = (OVal (VInt 6), ([], [6; 5])).
Proof.
  intros r i e i2 e2. split; [vm_compute; reflexivity|]. split; [vm_compute; reflexivity|].
  assert (ND : NoDup [1; 0]) by (repeat constructor; cbn; intuition discriminate).
  split; [|split; [|split; vm_compute; reflexivity]].
  - intros x q y z E. inversion E; subst. split; [apply Braced, Bare|]. split; [exact ND|]. split; [reflexivity|]. split; [reflexivity|].
    intros s u s' bs u' R M I. apply LIfLet.
  - intros r' pre p g a post E NI.
    destruct pre as [|a0 [|a1 [|a2 pre]]]; inversion E; subst; [|destruct (NI eq_refl)]. split; [reflexivity|]. split.
    + intros x q y z E2. inversion E2; subst. split; [apply Braced, Bare|]. split; [exact ND|]. split; [reflexivity|]. split; [reflexivity|].
      intros s u s' bs u' R M I. vm_compute in R. inversion R; subst. cbn in M. inversion M; subst. destruct I as [I|[]]. inversion I; subst.
      apply LSecond; [split; [discriminate|intros NN; destruct (NN eq_refl)]|]. intros n [].
    + intros qe ge els RF. vm_compute in RF. inversion RF; subst. split; [intros n I; reflexivity|].
      intros s u s' R M. exists [], PWild, []. split; [reflexivity|]. split; [apply Forall_nil|]. split; [discriminate|intros n []].
Qed.

(** ** C101: redundant_guards *)

(** A guard that tests a variable of the pattern with `matches!`, `if let` or `==` goes into the pattern.  Partial: the
    variable has no subpattern, names are distinct, and `==` is structural (each refuted below); guards that call `is_some`,
    `starts_with` and the like are not modelled. *)
Theorem redundant_guards_partial : forall w fuel e e', reborrows w -> In e' (redundant_guards e) -> distinct_names e ->
  structural_eq w fuel e -> forall s, eval w fuel e' s = eval w fuel e s.
Proof. intros w fuel e e' RB. exact (redundant_guards_sound w fuel RB e e'). Qed.
Print Assumptions redundant_guards_partial.
(** `match 2 { x @ 1 if x == 2 => 5, _ => 6 }` becomes `match 2 { 2 => 5, _ => 6 }`. *)
Theorem redundant_guards_subpattern_refuted : exists e e', In e' (redundant_guards e) /\
  fst (run e) = OVal (VInt 6) /\ fst (run e') = OVal (VInt 5).
Proof.
  exists (arm2 (EInt 2) (PBind false 0 (Some (PLit 1))) (Some (EEq false (v 0) (EInt 2))) (EInt 5) PWild None (EInt 6)). eexists.
  split; [left; reflexivity|]. split; vm_compute; reflexivity.
Qed.
Print Assumptions redundant_guards_subpattern_refuted.
(** A type of which no value is equal to any other: `match Some(K7) { Some(x) if x == K7 => 5, _ => 6 }`. *)
Theorem redundant_guards_user_eq_refuted : exists e e', In e' (redundant_guards e) /\
  fst (run e) = OVal (VInt 6) /\ fst (run e') = OVal (VInt 5).
Proof.
  exists (arm2 (some (EData (KCtor 7) [])) (psome (pv 0)) (Some (EEq false (v 0) (EData (KCtor 7) []))) (EInt 5) PWild None (EInt 6)). eexists.
  split; [left; reflexivity|]. split; vm_compute; reflexivity.
Qed.
Print Assumptions redundant_guards_user_eq_refuted.
(** `match Some(1) { Some(x) if matches!(x, 1 if f8(x)) => 5, _ => 6 }`: `x` is gone, but not from the guard. *)
Theorem redundant_guards_inner_guard_refuted : exists e e', In e' (redundant_guards e) /\
  fst (run e) = OVal (VInt 5) /\ fst (run e') = OStuck.
Proof.
  exists (arm2 (some (EInt 1)) (psome (pv 0)) (Some (arm2 (v 0) (PLit 1) (Some (ECall 8 [v 0])) (EBool true) PWild None (EBool false)))
            (EInt 5) PWild None (EInt 6)). eexists.
  split; [left; reflexivity|]. split; vm_compute; reflexivity.
Qed.
Print Assumptions redundant_guards_inner_guard_refuted.
(** `{ let y = 3; match Some(Some(1)) { Some(x) if matches!(x, Some(y)) => y, _ => 6 } }`: `y` in the body now is another one. *)
Theorem redundant_guards_capture_refuted : exists e e', In e' (redundant_guards e) /\
  fst (eval w1 5 e ([(1, VInt 3)], [])) = OVal (VInt 3) /\ fst (eval w1 5 e' ([(1, VInt 3)], [])) = OVal (VInt 1).
Proof.
  exists (arm2 (some (some (EInt 1))) (psome (pv 0)) (Some (arm2 (v 0) (psome (pv 1)) None (EBool true) PWild None (EBool false)))
            (v 1) PWild None (EInt 6)). eexists.
  split; [left; reflexivity|]. split; vm_compute; reflexivity.
Qed.
Print Assumptions redundant_guards_capture_refuted.
(** `match Some(Some(f5())) { Some(x) if matches!(x, Some(y) if y == 5) => f6(), Some(z) if None == z => f7(), _ => 0 }`. *)
Example C101_nontrivial :
  let r := some (some (ECall 5 [])) in
  let ig := EEq false (v 1) (EInt 5) in
  let g1 := arm2 (v 0) (psome (pv 1)) (Some ig) (EBool true) PWild None (EBool false) in
  let a1 : arm := (psome (pv 0), Some g1, ECall 6 []) in
  let a2 : arm := (psome (pv 2), Some (EEq false none (v 2)), ECall 7 []) in
  let a3 : arm := (PWild, None, EInt 0) in
  let e := EMatch false r [a1; a2; a3] in
  redundant_guards e =
    [EMatch false r [(psome (psome (pv 1)), Some ig, ECall 6 []); a2; a3]; EMatch false r [a1; (psome pnone, None, ECall 7 []); a3]] /\
  distinct_names e /\ structural_eq w1 5 e /\ run e = (OVal (VInt 6), ([], [6; 5])).
Proof.
  split; [vm_compute; reflexivity|]. split; [|split; [|vm_compute; reflexivity]].
  - intros r arms E p g b I. inversion E; subst. in_list I; split.
    + intros x adj q ig [G|[G _]]; inversion G; subst. split; [repeat constructor; cbn; intuition discriminate|]. split; [reflexivity|].
      split; [intros h HH; inversion HH; subst; reflexivity|]. intros y _. reflexivity.
    + intros x adj k [G|G]; inversion G.
    + intros x adj q ig [G|[G _]]; inversion G.
    + intros x adj k [G|G]; inversion G; subst. split; [repeat constructor; intros []|reflexivity].
  - intros r arms p g b E I. inversion E; subst. in_list I; intros a k [G|G] kv K u; inversion G; subst.
    + specialize (K ([], [])). vm_compute in K. discriminate.
    + specialize (K ([], [])). vm_compute in K. inversion K; subst.
      destruct u as [| |[| |c] vs| |]; try (split; split; intros F; discriminate F).
      destruct c as [|[|[|[|c]]]]; destruct vs as [|x [|]]; split; split; intros F; try discriminate F; try reflexivity.
Qed.
