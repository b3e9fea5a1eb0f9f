(** C93-C95: `return` at the end of a body, `let` in front of a result, and the `?` operator. *)
From Verif Require Import CloSpec CloModel MatModel MatMove MatProofs MatProofs2 MatProofs3 TailModel TailProofs TailProofs2 TailProofs3 TailProofs4 P_Mat.

Definition no_tuple (e : expr) : bool := false.
Definition ret (e : expr) := ERet (Some e).
(** What a function with this body does, from the state with these variables. *)
Definition run_in (r : env) (e : expr) : out * state w1 := run_fn w1 5 e (r, []).

(** ** C93: needless_return, let_and_return *)

(** Each suggestion for the body of a function gives a body that returns the same value and has the same effects; where it
    was unit it must stay unit.  Partial: nothing guarantees that (refuted below). *)
Theorem needless_return_fn_partial : forall w fuel tuple e o, In o (needless_return_fn tuple e) ->
  exists e', o = Some e' /\
  forall s, (forall v, fst (run_fn w fuel e s) = OVal unit_v -> fst (run_fn w fuel e' s) = OVal v -> v = unit_v) ->
  run_fn w fuel e' s = run_fn w fuel e s.
Proof.
  intros w fuel tuple e o H. unfold needless_return_fn, block_return in H.
  destruct e as [| | | | | | | | | | | | | |l ss t| | | | | |]; try contradiction.
  destruct o as [e'|]; [|apply no_none in H; destruct H as [K _]; discriminate].
  exists e'. split; [reflexivity|]. intros s T.
  assert (N0 : nothing None) by (left; reflexivity).
  pose proof (final_tail tuple w fuel _ _ _ _ N0 H s) as TL. apply tail_run in TL.
  - cbn [eopt] in TL. unfold run_fn. destruct (eval w fuel e' s) as [o' s'], (eval w fuel (EBlock l ss t) s) as [o s1].
    cbn [fst snd] in TL. destruct TL as [A ->]. f_equal. unfold out_of in A. exact A.
  - intros v A B. apply T; unfold run_fn; cbn [eopt] in B.
    + destruct (eval w fuel (EBlock l ss t) s). exact A.
    + destruct (eval w fuel e' s). exact B.
Qed.
Print Assumptions needless_return_fn_partial.
(** The same for closures, called with any arguments. *)
Theorem needless_return_closure_partial : forall w fuel tuple ps e o, In o (needless_return_closure tuple e) ->
  exists e', o = Some e' /\
  forall vs s, (forall v, fst (apply w fuel (AC ps e) vs s) = OVal unit_v -> fst (apply w fuel (AC ps e') vs s) = OVal v -> v = unit_v) ->
  apply w fuel (AC ps e') vs s = apply w fuel (AC ps e) vs s.
Proof.
  intros w fuel tuple ps e o H. unfold needless_return_closure in H.
  set (repl := match e with ERet None => Some (EBlock None [] None) | _ => None end) in *.
  assert (N : nothing repl).
  { subst repl. destruct e as [| | | | | | | | | | | | | | | |[|]| | | |]; unfold nothing; auto. }
  destruct o as [e'|].
  2:{ apply no_none in H. destruct H as (-> & K & _). discriminate. }
  exists e'. split; [reflexivity|]. intros vs s T. cbn [apply] in *. destruct (bind_all ps vs) as [bs|]; [|reflexivity].
  pose proof (final_tail tuple w fuel _ _ _ _ N H (enter bs s)) as TL. apply tail_run in TL; cbn [eopt] in TL.
  - destruct (eval w fuel e' (enter bs s)) as [o' s'], (eval w fuel e (enter bs s)) as [o s1].
    cbn [fst snd] in TL. destruct TL as [A ->]. f_equal. unfold out_of in A. exact A.
  - intros v A B. cbn [eopt] in B. apply T.
    + destruct (eval w fuel e (enter bs s)). exact A.
    + destruct (eval w fuel e' (enter bs s)). exact B.
Qed.
Print Assumptions needless_return_closure_partial.
(** `fn f() { if c() { return; } else { 5 }; }` becomes `fn f() { if c() { } else { 5 } }`. *)
Theorem needless_return_type_refuted : exists e e', In (Some e') (needless_return_fn no_tuple e) /\
  fst (run_in [] e) = OVal unit_v /\ fst (run_in [] e') = OVal (VInt 5).
Proof.
  exists (EBlock None [SSemi (EIf (ENot (ECall 8 [])) (EBlock None [SSemi (ERet None)] None) (Some (blk (EInt 5))))] None). eexists.
  split; [left; reflexivity|]. split; vm_compute; reflexivity.
Qed.
Print Assumptions needless_return_type_refuted.
(** The value of the block is the value of its last `let`.  Partial: not for `ref` bindings (refuted below). *)
Theorem let_and_return_partial : forall w fuel e e', let_and_return e = Some e' -> by_value e ->
  forall s, ok w (eval w fuel e s) -> eval w fuel e' s = eval w fuel e s.
Proof. exact let_and_return_sound. Qed.
Print Assumptions let_and_return_partial.
(** `{ let ref x = f(); x }` is a reference. *)
Theorem let_and_return_ref_refuted : exists e e', let_and_return e = Some e' /\
  fst (run e) = OVal (VRef (VInt 5)) /\ fst (run e') = OVal (VInt 5).
Proof.
  exists (EBlock None [SLet (PBind true 0 None) (Some (ECall 5 [])) None] (Some (v 0))). eexists.
  split; [vm_compute; reflexivity|]. split; vm_compute; reflexivity.
Qed.
Print Assumptions let_and_return_ref_refuted.
(** `{ let a = f(); match a { 1 => return 2, _ => { g(); if h() { return 3; } else { return 4 } } } }`: three suggestions; and a
    match of tuple type with `return` in an arm. *)
Example C93_nontrivial :
  let inner e1 e2 := EBlock None [SSemi (ECall 6 [])] (Some (EIf (ECall 8 []) e1 (Some e2))) in
  let body b1 b2 := EBlock None [SLet (pv 0) (Some (ECall 5 [])) None]
    (Some (EMatch false (v 0) [(PLit 1, None, b1); (PWild, None, b2)])) in
  let r3 := EBlock None [SSemi (ret (EInt 3))] None in
  let r4 := blk (ret (EInt 4)) in
  let e := body (ret (EInt 2)) (inner r3 r4) in
  needless_return_fn no_tuple e =
    [Some (body (EInt 2) (inner r3 r4)); Some (body (ret (EInt 2)) (inner (blk (EInt 3)) r4));
     Some (body (ret (EInt 2)) (inner r3 (blk (EInt 4))))] /\
  run_in [] e = (OVal (VInt 3), ([], [8; 6; 5])) /\
  needless_return_closure (fun _ => true) (EMatch false (v 0) [(PWild, None, ERet None)]) =
    [Some (EMatch false (v 0) [(PWild, None, unit_e)])] /\
  needless_return_closure no_tuple (ERet None) = [Some (EBlock None [] None)].
Proof. repeat split; vm_compute; reflexivity. Qed.
Example C93_let :
  let e := EBlock (Some 3) [SSemi (ECall 6 []); SLet (pv 0) (Some (ECall 5 [])) None] (Some (v 0)) in
  let_and_return e = Some (EBlock (Some 3) [SSemi (ECall 6 [])] (Some (ECall 5 []))) /\ by_value e /\
  run e = (OVal (VInt 5), ([], [5; 6])).
Proof.
  repeat split; try (vm_compute; reflexivity). intros l ss br x sub i els t E. inversion E as [[A B C]].
  destruct ss as [|s1 [|s2 [|s3 ss]]]; try discriminate; inversion B; subst; try reflexivity.
Qed.

(** ** C94: `?` for let-else, and for `return Err(e)?` *)

(** `let Some(p) = e else { return None };` becomes `let p = e?;`, wherever the statement stands. *)
Theorem question_let_else_keeps : forall w fuel fresh irr x y, let_else_question fresh irr x = Some y ->
  typed_let w fuel irr x ->
  forall l pre ss t s, eval w fuel (EBlock l (pre ++ y :: ss) t) s = eval w fuel (EBlock l (pre ++ x :: ss) t) s.
Proof. intros w fuel fresh irr x y H T l pre ss t s. apply stmt_block. intros s1. apply (let_else_stmt w fuel fresh irr); assumption. Qed.
Print Assumptions question_let_else_keeps.
(** What is marked as coming from `?` does. *)
Definition desugared (x : stmt) : Prop :=
  forall r arms, x = SSemi (ERet (Some (EMatch true r arms))) -> exists conv n, EMatch true r arms = try_conv conv TResult n r.
(** `return Err(e)?;` becomes `Err(e)?;`, wherever the statement stands. *)
Theorem return_question_keeps : forall w fuel x y, return_question_mark x = Some y -> desugared x ->
  forall l pre ss t s, eval w fuel (EBlock l (pre ++ y :: ss) t) s = eval w fuel (EBlock l (pre ++ x :: ss) t) s.
Proof.
  intros w fuel x y H D l pre ss t s. apply stmt_block. intros s1. unfold return_question_mark in H.
  destruct x as [| |[| | | | | | | | | | | | | | | |[[| | | | | | | | | | | | |[] [| | |[| |c] [|a [|]]| | | | | | | | | | | | | | | | |] arms| | | | | | |]|]| | | |]]; try discriminate.
  destruct (Nat.eqb_spec c c_err); [subst c|discriminate]. inversion H; subst y. clear H.
  destruct (D _ _ eq_refl) as (conv & n & E). rewrite E. clear D E. cbn [estmts]. rewrite eval_ret. cbn [eopt].
  assert (N : forall v, fst (eval w fuel (try_conv conv TResult n (EData (KCtor c_err) [a])) s1) <> OVal v).
  { intros v. destruct (eval w fuel (EData (KCtor c_err) [a]) s1) as [o s2] eqn:E.
    destruct o as [u| | | | |]; try (rewrite (try_other _ _ _ _ _ _ _ _ _ E) by discriminate; discriminate).
    assert (V : exists u', view_of TResult u = Some (Bad [u'])).
    { rewrite eval_ctor in E. destruct (eval w fuel a s1) as [o3 s3]. destruct o3; inversion E; subst. eexists; reflexivity. }
    destruct V as [u' V]. assert (NB : TResult <> TBool) by discriminate.
    rewrite (try_eval w fuel conv TResult n _ _ _ _ _ NB E V). cbn. destruct conv; [|discriminate].
    unfold calls. destruct (call w into [u'] (snd s2)) as [[] ?]; discriminate. }
  destruct (eval w fuel (try_conv conv TResult n (EData (KCtor c_err) [a])) s1) as [o s2]. cbn [fst] in N.
  destruct o as [u| | | | |]; try reflexivity. destruct (N u eq_refl).
Qed.
Print Assumptions return_question_keeps.
(** `{ let Some((a, ref b)) = f() else { return None; }; a }`, `let Some(ref x @ p) = ...`; and `return Err(5)?;` with a conversion. *)
Example C94_nontrivial :
  let x p := SLet (psome p) (Some (v 7)) (Some (EBlock None [SSemi (ret none)] None)) in
  let y p r := SLet p (Some (try_expr TOption 99 r)) None in
  let p := PData KTup [pv 0; PBind true 1 None] None in
  let all (_ : pat) := true in
  let fn s := blk (EBlock None [SSemi (ECall 6 []); s] (Some (v 0))) in
  let opt := [(7, some_v (VData KTup [VInt 1; VInt 2]))] in
  let_else_question 99 all (x p) = Some (y p (v 7)) /\
  run_in opt (fn (x p)) = (OVal (VInt 1), (opt, [6])) /\
  run_in [(7, none_v)] (fn (y p (v 7))) = (OVal none_v, ([(7, none_v)], [6])) /\
  let_else_question 99 all (x (PBind true 0 (Some (PBind true 1 None)))) =
    Some (y (PBind false 0 (Some (pv 1))) (EMeth TOption MAsRef (v 7) [])) /\
  run_in opt (fn (x (PBind true 0 (Some p)))) = (OVal (VRef (VData KTup [VInt 1; VInt 2])), (opt, [6])).
Proof. repeat split; vm_compute; reflexivity. Qed.
Example C94_typed : typed_let w1 5 (fun p => match p with PBind _ _ None => true | _ => false end)
  (SLet (psome (pv 0)) (Some (EIf (ECall 8 []) (some (EInt 1)) (Some none))) (Some (blk (ret none)))).
Proof.
  intros p i els E s u s' V. inversion E; subst. rewrite eval_if in V. cbn -[leave] in V. inversion V; subst. right.
  eexists. split; [reflexivity|]. intros q d Q _. inversion Q; subst. discriminate.
Qed.
Example C94_return :
  let e := try_conv true TResult 99 (err (EInt 4)) in
  return_question_mark (SSemi (ret e)) = Some (SSemi e) /\
  run_in [] (EBlock None [SSemi (ret e); SSemi (ECall 6 [])] None) = (OVal (err_v (VInt 1)), ([], [1])) /\ desugared (SSemi (ret e)).
Proof. repeat split; try (vm_compute; reflexivity). intros r arms E. inversion E. exists true, 99. reflexivity. Qed.

(** ** C95: `?` for `if` and `match` *)

(** `if x.is_none() { return None; }` becomes `x?;`, and `if x.is_none() { None } else { x }`-like code `Some(x?)`.  Partial: the
    branch must leave and return a value of the type; a Result only without `as_ref` and `else` (all refuted below). *)
Theorem question_if_is_partial : forall w fuel fresh name by_ref e e', question_if_is fresh name by_ref e = Some e' ->
  (forall t r a b, e = EIf (EMeth t MIsBad r []) a b ->
    leaves w fuel a /\ returns_a w fuel t a /\ (t = TResult -> by_ref = false /\ b = None)) ->
  forall s, ok w (eval w fuel e s) -> eval w fuel e' s = eval w fuel e s.
Proof. exact question_if_is_sound. Qed.
Print Assumptions question_if_is_partial.
(** `if let Some(x) = o { x } else { return None }` becomes `o?`, and `if let Err(e) = r { return Err(e); }` `r?;`.  Partial:
    [if_let_fits] says what the lint does not check (refuted below). *)
Theorem question_if_let_partial : forall w fuel fresh name semi e e', question_if_let fresh name semi e = Some e' ->
  if_let_fits w fuel name e -> (forall p r a, e = EIfLet p r a None -> semi = true) -> reborrows w ->
  forall s, typed_if_let w fuel s e -> ok w (eval w fuel e s) ->
  (semi = true -> forall v, fst (eval w fuel e s) = OVal v -> v = unit_v) -> eval w fuel e' s = eval w fuel e s.
Proof. exact question_if_let_sound. Qed.
Print Assumptions question_if_let_partial.
(** `match o { Some(x) => x, None => return None }` becomes `o?`, also for Result, with the error converted by `into`, with the
    arms in the other order, and with a body.  Partial: where a binding is dropped it must bind by value (refuted below). *)
Theorem question_match_partial : forall w fuel fresh t e e', question_match fresh t e = Some e' -> arms_by_value e -> reborrows w ->
  forall s, (forall h r arms v s', e = EMatch h r arms -> eval w fuel r s = (OVal v, s') -> view_of t v <> None) ->
  eval w fuel e' s = eval w fuel e s.
Proof. exact question_match_sound. Qed.
Print Assumptions question_match_partial.

Definition is_bad (t : rty) (r : expr) := EMeth t MIsBad r [].
Definition same_name (x : nat) : nat := x.
Definition at_end (e : expr) := blk e.
(** `if o.is_none() { None } else { o }` as the value of a variable becomes `Some(o?)`, which returns. *)
Theorem question_if_is_stays_refuted : exists e e' s, question_if_is 99 same_name true e = Some e' /\
  eval w1 5 e s = (OVal none_v, s) /\ eval w1 5 e' s = (ORet none_v, s).
Proof.
  exists (EIf (is_bad TOption (v 0)) (blk none) (Some (blk (v 0)))). eexists. exists ([(0, none_v)], []).
  split; [vm_compute; reflexivity|]. split; vm_compute; reflexivity.
Qed.
Print Assumptions question_if_is_stays_refuted.
(** `if o.is_none() { None; }` does nothing; `o?;` returns. *)
Theorem question_if_is_nothing_refuted : exists e e' s, question_if_is 99 same_name false e = Some e' /\
  eval w1 5 e s = (OVal unit_v, s) /\ eval w1 5 e' s = (ORet none_v, s).
Proof.
  exists (EIf (is_bad TOption (v 0)) (EBlock None [SSemi none] None) None). eexists. exists ([(0, none_v)], []).
  split; [vm_compute; reflexivity|]. split; vm_compute; reflexivity.
Qed.
Print Assumptions question_if_is_nothing_refuted.
(** `if r.is_err() { return r } else { r }` becomes `Some(r?)`. *)
Theorem question_if_is_some_refuted : exists e e' s, question_if_is 99 same_name false e = Some e' /\
  eval w1 5 e s = (OVal (ok_v (VInt 1)), s) /\ eval w1 5 e' s = (OVal (some_v (VInt 1)), s).
Proof.
  exists (EIf (is_bad TResult (v 0)) (ret (v 0)) (Some (blk (v 0)))). eexists. exists ([(0, ok_v (VInt 1))], []).
  split; [vm_compute; reflexivity|]. split; vm_compute; reflexivity.
Qed.
Print Assumptions question_if_is_some_refuted.
(** Not Copy: `if r.is_err() { return r; }` becomes `r.as_ref()?;`, which returns a reference to the error. *)
Theorem question_if_is_as_ref_refuted : exists e e' s, question_if_is 99 same_name true e = Some e' /\
  eval w1 5 e s = (ORet (err_v (VInt 1)), s) /\ eval w1 5 e' s = (ORet (err_v (VRef (VInt 1))), s).
Proof.
  exists (EIf (is_bad TResult (v 0)) (ret (v 0)) None). eexists. exists ([(0, err_v (VInt 1))], []).
  split; [vm_compute; reflexivity|]. split; vm_compute; reflexivity.
Qed.
Print Assumptions question_if_is_as_ref_refuted.
(** `if let Ok(x) = r { f(); x } else { return r }` becomes `r?`: the call is lost. *)
Theorem question_if_let_body_refuted : exists e e' s, question_if_let 99 same_name false e = Some e' /\
  snd (snd (eval w1 5 e s)) = [5] /\ snd (snd (eval w1 5 e' s)) = [].
Proof.
  exists (EIfLet (pok (pv 1)) (v 0) (EBlock None [SSemi (ECall 5 [])] (Some (v 1))) (Some (ret (v 0)))). eexists.
  exists ([(0, ok_v (VInt 1))], []).
  split; [vm_compute; reflexivity|]. split; vm_compute; reflexivity.
Qed.
Print Assumptions question_if_let_body_refuted.
(** `if let Ok(e) = r { e } else { return Err(e) }` with another variable `e` becomes `r?`: another error is returned. *)
Theorem question_if_let_name_refuted : exists name e e' s, question_if_let 99 name false e = Some e' /\
  eval w1 5 e s = (ORet (err_v (VInt 7)), s) /\ eval w1 5 e' s = (ORet (err_v (VInt 1)), s).
Proof.
  exists (fun x => if Nat.eqb x 2 then 1 else x), (EIfLet (pok (pv 1)) (v 0) (v 1) (Some (ret (err (v 2))))). eexists.
  exists ([(0, err_v (VInt 1)); (2, VInt 7)], []).
  split; [vm_compute; reflexivity|]. split; vm_compute; reflexivity.
Qed.
Print Assumptions question_if_let_name_refuted.
(** `if let Err(e) = r { Err(e); }` does nothing; `r?;` returns. *)
Theorem question_if_let_nothing_refuted : exists e e' s, question_if_let 99 same_name true e = Some e' /\
  eval w1 5 e s = (OVal unit_v, s) /\ eval w1 5 e' s = (ORet (err_v (VInt 1)), s).
Proof.
  exists (EIfLet (perr (pv 1)) (v 0) (EBlock None [SSemi (err (v 1))] None) None). eexists. exists ([(0, err_v (VInt 1))], []).
  split; [vm_compute; reflexivity|]. split; vm_compute; reflexivity.
Qed.
Print Assumptions question_if_let_nothing_refuted.
(** `match o { Some(ref x) => x, None => return None }` is a reference; `o?` is not. *)
Theorem question_match_ref_refuted : exists e e' s, question_match 99 TOption e = Some e' /\
  eval w1 5 e s = (OVal (VRef (VInt 1)), s) /\ eval w1 5 e' s = (OVal (VInt 1), s).
Proof.
  exists (match2_ (v 0) (psome (PBind true 1 None)) (v 1) pnone (ret none)). eexists. exists ([(0, some_v (VInt 1))], []).
  split; [vm_compute; reflexivity|]. split; vm_compute; reflexivity.
Qed.
Print Assumptions question_match_ref_refuted.

Example C95_if_is :
  let e := EIf (is_bad TOption (ECall 9 [])) (EBlock None [SSemi (ret none)] None) None in
  let e2 := EIf (is_bad TOption (v 0)) (blk (ret none)) (Some (blk (v 0))) in
  question_if_is 99 same_name true e = Some (EBlock None [SSemi (try_expr TOption 99 (ECall 9 []))] None) /\
  run e = (ORet none_v, ([], [9])) /\
  question_if_is 99 same_name true e2 = Some (some (try_expr TOption 99 (v 0))) /\
  leaves w1 5 (blk (ret none)) /\ returns_a w1 5 TOption (blk (ret none)).
Proof. repeat split; try (vm_compute; reflexivity); intros s u H; inversion H; subst; discriminate. Qed.
Example C95_if_let :
  let body := EBlock None [SSemi (ECall 5 [])] (Some (v 1)) in
  let e := EIfLet (psome (pv 1)) (ECall 9 []) body (Some (EBlock None [SSemi (ret none)] None)) in
  let e2 := EIfLet (perr (pv 1)) (err (ECall 5 [])) (EBlock None [SSemi (ret (err (v 1)))] None) None in
  question_if_let 99 same_name false e =
    Some (EBlock None [SLet (pv 1) (Some (try_expr TOption 99 (ECall 9 []))) None; SSemi (ECall 5 [])] (Some (v 1))) /\
  run e = (ORet none_v, ([], [9])) /\ if_let_fits w1 5 same_name e /\
  question_if_let 99 same_name true e2 = Some (EBlock None [SSemi (try_expr TResult 99 (err (ECall 5 [])))] None) /\
  run e2 = (ORet (err_v (VInt 5)), ([], [5])) /\ if_let_fits w1 5 same_name e2.
Proof.
  intros body e e2. do 2 (split; [vm_compute; reflexivity|]).
  assert (F1 : if_let_fits w1 5 same_name e).
  { intros c0 br x r a b E. inversion E; subst.
    split; [|split; discriminate]. intros _ b' B s u H. inversion B; subst. cbn in H. inversion H; subst. discriminate. }
  split; [exact F1|]. do 2 (split; [vm_compute; reflexivity|]).
  intros c0 br x r a b E. inversion E; subst. split; [discriminate|]. split; [|discriminate]. intros _.
  split; [|split; [|split; [reflexivity|split; [discriminate|auto]]]]; intros [r0 x0] u H; cbn in H.
  - destruct (lookup 1 r0); cbn in H; discriminate H.
  - destruct (lookup 1 r0); cbn in H; inversion H; subst. discriminate.
Qed.
Example C95_match :
  let e := match2_ (v 0) (perr (pv 1)) (ret (err (ECall into [v 1]))) (pok (PBind true 2 None)) (ECall 5 [v 2]) in
  question_match 99 TResult e =
    Some (EBlock None [SLet (PBind true 2 None) (Some (try_conv true TResult 99 (v 0))) None] (Some (ECall 5 [v 2]))) /\
  arms_by_value e /\
  eval w1 5 e ([(0, err_v (VInt 1))], []) = (ORet (err_v (VInt 1)), ([(0, err_v (VInt 1))], [1])) /\
  eval w1 5 e ([(0, ok_v (VInt 3))], []) = (OVal (VInt 5), ([(0, ok_v (VInt 3))], [5])).
Proof.
  repeat split; try (vm_compute; reflexivity). intros h r arms p g b E I. inversion E; subst. destruct I as [I|[I|[]]]; inversion I; subst; cbn; auto.
Qed.
