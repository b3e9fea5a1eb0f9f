(** C84-C88: closures and the methods of Option, Result and bool. *)
From Verif Require Import CloSpec CloModel CloEval CloIdent CloRet CloBind CloFilter CloComb CloEager CloVariant CloMove CloLazy.

(** A world for the witnesses: calls are logged; function 9 gives `None`, the others their number; `==` of integers is
    equality if [sym], less-or-equal otherwise. *)
Definition logged (sym : bool) : world := {|
  W := list nat;
  call := fun f _ l => (CVal (if Nat.eqb f 9 then none_v else VInt (Z.of_nat f)), f :: l);
  adjust := fun v => v;
  eq_other := fun a b =>
    match a, b with
    | VInt x, VInt y => if sym then Z.eqb x y else Z.leb x y
    | VBool x, VBool y => Bool.eqb x y
    | _, _ => false
    end |}.
Definition w0 := logged true.
Definition run (e : expr) : out * state w0 := eval w0 5 e ([], []).
Definition some (e : expr) := EData (KCtor c_some) [e].
Definition none := EData (KCtor c_none) [].
Definition okk (e : expr) := EData (KCtor c_ok) [e].
Definition err (e : expr) := EData (KCtor c_err) [e].
Definition v (x : nat) := EVar x false.
Definition pv (x : nat) := PBind false x None.
Definition fn1 (x : nat) (b : expr) := AC [pv x] b.

(** ** C84: identity functions *)

(** A function that clippy takes for the identity returns its argument and does nothing else.  Partial: without `let … else`
    (refuted below). *)
Theorem identity_function_partial : forall w fuel a x s, identity_function a = true -> plain_closure a ->
  fst (apply w fuel a [x] s) <> OStuck -> apply w fuel a [x] s = (OVal x, s).
Proof. exact identity_apply. Qed.
Print Assumptions identity_function_partial.
Theorem map_identity_partial : forall w fuel t m r a, map_identity (EMeth t m r [a]) = Some r -> plain_closure a ->
  forall s, ok w (eval w fuel (EMeth t m r [a]) s) -> eval w fuel (EMeth t m r [a]) s = eval w fuel r s.
Proof. exact map_identity_sound. Qed.
Print Assumptions map_identity_partial.
Theorem map_or_identity_partial : forall w fuel e e', map_or_identity e = Some e' ->
  (forall t m r d a, e = EMeth t m r [d; a] -> plain_closure a) ->
  forall s, ok w (eval w fuel e s) -> eval w fuel e' s = eval w fuel e s.
Proof. exact map_or_identity_sound. Qed.
Print Assumptions map_or_identity_partial.
Theorem map_or_else_identity_partial : forall w fuel e e', unnecessary_map_or_else e = Some e' ->
  (forall t m r d a, e = EMeth t m r [d; a] -> plain_closure a) ->
  forall s, ok w (eval w fuel e s) -> eval w fuel e' s = eval w fuel e s.
Proof. exact unnecessary_map_or_else_sound. Qed.
Print Assumptions map_or_else_identity_partial.
(** `|x| { let Some(y) = x else { return Some(0) }; Some(y) }`, applied to `None`. *)
Theorem identity_let_else_refuted : exists a, identity_function a = true /\
  apply w0 0 a [none_v] ([], []) = (OVal (some_v (VInt 0)), ([], [])).
Proof.
  exists (fn1 0 (EBlock None [SLet (PData (KCtor c_some) [pv 1] None) (Some (v 0)) (Some (EBlock None [SSemi (ERet (Some (some (EInt 0))))] None))]
                   (Some (some (v 1))))).
  split; vm_compute; reflexivity.
Qed.
Print Assumptions identity_let_else_refuted.

(** `|(a, Point { x, y })| { let (p, Point { y: q, x: r }) = (a, Point { y: y, x: x }); return (p, Point { x: r, y: q }) }` *)
Example C84_nontrivial :
  let a := AC [PData KTup [pv 0; PStruct 9 [(0, pv 1); (1, pv 2)] false] None]
             (EBlock None [SLet (PData KTup [pv 3; PStruct 9 [(1, pv 4); (0, pv 5)] false] None)
                             (Some (EData KTup [v 0; EStruct 9 [(1, v 2); (0, v 1)]])) None]
                (Some (ERet (Some (EData KTup [v 3; EStruct 9 [(0, v 5); (1, v 4)]]))))) in
  let x := VData KTup [VInt 7; VData (KCtor 9) [VBool true; VInt 8]] in
  identity_function a = true /\ apply w0 0 a [x] ([], []) = (OVal x, ([], [])) /\
  map_identity (EMeth TResult MMapErr (ECall 3 []) [a]) = Some (ECall 3 []).
Proof. cbn zeta. repeat split; vm_compute; reflexivity. Qed.

(** ** C85: bind_instead_of_map *)

(** What is suggested for `and_then` and `or_else` behaves the same.  Partial: without labelled blocks and without `return` in
    guards (refuted below). *)
Theorem bind_instead_of_map_partial : forall w fuel e e', bind_instead_of_map e = Some e' ->
  forall t m r a, e = EMeth t m r [a] -> match a with AC _ b => some_sub awkward b = false | _ => True end ->
  forall s, typed w t (eval w fuel e s) -> eval w fuel e' s = eval w fuel e s.
Proof. exact bind_sound. Qed.
Print Assumptions bind_instead_of_map_partial.
(** `Some(1).and_then(|x| match x { y if { return None } => Some(2), _ => Some(3) })` *)
Theorem bind_return_in_guard_refuted : exists e e', bind_instead_of_map e = Some e' /\
  fst (run e) = OVal none_v /\ fst (run e') = OVal (some_v none_v).
Proof.
  eexists (EMeth TOption MAndThen (some (EInt 1))
    [fn1 0 (EMatch false (v 0) [(pv 1, Some (EBlock None [SSemi (ERet (Some none))] None), some (EInt 2)); (PWild, None, some (EInt 3))])]).
  eexists. split; [vm_compute; reflexivity|]. split; vm_compute; reflexivity.
Qed.
Print Assumptions bind_return_in_guard_refuted.
(** `Some(1).and_then(|x| 'a: { if true { break 'a None; } Some(x) })` *)
Theorem bind_labelled_block_refuted : exists e e', bind_instead_of_map e = Some e' /\
  fst (run e) = OVal none_v /\ fst (run e') = OVal (some_v none_v).
Proof.
  eexists (EMeth TOption MAndThen (some (EInt 1))
    [fn1 0 (EBlock (Some 0) [SExpr (EIf (EBool true) (EBlock None [SSemi (EBreak (Some 0) (Some none))] None) None)] (Some (some (v 0))))]).
  eexists. split; [vm_compute; reflexivity|]. split; vm_compute; reflexivity.
Qed.
Print Assumptions bind_labelled_block_refuted.
(** `Ok(1).and_then(|x| { f2(); if x == 2 { return Ok(5); } match x { 1 => Ok(f3(x)), _ => { Ok(0) } } })` *)
Example C85_nontrivial :
  let b ret a1 a2 :=
    EBlock None [SSemi (ECall 2 []); SExpr (EIf (EEq false (v 0) (EInt 2)) (EBlock None [SSemi (ERet (Some ret))] None) None)]
      (Some (EMatch false (v 0) [(PLit 1, None, a1); (PWild, None, EBlock None [] (Some a2))])) in
  let e := EMeth TResult MAndThen (okk (EInt 1)) [fn1 0 (b (okk (EInt 5)) (okk (ECall 3 [v 0])) (okk (EInt 0)))] in
  let e' := EMeth TResult MMap (okk (EInt 1)) [fn1 0 (b (EInt 5) (ECall 3 [v 0]) (EInt 0))] in
  bind_instead_of_map e = Some e' /\ run e = (OVal (ok_v (VInt 3)), ([], [3; 2])) /\ run e' = run e.
Proof. cbn zeta. repeat split; vm_compute; reflexivity. Qed.

(** ** C86: unnecessary_filter_map, unnecessary_find_map *)

(** If the lint says the call only maps, the closure always returns `Some`; if it says it only filters, the closure returns
    `None` or `Some` of its argument.  Partial: without labelled blocks and without `return` inside of the operand of a `return`
    (refuted below), for a parameter that is not bound again. *)
Theorem unnecessary_filter_map_partial : forall k x b vd, unnecessary_filter_map k x b = Some vd ->
  some_sub labelled b = false -> flat_returns b ->
  forall w fuel a s r s', apply w fuel (AC [PBind false x None] b) [a] s = (OVal r, s') -> view_of TOption r <> None ->
  match vd with
  | JustFilter => some_sub (binds x) b = false -> adjust w a = a -> r = none_v \/ r = some_v a
  | _ => exists y, r = some_v y
  end.
Proof. exact filter_verdict. Qed.
Print Assumptions unnecessary_filter_map_partial.
(** `.filter_map(|x| { 'a: { if true { break 'a None; } Some(x) } })` *)
Theorem filter_map_labelled_refuted : exists b, unnecessary_filter_map true 0 b = Some JustMap /\
  apply w0 0 (fn1 0 b) [VInt 1] ([], []) = (OVal none_v, ([], [])).
Proof.
  exists (EBlock (Some 0) [SExpr (EIf (EBool true) (EBlock None [SSemi (EBreak (Some 0) (Some none))] None) None)] (Some (some (EInt 3)))).
  split; vm_compute; reflexivity.
Qed.
Print Assumptions filter_map_labelled_refuted.
(** `.filter_map(|x| { return Some({ return None; }); })` *)
Theorem filter_map_nested_return_refuted : exists b, unnecessary_filter_map true 0 b = Some JustMap /\
  apply w0 0 (fn1 0 b) [VInt 1] ([], []) = (OVal none_v, ([], [])).
Proof.
  exists (EBlock None [SSemi (ERet (Some (some (EBlock None [SSemi (ERet (Some none))] None))))] None).
  split; vm_compute; reflexivity.
Qed.
Print Assumptions filter_map_nested_return_refuted.
(** `let y = 2; … .filter_map(|x| Some(y))`: the message says the call is unnecessary, but without it the elements differ. *)
Theorem filter_map_unnecessary_refuted : exists b, unnecessary_filter_map true 0 b = Some Unnecessary /\
  apply w0 0 (fn1 0 b) [VInt 1] ([(1, VInt 2)], []) = (OVal (some_v (VInt 2)), ([(1, VInt 2)], [])).
Proof. exists (some (v 1)). split; vm_compute; reflexivity. Qed.
Print Assumptions filter_map_unnecessary_refuted.
(** `|x| { if f2() == 2 { return None; } match x { 1 => Some(x), _ => if x == 4 { None } else { (x == 3).then_some(x) } } }` *)
Example C86_nontrivial :
  let b := EBlock None [SExpr (EIf (EEq false (ECall 2 []) (EInt 2)) (EBlock None [SSemi (ERet (Some none))] None) None)]
    (Some (EMatch false (v 0) [(PLit 1, None, some (v 0));
                               (PWild, None, EIf (EEq false (v 0) (EInt 4)) none (Some (EMeth TBool MThenSome (EEq false (v 0) (EInt 3)) [AE (v 0)])))])) in
  unnecessary_filter_map true 0 b = Some JustFilter /\ some_sub labelled b = false /\ flat_returns b /\ some_sub (binds 0) b = false /\
  unnecessary_filter_map false 0 (EIf (ECall 1 []) (some (EInt 0)) (Some (some (v 0)))) = Some JustMap.
Proof. cbn zeta. repeat split; try (vm_compute; reflexivity). repeat constructor. Qed.

(** ** C87: combinators *)

Theorem map_unwrap_or_partial : forall w fuel e e', map_unwrap_or e = Some e' ->
  forall s, (forall t m r a, e = EMeth t m r [AE a] -> pure_in w fuel s a) ->
  ok w (eval w fuel e s) -> ok w (eval w fuel e' s) -> eval w fuel e' s = eval w fuel e s.
Proof. exact map_unwrap_or_sound. Qed.
Print Assumptions map_unwrap_or_partial.
(** `Some(1).map(f2).unwrap_or(f3())` calls f2 before f3, `Some(1).map_or(f3(), f2)` after. *)
Theorem map_unwrap_or_order_refuted : exists e e', map_unwrap_or e = Some e' /\
  snd (run e) = ([], [3; 2]) /\ snd (run e') = ([], [2; 3]).
Proof.
  exists (EMeth TOption MUnwrapOr (EMeth TOption MMap (some (EInt 1)) [AP (PFn 2)]) [AE (ECall 3 [])]). eexists.
  split; [vm_compute; reflexivity|]. split; vm_compute; reflexivity.
Qed.
Print Assumptions map_unwrap_or_order_refuted.
Theorem map_unwrap_or_else_exact : forall w fuel e e', map_unwrap_or_else e = Some e' ->
  forall s, ok w (eval w fuel e s) -> eval w fuel e' s = eval w fuel e s.
Proof. exact map_unwrap_or_else_sound. Qed.
Print Assumptions map_unwrap_or_else_exact.
Theorem option_map_or_none_partial : forall w fuel e e', option_map_or_none e = Some e' ->
  (forall t m r d ps b, e = EMeth t m r [d; AC ps b] ->
     some_sub awkward b = false /\ forall i, reduce_some b = Some i -> contains_return i = false) ->
  forall s, typed w TOption (eval w fuel e s) -> eval w fuel e' s = eval w fuel e s.
Proof. exact option_map_or_none_sound. Qed.
Print Assumptions option_map_or_none_partial.
(** `Some(1).map_or(None, |x| Some({ return None }))` *)
Theorem option_map_or_none_return_refuted : exists e e', option_map_or_none e = Some e' /\
  fst (run e) = OVal none_v /\ fst (run e') = OVal (some_v none_v).
Proof.
  exists (EMeth TOption MMapOr (some (EInt 1)) [AE none; fn1 0 (some (EBlock None [] (Some (ERet (Some none)))))]). eexists.
  split; [vm_compute; reflexivity|]. split; vm_compute; reflexivity.
Qed.
Print Assumptions option_map_or_none_return_refuted.
Theorem result_map_or_else_none_exact : forall w fuel e e', result_map_or_else_none e = Some e' ->
  forall s, ok w (eval w fuel e s) -> eval w fuel e' s = eval w fuel e s.
Proof. exact result_map_or_else_none_sound. Qed.
Print Assumptions result_map_or_else_none_exact.
Theorem unnecessary_map_or_partial : forall w fuel e e', unnecessary_map_or e = Some e' ->
  (forall t m r d f, e = EMeth t m r [d; f] -> plain_comparison w f) ->
  forall s, ok w (eval w fuel e s) -> ok w (eval w fuel e' s) -> eval w fuel e' s = eval w fuel e s.
Proof. exact unnecessary_map_or_sound. Qed.
Print Assumptions unnecessary_map_or_partial.
(** `Some(1).map_or(false, |x| 0 == x)`, if `0 == 1` and `1 == 0` differ. *)
Theorem unnecessary_map_or_swapped_refuted : exists e e', unnecessary_map_or e = Some e' /\
  fst (eval (logged false) 0 e ([], [])) = OVal (VBool true) /\ fst (eval (logged false) 0 e' ([], [])) = OVal (VBool false).
Proof.
  exists (EMeth TOption MMapOr (some (EInt 1)) [AE (EBool false); fn1 0 (EEq false (EInt 0) (v 0))]). eexists.
  split; [vm_compute; reflexivity|]. split; vm_compute; reflexivity.
Qed.
Print Assumptions unnecessary_map_or_swapped_refuted.
Theorem manual_is_variant_and_partial : forall w fuel same, (forall a b, same a b = true -> a = b) ->
  forall z e e', manual_is_variant_and same z e = Some e' ->
  forall s, variant_fits w fuel s e -> ok w (eval w fuel e s) -> ok w (eval w fuel e' s) -> eval w fuel e' s = eval w fuel e s.
Proof. exact manual_is_variant_and_sound. Qed.
Print Assumptions manual_is_variant_and_partial.
(** Syntactic equality of the receivers used below. *)
Definition same_call (a b : expr) : bool := match a, b with ECall f [], ECall g [] => Nat.eqb f g | _, _ => false end.
(** `Err(true).map(f) == Err(true)` *)
Theorem manual_is_variant_and_err_refuted : exists e e', manual_is_variant_and same_call 0 e = Some e' /\
  fst (run e) = OVal (VBool true) /\ fst (run e') = OVal (VBool false).
Proof.
  exists (EEq false (EMeth TResult MMap (err (EBool true)) [AP (PFn 2)]) (err (EBool true))). eexists.
  split; [vm_compute; reflexivity|]. split; vm_compute; reflexivity.
Qed.
Print Assumptions manual_is_variant_and_err_refuted.
(** `Some(1).map(|x| { return true }) == Some(false)` *)
Theorem manual_is_variant_and_return_refuted : exists e e', manual_is_variant_and same_call 0 e = Some e' /\
  fst (run e) = OVal (VBool false) /\ fst (run e') = OVal (VBool true).
Proof.
  exists (EEq false (EMeth TOption MMap (some (EInt 1)) [fn1 1 (EBlock None [] (Some (ERet (Some (EBool true)))))]) (some (EBool false))). eexists.
  split; [vm_compute; reflexivity|]. split; vm_compute; reflexivity.
Qed.
Print Assumptions manual_is_variant_and_return_refuted.
(** `f9().is_some_and(g) || f9().is_none()` calls f9 twice, `f9().is_none_or(g)` once. *)
Theorem manual_is_variant_and_twice_refuted : exists e e', manual_is_variant_and same_call 0 e = Some e' /\
  run e = (OVal (VBool true), ([], [9; 9])) /\ run e' = (OVal (VBool true), ([], [9])).
Proof.
  exists (EOr (EMeth TOption MIsGoodAnd (ECall 9 []) [AP (PFn 2)]) (EMeth TOption MIsBad (ECall 9 []) [])). eexists.
  split; [vm_compute; reflexivity|]. split; vm_compute; reflexivity.
Qed.
Print Assumptions manual_is_variant_and_twice_refuted.
Theorem manual_ok_or_partial : forall w fuel e e', manual_ok_or e = Some e' ->
  (forall t m r d ps b, e = EMeth t m r [d; AC ps b] -> 
     (forall p, In p ps -> exists x, p = PBind false x None) /\ (forall k y adj, b = EData k [EVar y adj] -> adj = false)) ->
  forall s, eval w fuel e' s = eval w fuel e s.
Proof. exact manual_ok_or_sound. Qed.
Print Assumptions manual_ok_or_partial.
Theorem manual_option_zip_partial : forall w fuel r r2 x y b b2 p q e',
  manual_option_zip (EMeth TOption MAndThen r [AC [PBind false x None] b]) = Some e' ->
  braced b (EMeth TOption MMap r2 [AC [PBind false y None] b2]) -> braced b2 (EData KTup [EVar p false; EVar q false]) -> x <> y ->
  forall s, (p = y -> steady w fuel s r2) ->
  ok w (eval w fuel (EMeth TOption MAndThen r [AC [PBind false x None] b]) s) -> ok w (eval w fuel e' s) ->
  eval w fuel e' s = eval w fuel (EMeth TOption MAndThen r [AC [PBind false x None] b]) s.
Proof. exact manual_option_zip_sound. Qed.
Print Assumptions manual_option_zip_partial.
(** `{ a = None; Some(1) }.and_then(|x| a.map(|y| (y, x)))`, with `a` at first `Some(5)`. *)
Theorem manual_option_zip_order_refuted : exists e e', manual_option_zip e = Some e' /\
  fst (eval w0 0 e ([(7, some_v (VInt 5))], [])) = OVal none_v /\
  fst (eval w0 0 e' ([(7, some_v (VInt 5))], [])) = OVal (some_v (VData KTup [VInt 5; VInt 1])).
Proof.
  exists (EMeth TOption MAndThen (EBlock None [SSemi (EAssign 7 none)] (Some (some (EInt 1))))
            [fn1 0 (EMeth TOption MMap (v 7) [fn1 1 (EData KTup [v 1; v 0])])]). eexists.
  split; [vm_compute; reflexivity|]. split; vm_compute; reflexivity.
Qed.
Print Assumptions manual_option_zip_order_refuted.
Theorem or_then_unwrap_exact : forall w fuel e e', or_then_unwrap e = Some e' ->
  forall s, ok w (eval w fuel e s) -> eval w fuel e' s = eval w fuel e s.
Proof. exact or_then_unwrap_sound. Qed.
Print Assumptions or_then_unwrap_exact.

(** One suggestion of each kind. *)
Example C87_nontrivial :
  let r := ECall 9 [] in
  map_unwrap_or (EMeth TOption MUnwrapOr (EMeth TOption MMap r [AP (PFn 2)]) [AE (EInt 3)]) = Some (EMeth TOption MMapOr r [AE (EInt 3); AP (PFn 2)]) /\
  map_unwrap_or (EMeth TOption MUnwrapOr (EMeth TOption MMap r [AP (PFn 2)]) [AE none]) = Some (EMeth TOption MAndThen r [AP (PFn 2)]) /\
  map_unwrap_or (EMeth TResult MUnwrapOr (EMeth TResult MMap r [AP (PFn 2)]) [AE (EBool false)]) = Some (EMeth TResult MIsGoodAnd r [AP (PFn 2)]) /\
  map_unwrap_or_else (EMeth TResult MUnwrapOrElse (EMeth TResult MMap r [AP (PFn 2)]) [fn1 0 (v 0)]) = Some (EMeth TResult MMapOrElse r [fn1 0 (v 0); AP (PFn 2)]) /\
  option_map_or_none (EMeth TOption MMapOr r [AE none; fn1 0 (EBlock None [] (Some (some (ECall 2 [v 0]))))]) = Some (EMeth TOption MMap r [fn1 0 (ECall 2 [v 0])]) /\
  result_map_or_else_none (EMeth TResult MMapOrElse r [fn1 0 (EBlock None [] (Some none)); AP (PCtor c_some)]) = Some (EMeth TResult MOk r []) /\
  unnecessary_map_or (EMeth TResult MMapOr r [AE (EBool false); fn1 0 (ENot (EBool false))]) = Some (EMeth TResult MIsGood r []) /\
  unnecessary_map_or (EMeth TOption MMapOr r [AE (EBool true); fn1 0 (EEq true (v 0) (EInt 5))]) = Some (EEq true r (some (EInt 5))) /\
  unnecessary_map_or (EMeth TOption MMapOr r [AE (EBool true); AP (PFn 2)]) = Some (EMeth TOption MIsNoneOr r [AP (PFn 2)]) /\
  manual_is_variant_and same_call 0 (EEq true (EMeth TResult MMap r [AP (PFn 2)]) (okk (EBool false))) =
    Some (ENot (EMeth TResult MIsGoodAnd r [AC [pv 0] (ENot (ECallPath (PFn 2) [v 0]))])) /\
  manual_is_variant_and same_call 0 (EMeth TOption MIsBad (EMeth TOption MFilter r [fn1 1 (EBool true)]) []) =
    Some (EMeth TOption MIsNoneOr (EMeth TOption MAsRef r []) [fn1 1 (ENot (EBool true))]) /\
  manual_ok_or (EMeth TOption MMapOr r [AE (err (ECall 1 [])); fn1 0 (okk (v 0))]) = Some (EMeth TOption MOkOr r [AE (ECall 1 [])]) /\
  manual_option_zip (EMeth TOption MAndThen r [fn1 0 (EMeth TOption MMap (v 7) [fn1 1 (EData KTup [v 0; v 1])])]) = Some (EMeth TOption MZip r [AE (v 7)]) /\
  or_then_unwrap (EMeth TResult MUnwrap (EMeth TResult MOr r [AE (okk (ECall 1 []))]) []) = Some (EMeth TResult MUnwrapOr r [AE (ECall 1 [])]).
Proof. cbn zeta. repeat split; vm_compute; reflexivity. Qed.

(** ** C88: code moved out of closures, and evaluated eagerly *)

(** An expression that may be evaluated eagerly has no effect, and variables it does not use do not matter to it. *)
Theorem eager_eval_pure : forall w fuel e s, eager e = true -> fst (eval w fuel e s) = OStuck \/ exists x, eval w fuel e s = (OVal x, s).
Proof. exact eager_pure. Qed.
Print Assumptions eager_eval_pure.
Theorem eager_eval_unused : forall w fuel e bs s, eager e = true -> (forall y, In y (map fst bs) -> local_used y e = false) ->
  (fst (eval w fuel e (enter bs s)) = OStuck /\ fst (eval w fuel e s) = OStuck) \/
  (exists x, eval w fuel e (enter bs s) = (OVal x, enter bs s) /\ eval w fuel e s = (OVal x, s)).
Proof. exact eager_unused. Qed.
Print Assumptions eager_eval_unused.
Theorem unnecessary_lazy_eval_exact : forall w fuel e e', unnecessary_lazy_eval e = Some e' ->
  forall s, ok w (eval w fuel e s) -> ok w (eval w fuel e' s) -> eval w fuel e' s = eval w fuel e s.
Proof. exact lazy_eval_sound. Qed.
Print Assumptions unnecessary_lazy_eval_exact.
Theorem return_and_then_partial : forall w fuel z t r p b e', return_and_then z (EMeth t MAndThen r [AC [p] b]) = Some e' ->
  some_sub awkward b = false ->
  forall s, fst (run_fn w fuel (EMeth t MAndThen r [AC [p] b]) s) <> OStuck ->
  run_fn w fuel e' s = run_fn w fuel (EMeth t MAndThen r [AC [p] b]) s.
Proof. exact return_and_then_sound. Qed.
Print Assumptions return_and_then_partial.
Theorem unnecessary_literal_unwrap_partial : forall w fuel e e', unnecessary_literal_unwrap e = Some e' ->
  forall s, literal_fits w fuel s e -> ok w (eval w fuel e s) -> eval w fuel e' s = eval w fuel e s.
Proof. exact literal_unwrap_sound. Qed.
Print Assumptions unnecessary_literal_unwrap_partial.
(** `Err(1).unwrap_or(2)` to `1`; `Some(1).unwrap_or(f2())` to `1`. *)
Theorem literal_unwrap_err_refuted : exists e e', unnecessary_literal_unwrap e = Some e' /\
  fst (run e) = OVal (VInt 2) /\ fst (run e') = OVal (VInt 1).
Proof.
  exists (EMeth TResult MUnwrapOr (err (EInt 1)) [AE (EInt 2)]). eexists.
  split; [vm_compute; reflexivity|]. split; vm_compute; reflexivity.
Qed.
Print Assumptions literal_unwrap_err_refuted.
Theorem literal_unwrap_dropped_refuted : exists e e', unnecessary_literal_unwrap e = Some e' /\
  run e = (OVal (VInt 1), ([], [2])) /\ run e' = (OVal (VInt 1), ([], [])).
Proof.
  exists (EMeth TOption MUnwrapOr (some (EInt 1)) [AE (ECall 2 [])]). eexists.
  split; [vm_compute; reflexivity|]. split; vm_compute; reflexivity.
Qed.
Print Assumptions literal_unwrap_dropped_refuted.
(** `None.unwrap_or_else(|| { return 3 })` to `{ return 3 }`, which returns from the function around it. *)
Theorem literal_unwrap_return_refuted : exists e e', unnecessary_literal_unwrap e = Some e' /\
  fst (run e) = OVal (VInt 3) /\ fst (run e') = ORet (VInt 3).
Proof.
  exists (EMeth TOption MUnwrapOrElse none [AC [] (EBlock None [] (Some (ERet (Some (EInt 3)))))]). eexists.
  split; [vm_compute; reflexivity|]. split; vm_compute; reflexivity.
Qed.
Print Assumptions literal_unwrap_return_refuted.
Theorem obfuscated_if_else_partial : forall w fuel e e', obfuscated_if_else e = Some (e', true) -> moved e ->
  forall s, ok w (eval w fuel e s) -> ok w (eval w fuel e' s) -> eval w fuel e' s = eval w fuel e s.
Proof. exact obfuscated_if_else_sound. Qed.
Print Assumptions obfuscated_if_else_partial.
(** `true.then(|| { return 1 }).unwrap_or(2)` *)
Theorem obfuscated_if_else_return_refuted : exists e e', obfuscated_if_else e = Some (e', true) /\
  fst (run e) = OVal (VInt 1) /\ fst (run e') = ORet (VInt 1).
Proof.
  exists (EMeth TOption MUnwrapOr (EMeth TBool MThen (EBool true) [AC [] (EBlock None [] (Some (ERet (Some (EInt 1)))))]) [AE (EInt 2)]). eexists.
  split; [vm_compute; reflexivity|]. split; vm_compute; reflexivity.
Qed.
Print Assumptions obfuscated_if_else_return_refuted.

(** `f9().unwrap_or_else(|| if a { (1, b) } else { (2, b) })` and the others. *)
Example C88_nontrivial :
  let r := ECall 9 [] in
  let pairs := EIf (v 3) (EData KTup [EInt 1; v 4]) (Some (EData KTup [EInt 2; v 4])) in
  let e := EMeth TOption MUnwrapOrElse r [AC [] pairs] in
  unnecessary_lazy_eval e = Some (EMeth TOption MUnwrapOr r [AE pairs]) /\
  eval w0 0 e ([(3, VBool true); (4, VInt 8)], []) = (OVal (VData KTup [VInt 1; VInt 8]), ([(3, VBool true); (4, VInt 8)], [9])) /\
  unnecessary_lazy_eval (EMeth TResult MOrElse r [fn1 0 (okk (v 0))]) = None /\
  run_fn w0 0 (EMeth TOption MAndThen (some (EInt 1)) [fn1 0 (EBlock None [SSemi (ECall 2 [])] (Some (ERet (Some (some (v 0))))))]) ([], []) = (OVal (some_v (VInt 1)), ([], [2])) /\
  unnecessary_literal_unwrap (EMeth TResult MExpect (err (ECall 1 [])) [AE (EInt 2)]) = Some (EPanic [ECall 1 []; EInt 2]) /\
  obfuscated_if_else (EMeth TOption MUnwrapOrElse (EMeth TBool MThen (v 3) [AC [] (ECall 1 [])]) [AC [] (ECall 2 [])]) =
    Some (EIf (v 3) (EBlock None [] (Some (ECall 1 []))) (Some (EBlock None [] (Some (ECall 2 [])))), true).
Proof. cbn zeta. repeat split; vm_compute; reflexivity. Qed.
