(** C89-C92: a `match` or an `if let` written as a method of Option, Result or bool. *)
From Verif Require Import CloSpec CloModel MatModel MatMove MatProofs MatProofs2 MatProofs3.

(** A world for the witnesses: calls are logged; function 9 gives `None`, function 8 `true`, the others their number. *)
Definition w1 : world := {|
  W := list nat;
  call := fun f _ l => (CVal (if Nat.eqb f 9 then none_v else if Nat.eqb f 8 then VBool true else VInt (Z.of_nat f)), f :: l);
  adjust := fun v => v;
  eq_other := fun a b => match a, b with VInt x, VInt y => Z.eqb x y | _, _ => false end |}.
Definition run (e : expr) : out * state w1 := eval w1 5 e ([], []).
Definition some (e : expr) := EData (KCtor c_some) [e].
Definition none := EData (KCtor c_none) [].
Definition okk (e : expr) := EData (KCtor c_ok) [e].
Definition err (e : expr) := EData (KCtor c_err) [e].
Definition v (x : nat) := EVar x false.
Definition pv (x : nat) := PBind false x None.
Definition psome (p : pat) := PData (KCtor c_some) [p] None.
Definition pnone := PData (KCtor c_none) [] None.
Definition pok (p : pat) := PData (KCtor c_ok) [p] None.
Definition perr (p : pat) := PData (KCtor c_err) [p] None.
Definition match2_ (r : expr) p a q b := EMatch false r [(p, None, a); (q, None, b)].
Definition blk (e : expr) := EBlock None [] (Some e).

Lemma w1_reborrows : reborrows w1.
Proof. intros x. reflexivity. Qed.

(** ** C89: manual_map *)

(** `match o { Some(p) => Some(e), None => None }` and its variants become `o.map(|p| e)`: the same result, the same effects
    in the same order, from every state.  Partial: not if the first arm is `_` (refuted below). *)
Theorem manual_map_partial : forall w fuel e e', manual_map e = Some e' -> shadowed e = false ->
  forall s, typed w fuel TOption s e -> ok w (eval w fuel e s) -> eval w fuel e' s = eval w fuel e s.
Proof. exact manual_map_sound. Qed.
Print Assumptions manual_map_partial.
(** Nothing escapes from an expression that clippy moves into a closure: no `return`, and no `break` to a loop outside. *)
Theorem movable_stays : forall w fuel e s, movable [] e = true ->
  match fst (eval w fuel e s) with ORet _ | OBrk _ _ => False | _ => True end.
Proof.
  intros w fuel e s M. pose proof (movable_calm w fuel e [] M s) as C. unfold calm in C. destruct (fst (eval w fuel e s)) as [| |[l|] u| | |]; cbn in C; try exact I; [exact C|discriminate|exact (C eq_refl)].
Qed.
Print Assumptions movable_stays.
(** `match Some(1) { _ => None, Some(y) => Some(f(y)) }` is `None`. *)
Theorem manual_map_wild_first_refuted : exists e e', manual_map e = Some e' /\
  fst (run e) = OVal none_v /\ fst (run e') = OVal (some_v (VInt 5)).
Proof.
  exists (match2_ (some (EInt 1)) PWild none (psome (pv 0)) (some (ECall 5 [v 0]))). eexists.
  split; [vm_compute; reflexivity|]. split; vm_compute; reflexivity.
Qed.
Print Assumptions manual_map_wild_first_refuted.
(** `if let Some((a, _)) = o() { { Some(loop { break f(a) }) } } else { None }`; the other arm first; `Some(ref x)`. *)
Example C89_nontrivial :
  let b := ELoop (Some 3) (EBlock None [SSemi (EBreak (Some 3) (Some (ECall 5 [v 0])))] None) in
  let e := match2_ (some (EData KTup [EInt 1; EInt 2])) (psome (PData KTup [pv 0; PWild] None)) (blk (some b)) pnone none in
  let e2 := match2_ (some (EInt 1)) pnone (blk none) (psome (PBind true 0 None)) (some (ECall 6 [ECall 5 [v 0]])) in
  manual_map e = Some (EMeth TOption MMap (some (EData KTup [EInt 1; EInt 2])) [AC [PData KTup [pv 0; PWild] None] b]) /\
  shadowed e = false /\ run e = (OVal (some_v (VInt 5)), ([], [5])) /\
  manual_map e2 = Some (EMeth TOption MMap (EMeth TOption MAsRef (some (EInt 1)) []) [AC [pv 0] (ECall 6 [ECall 5 [v 0]])]) /\
  run e2 = (OVal (some_v (VInt 6)), ([], [6; 5])) /\
  manual_map (match2_ (some (EInt 1)) (psome (pv 0)) (some (ERet (Some (v 0)))) pnone none) = None /\
  typed w1 5 TOption ([], []) e.
Proof.
  repeat split; try (vm_compute; reflexivity). intros r u s' R E. inversion R; subst. vm_compute in E. inversion E; subst. discriminate.
Qed.
Example C89_movable :
  movable [] (ELoop None (EIf (ECall 8 []) (EBreak None None) None)) = true /\
  movable [] (EBreak None None) = false /\ movable [] (ELoop (Some 1) (EBreak (Some 2) None)) = false.
Proof. repeat split; reflexivity. Qed.

(** ** C90: manual_filter *)

(** For Copy types: `match o { Some(x) => if c { Some(x) } else { None }, None => None }` and its variants become
    `o.filter(|&x| c)`, or `!c` when the branches are swapped.  Partial: not if the first arm is `_`, and not for types that
    are not Copy; when the condition is `f(x)` the suggestion is not an expression ([Garbled], refuted below). *)
Theorem manual_filter_partial : forall w fuel e e', manual_filter true e = Some (Expr e') -> shadowed e = false ->
  kept e -> reborrows w ->
  forall s, typed w fuel TOption s e -> ok w (eval w fuel e s) -> eval w fuel e' s = eval w fuel e s.
Proof. exact manual_filter_sound. Qed.
Print Assumptions manual_filter_partial.
(** `o.and_then(|x| if c { Some(x) } else { None })`. *)
Theorem manual_filter_and_then_partial : forall w fuel r p b e',
  manual_filter_and_then true (EMeth TOption MAndThen r [AC [p] b]) = Some e' ->
  kept (EMeth TOption MAndThen r [AC [p] b]) -> reborrows w -> contains_return b = false -> has_ref p = false ->
  forall s, ok w (eval w fuel (EMeth TOption MAndThen r [AC [p] b]) s) -> ok w (eval w fuel e' s) ->
  eval w fuel e' s = eval w fuel (EMeth TOption MAndThen r [AC [p] b]) s.
Proof. exact manual_filter_and_then_sound. Qed.
Print Assumptions manual_filter_and_then_partial.
(** `match Some(1) { Some(x) => if f(x) { Some(x) } else { None }, None => None }` becomes `Some(1).filter(f&)`-like text:
    the `&` meant for the bar of a closure lands behind the first character of the name of the function. *)
Theorem manual_filter_path_refuted : exists e, manual_filter true e = Some Garbled /\ fst (run e) = OVal (some_v (VInt 1)).
Proof.
  exists (match2_ (some (EInt 1)) (psome (pv 0)) (EIf (ECall 8 [v 0]) (blk (some (v 0))) (Some (blk none))) pnone none).
  split; vm_compute; reflexivity.
Qed.
Print Assumptions manual_filter_path_refuted.
(** Not Copy: `match o { Some(ref s) => if f(s) { None } else { Some(s) }, None => None }` becomes `o.as_ref().filter(f)`, without
    the negation. *)
Theorem manual_filter_negated_path_refuted : exists e e', manual_filter false e = Some (Expr e') /\
  fst (run e) = OVal none_v /\ fst (run e') = OVal (some_v (VRef (VInt 1))).
Proof.
  exists (match2_ (some (EInt 1)) (psome (PBind true 0 None)) (EIf (ECall 8 [v 0]) (blk none) (Some (blk (some (v 0))))) pnone none).
  eexists. split; [vm_compute; reflexivity|]. split; vm_compute; reflexivity.
Qed.
Print Assumptions manual_filter_negated_path_refuted.
(** `match Some(1) { None => None, Some(x) => { if x == 1 { None } else { Some(x) } } }` *)
Example C90_nontrivial :
  let c := EEq false (v 0) (EInt 1) in
  let body := EIf c (blk none) (Some (blk (some (v 0)))) in
  let e := match2_ (some (EInt 2)) pnone none (psome (pv 0)) (blk body) in
  let e2 := EMeth TOption MAndThen (some (EInt 1)) [AC [pv 0] body] in
  manual_filter true e = Some (Expr (EMeth TOption MFilter (some (EInt 2)) [AC [PRef (pv 0)] (ENot c)])) /\
  shadowed e = false /\ kept e /\ run e = (OVal (some_v (VInt 2)), ([], [])) /\
  manual_filter_and_then true e2 = Some (EMeth TOption MFilter (some (EInt 1)) [AC [PRef (pv 0)] (ENot c)]) /\
  run e2 = (OVal none_v, ([], [])) /\ contains_return body = false.
Proof.
  repeat split; try (vm_compute; reflexivity). intros x b H. vm_compute in H. inversion H; subst. reflexivity.
Qed.

(** ** C91: manual_unwrap_or, manual_unwrap_or_default, manual_ok_err *)

(** `match o { Some(x) => x, None => d }` becomes `o.unwrap_or(d)` or `o.unwrap_or_default()`.  Partial: not for `Some(x @ p)`
    (refuted below); the type has the default the standard library gives to numbers, `bool`, Option, tuples and arrays. *)
Theorem manual_unwrap_or_partial : forall w fuel dfl e t m r args, manual_unwrap_or dfl e = Some (EMeth t m r args) ->
  at_pattern e = false -> reborrows w ->
  has_that_default w fuel e ->
  forall s, typed w fuel t s e -> ok w (eval w fuel e s) -> ok w (eval w fuel (EMeth t m r args) s) ->
  eval w fuel (EMeth t m r args) s = eval w fuel e s.
Proof. exact manual_unwrap_or_sound. Qed.
Print Assumptions manual_unwrap_or_partial.
(** `match r { Ok(x) => Some(x), Err(_) => None }` becomes `r.ok()`, and `match r { Err(x) => Some(x), Ok(_) => None }` `r.err()`. *)
Theorem manual_ok_err_keeps : forall w fuel e e', manual_ok_err e = Some e' -> reborrows w ->
  forall s, typed w fuel TResult s e -> ok w (eval w fuel e s) -> eval w fuel e' s = eval w fuel e s.
Proof. exact manual_ok_err_sound. Qed.
Print Assumptions manual_ok_err_keeps.
(** `match Some(2) { Some(x @ 1) => x, _ => 7 }` is 7. *)
Theorem manual_unwrap_or_at_refuted : exists e e', manual_unwrap_or false e = Some e' /\
  fst (run e) = OVal (VInt 7) /\ fst (run e') = OVal (VInt 2).
Proof.
  exists (match2_ (some (EInt 2)) (psome (PBind false 0 (Some (PLit 1)))) (v 0) PWild (EInt 7)). eexists.
  split; [vm_compute; reflexivity|]. split; vm_compute; reflexivity.
Qed.
Print Assumptions manual_unwrap_or_at_refuted.
Example C91_nontrivial :
  let e := match2_ (err (EInt 1)) (perr PWild) (blk (EData KTup [EInt 3; EInt 4])) (pok (pv 0)) (v 0) in
  let e2 := EIfLet (psome (pv 0)) none (v 0) (Some (EInt 0)) in
  let e3 := match2_ (err (EInt 1)) (perr (pv 0)) (some (v 0)) (pok PWild) none in
  let e4 := EIfLet (psome (pv 0)) none (v 0) (Some (EBool false)) in
  manual_unwrap_or true e = Some (EMeth TResult MUnwrapOr (err (EInt 1)) [AE (EData KTup [EInt 3; EInt 4])]) /\
  run e = (OVal (VData KTup [VInt 3; VInt 4]), ([], [])) /\ at_pattern e = false /\
  manual_unwrap_or true e2 = Some (EMeth TOption (MUnwrapOrDefault false) none []) /\
  manual_unwrap_or true e4 = Some (EMeth TOption (MUnwrapOrDefault true) none []) /\ run e4 = (OVal (VBool false), ([], [])) /\
  manual_ok_err e3 = Some (EMeth TResult MErr (err (EInt 1)) []) /\ run e3 = (OVal (some_v (VInt 1)), ([], [])).
Proof. repeat split; vm_compute; reflexivity. Qed.

(** `if let Some(x) = o { x } else { 0 }` in a world where the default is 0. *)
Definition w0 : world := {| W := unit; call := fun _ _ l => (CVal (VInt 0), l); adjust := fun v => v; eq_other := fun _ _ => false |}.
Example C91_default : let e := EIfLet (psome (pv 0)) (v 1) (v 0) (Some (EInt 0)) in
  manual_unwrap_or true e = Some (EMeth TOption (MUnwrapOrDefault false) (v 1) []) /\ at_pattern e = false /\ has_that_default w0 5 e /\
  eval w0 5 e ([(1, none_v)], tt) = (OVal (VInt 0), ([(1, none_v)], tt)).
Proof.
  split; [reflexivity|]. split; [reflexivity|]. split; [|reflexivity].
  intros d [<-|[<-|[]]]; (split; [|discriminate]); intros u P E s; [specialize (E ([], tt)); discriminate|].
  specialize (E s). cbn in E. inversion E; subst. destruct s as [a []]. reflexivity.
Qed.

(** ** C92: option_if_let_else, if_then_some_else_none *)

(** `if let Some(x) = o { a } else { b }` becomes `o.map_or(b, |x| a)` when `b` can be evaluated eagerly, and
    `o.map_or_else(|| b, |x| a)` otherwise; likewise for Result and `match`.  Partial: not if the first arm is `_`, and not if
    `b` is a call `C()` of a constructor (both refuted below). *)
Theorem option_if_let_else_partial : forall w fuel e t m r args, option_if_let_else e = Some (EMeth t m r args) ->
  shadowed e = false -> existsb ctor_call (bodies e) = false ->
  forall s, typed w fuel t s e -> ok w (eval w fuel e s) -> ok w (eval w fuel (EMeth t m r args) s) ->
  eval w fuel (EMeth t m r args) s = eval w fuel e s.
Proof. exact option_if_let_else_sound. Qed.
Print Assumptions option_if_let_else_partial.
(** `match Some(1) { _ => 7, Some(y) => y }` is 7. *)
Theorem option_if_let_else_wild_first_refuted : exists e e', option_if_let_else e = Some e' /\
  fst (run e) = OVal (VInt 7) /\ fst (run e') = OVal (VInt 1).
Proof.
  exists (match2_ (some (EInt 1)) PWild (EInt 7) (psome (pv 0)) (v 0)). eexists.
  split; [vm_compute; reflexivity|]. split; vm_compute; reflexivity.
Qed.
Print Assumptions option_if_let_else_wild_first_refuted.
(** `if let Some(x) = None { x } else { C() }` becomes `None.map_or(C, |x| x)`: the constructor instead of its value. *)
Theorem option_if_let_else_ctor_refuted : exists e e', option_if_let_else e = Some e' /\
  fst (run e) = OVal (VData (KCtor 6) []) /\ fst (run e') = OVal VFn.
Proof.
  exists (EIfLet (psome (pv 0)) none (v 0) (Some (blk (ECallPath (PCtor 6) [])))). eexists.
  split; [vm_compute; reflexivity|]. split; vm_compute; reflexivity.
Qed.
Print Assumptions option_if_let_else_ctor_refuted.
(** `if c { …; Some(a) } else { None }` becomes `c.then(|| { …; a })`, or `c.then_some(a)` when `a` can be evaluated eagerly.
    Partial: not with a `break` in the block, where the suggestion is no program (refuted below). *)
Theorem if_then_some_else_none_partial : forall w fuel e e', if_then_some_else_none e = Some e' ->
  forall s, ok w (eval w fuel e s) -> ok w (eval w fuel e' s) -> eval w fuel e' s = eval w fuel e s.
Proof. exact if_then_some_else_none_sound. Qed.
Print Assumptions if_then_some_else_none_partial.
(** `loop { let y = if true { break 3; Some(1) } else { None }; }`: `break` inside of a closure. *)
Theorem if_then_some_break_refuted : exists e e', if_then_some_else_none e = Some e' /\
  fst (run (ELoop None e)) = OVal (VInt 3) /\ fst (run (ELoop None e')) = OStuck.
Proof.
  exists (EIf (EBool true) (EBlock None [SSemi (EBreak None (Some (EInt 3)))] (Some (some (EInt 1)))) (Some (blk none))). eexists.
  split; [vm_compute; reflexivity|]. split; vm_compute; reflexivity.
Qed.
Print Assumptions if_then_some_break_refuted.
Example C92_nontrivial :
  let e := match2_ (okk (EInt 1)) (pok (PBind true 0 None)) (ECall 5 [v 0]) (perr PWild) (ECall 6 []) in
  let e2 := EIfLet (psome (pv 0)) none (blk (ECall 5 [v 0])) (Some (blk (EInt 3))) in
  let e3 := EIfLet (psome (pv 0)) none (blk (ECall 5 [v 0])) (Some (blk (ECall 6 []))) in
  let e4 := EIf (ECall 8 []) (EBlock None [SSemi (ECall 4 [])] (Some (some (ECall 5 [])))) (Some (blk none)) in
  option_if_let_else e = Some (EMeth TResult MMapOrElse (EMeth TResult MAsRef (okk (EInt 1)) []) [AC [PWild] (ECall 6 []); AC [pv 0] (ECall 5 [v 0])]) /\
  shadowed e = false /\ existsb ctor_call (bodies e) = false /\ run e = (OVal (VInt 5), ([], [5])) /\
  option_if_let_else e2 = Some (EMeth TOption MMapOr none [AE (EInt 3); AC [pv 0] (ECall 5 [v 0])]) /\ run e2 = (OVal (VInt 3), ([], [])) /\
  option_if_let_else e3 = Some (EMeth TOption MMapOrElse none [AP (PFn 6); AC [pv 0] (ECall 5 [v 0])]) /\ run e3 = (OVal (VInt 6), ([], [6])) /\
  if_then_some_else_none e4 = Some (EMeth TBool MThen (ECall 8 []) [AC [] (EBlock None [SSemi (ECall 4 [])] (Some (ECall 5 [])))]) /\
  run e4 = (OVal (some_v (VInt 5)), ([], [5; 4; 8])) /\
  if_then_some_else_none (EIf (EBool true) (blk (some (EInt 1))) (Some (blk none))) = Some (EMeth TBool MThenSome (EBool true) [AE (EInt 1)]).
Proof. repeat split; vm_compute; reflexivity. Qed.
