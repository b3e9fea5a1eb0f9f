(** Model of the lints about iterators (/repo/clippy_lints/src/methods, /repo/clippy_lints/src/loops) on the language of
    IterSpec.  A lint is a function from the linted code to the suggested code.

    `a && b` is `if a { b } else { false }`; `+` and `*` are calls of [f_add] and [f_mul]; `matches!` is the match it expands
    to; a match on a reference is a match on the adjusted variable.  Not modelled: spans and texts (a suggestion is the code
    its text denotes), macros, comments, minimal Rust versions, whether a binding has to be made mutable, turbofish, and
    conditions that only make a lint quieter.  Facts the type checker knows are given as functions. *)
From Verif Require Export IterSpec PickModel.

(** What the types say: whether a function returns an Option; whether an expression is an Option. *)
Record types := { to_option : arg -> bool; option_typed : expr -> bool }.

(** ** Adaptors *)
(** methods/map_identity.rs:15-83: `map(identity)` is dropped. *)
Definition iter_map_identity (c : chain) : option chain :=
  match c with IMap f c => given (identity_function f) (Some c) | _ => None end.
(** methods/flat_map_identity.rs:12-30: `flat_map(identity)` to `flatten()`. *)
Definition flat_map_identity (c : chain) : option chain :=
  match c with IFlatMap f c => given (identity_function f) (Some (IFlatten c)) | _ => None end.
(** methods/filter_map_identity.rs:11-49: `filter_map(identity)` to `flatten()`. *)
Definition filter_map_identity (c : chain) : option chain :=
  match c with IFilterMap f c => given (identity_function f) (Some (IFlatten c)) | _ => None end.
(** methods/map_flatten.rs:14-80: `map(f).flatten()` to `filter_map(f)` or `flat_map(f)`. *)
Definition map_flatten (t : types) (c : chain) : option chain :=
  match c with
  | IFlatten (IMap f c) => Some (if to_option t f then IFilterMap f c else IFlatMap f c)
  | _ => None
  end.
(** methods/flat_map_option.rs:11-33: `flat_map(f)` to `filter_map(f)`. *)
Definition flat_map_option (t : types) (c : chain) : option chain :=
  match c with IFlatMap f c => given (to_option t f) (Some (IFilterMap f c)) | _ => None end.
(** methods/iter_overeager_cloned.rs:37-144 on adaptors (mod.rs:5480, 5544, 5788, 5826): `cloned()` moves behind.  Cloning has
    no effect here.  [fix_closure] (123-134): a closure gets one more `&`, a path becomes `|&x| path(x)`. *)
Definition fix_closure (f : arg) : option arg :=
  match f with
  | AC (p :: ps) b => Some (AC (PRef p :: ps) b)
  | AP q => Some (AC [PRef (PBind false 0 None)] (ECallPath q [EVar 0 false]))
  | _ => None
  end.
Definition overeager_cloned (c : chain) : option chain :=
  match c with
  | ISkip n (ICloned c) => Some (ICloned (ISkip n c))
  | ITake n (ICloned c) => Some (ICloned (ITake n c))
  | IFlatten (ICloned c) => Some (ICloned (IFlatten c))
  | IFilter f (ICloned c) => match fix_closure f with Some g => Some (ICloned (IFilter g c)) | None => None end
  | _ => None
  end.

(** ** Consumers *)
(** methods/filter_next.rs:22-72: `filter(f).next()` to `find(f)`, `filter(f).next_back()` to `rfind(f)`. *)
Definition filter_next (e : iexpr) : option iexpr :=
  match e with
  | IRun (IFilter f c) CNext => Some (IRun c (CFind f))
  | IRun (IFilter f c) CNextBack => Some (IRun c (CRFind f))
  | _ => None
  end.
(** methods/filter_map_next.rs:11-34. *)
Definition filter_map_next (e : iexpr) : option iexpr :=
  match e with IRun (IFilterMap f c) CNext => Some (IRun c (CFindMap f)) | _ => None end.
(** methods/iter_nth_zero.rs:13-32; constants are literals here. *)
Definition iter_nth_zero (e : iexpr) : option iexpr :=
  match e with IRun c (CNth (EInt z)) => given (Z.eqb z 0) (Some (IRun c CNext)) | _ => None end.
(** methods/iter_skip_next.rs:13-45. *)
Definition iter_skip_next (e : iexpr) : option iexpr :=
  match e with IRun (ISkip n c) CNext => Some (IRun c (CNth n)) | _ => None end.
(** methods/manual_next_back.rs:8-37. *)
Definition manual_next_back (e : iexpr) : option iexpr :=
  match e with IRun (IRev c) CNext => Some (IRun c CNextBack) | _ => None end.
(** methods/map_all_any_identity.rs:13-43. *)
Definition map_all_any_identity (e : iexpr) : option iexpr :=
  match e with
  | IRun (IMap f c) (CAny g) => given (identity_function g) (Some (IRun c (CAny f)))
  | IRun (IMap f c) (CAll g) => given (identity_function g) (Some (IRun c (CAll f)))
  | _ => None
  end.
(** methods/iter_overeager_cloned.rs on consumers (mod.rs:5418, 5498, 5609, 5681, 5711). *)
Definition overeager_cloned_end (e : iexpr) : option iexpr :=
  match e with
  | IRun (ICloned c) CCount => Some (IRun c CCount)
  | IRun (ICloned c) CLast => Some (ICloneOpt (IRun c CLast))
  | IRun (ICloned c) CNext => Some (ICloneOpt (IRun c CNext))
  | IRun (ICloned c) (CNth n) => Some (ICloneOpt (IRun c (CNth n)))
  | IRun (ICloned c) (CFind f) => match fix_closure f with Some g => Some (ICloneOpt (IRun c (CFind g))) | None => None end
  | _ => None
  end.
(** methods/double_ended_iterator_last.rs:13-80. *)
Definition double_ended_last (e : iexpr) : option iexpr :=
  match e with IRun c CLast => Some (IRun c CNextBack) | _ => None end.
(** methods/search_is_some.rs:19-99 on iterators.  The parameter of a closure given to `find` loses one `&` (46-47); for
    parameters that are plain bindings the body is rewritten by [deref_closure_args] (48-56), which is not modelled; every
    other closure and every path is kept as it is (57-62). *)
Definition any_closure (f : arg) : option arg :=
  match f with
  | AC (PRef p :: ps) b => Some (AC (p :: ps) b)
  | AC (PBind _ _ _ :: _) _ => None
  | _ => Some f
  end.
Definition search_is_some (e : iexpr) : option iexpr :=
  match e with
  | IMeth MIsGood (IRun c (CFind f)) [] => match any_closure f with Some g => Some (IRun c (CAny g)) | None => None end
  | IMeth MIsBad (IRun c (CFind f)) [] => match any_closure f with Some g => Some (INot (IRun c (CAny g))) | None => None end
  | IMeth MIsGood (IRun c (CPosition f)) [] => Some (IRun c (CAny f))
  | IMeth MIsBad (IRun c (CPosition f)) [] => Some (INot (IRun c (CAny f)))
  | _ => None
  end.
(** methods/needless_collect.rs:27-106, a vector used at once: [x] is the name `x` (75-86). *)
Definition needless_collect (x : nat) (e : iexpr) : option iexpr :=
  match e with
  | IVec QLen (IRun c CCollect) => Some (IRun c CCount)
  | IVec QIsEmpty (IRun c CCollect) => Some (IMeth MIsBad (IRun c CNext) [])
  | IVec (QContains a) (IRun c CCollect) => Some (IRun c (CAny (AC [PBind false x None] (EEq false (EVar x false) a))))
  | IVec (QIndex i) (IRun c CCollect) => Some (IMeth MUnwrap (IRun c (CNth i)) [])
  | _ => None
  end.

(** ** `fold` *)
(** clippy_utils/src/lib.rs [strip_pat_refs]. *)
Fixpoint strip_refs (p : pat) : pat := match p with PRef q => strip_refs q | _ => p end.
Inductive foldop := FOr | FAnd | FAdd | FMul.
Definition as_op (o : foldop) (e : expr) : option (expr * expr) :=
  match o, e with
  | FOr, EOr a b => Some (a, b)
  | FAnd, EIf a b (Some (EBool false)) => Some (a, b)
  | FAdd, ECall f [a; b] => given (Nat.eqb f f_add) (Some (a, b))
  | FMul, ECall f [a; b] => given (Nat.eqb f f_mul) (Some (a, b))
  | _, _ => None
  end.
Definition has_args (o : foldop) : bool := match o with FOr | FAnd => true | _ => false end.
(** unnecessary_fold.rs:96-116 [get_triggered_expr_span]. *)
Definition triggered (o : foldop) (acc item : nat) (l r : expr) : option expr :=
  if is_local acc l && (has_args o || is_local item r) then Some r
  else if is_local acc r && (has_args o || is_local item l) then Some l
  else None.
Definition folded (o : foldop) (item : nat) (e : expr) : consumer :=
  match o with
  | FOr => CAny (AC [PBind false item None] e)
  | FAnd => CAll (AC [PBind false item None] e)
  | FAdd => CSum
  | FMul => CProduct
  end.
(** unnecessary_fold.rs:118-176 [check_fold_with_op]. *)
Definition fold_with_op (o : foldop) (c : chain) (f : arg) : option iexpr :=
  match f with
  | AC [pa; pb] b =>
      match strip_refs pa, strip_refs pb, as_op o (peel_blocks b) with
      | PBind _ acc _, PBind _ item _, Some (l, r) =>
          match triggered o acc item l r with Some e => Some (IRun c (folded o item e)) | None => None end
      | _, _, _ => None
      end
  | _ => None
  end.
(** unnecessary_fold.rs:178-214 [check_fold_with_method]. *)
Definition fold_with_method (o : foldop) (c : chain) (f : arg) : option iexpr :=
  match o, f with
  | FAdd, AP (PFn g) => given (Nat.eqb g f_add) (Some (IRun c CSum))
  | FMul, AP (PFn g) => given (Nat.eqb g f_mul) (Some (IRun c CProduct))
  | _, _ => None
  end.
(** unnecessary_fold.rs:237-290 [check_standard_fold]. *)
Definition standard_fold (e : iexpr) : option iexpr :=
  match e with
  | IRun c (CFold (EBool false) f) => fold_with_op FOr c f
  | IRun c (CFold (EBool true) f) => fold_with_op FAnd c f
  | IRun c (CFold (EInt z) f) =>
      if Z.eqb z 0 then match fold_with_op FAdd c f with Some r => Some r | None => fold_with_method FAdd c f end
      else if Z.eqb z 1 then match fold_with_op FMul c f with Some r => Some r | None => fold_with_method FMul c f end
      else None
  | _ => None
  end.

(** ** `filter` followed by `map` *)
(** methods/filter_map.rs:19-44 [is_method], on closures.  [m] is the name of the method. *)
Definition meth_eqb (a b : meth) : bool :=
  match a, b with MIsGood, MIsGood | MUnwrap, MUnwrap | MExpect, MExpect | MUnwrapOr, MUnwrapOr | MAsRef, MAsRef => true | _, _ => false end.
Definition rty_eqb (a b : rty) : bool := match a, b with TOption, TOption | TResult, TResult | TBool, TBool => true | _, _ => false end.
(** Names of functions: whether the last segment of the path is this method's name. *)
Definition names := meth -> nat -> bool.
(** `is_some` and `is_ok` are the methods of their types; `unwrap` is looked up by name alone. *)
Definition is_method (nm : names) (t : option rty) (m : meth) (f : arg) : bool :=
  match f with
  | AP (PFn g) => nm m g
  | AC (PBind _ x _ :: _) b =>
      match peel_blocks b with
      | EMeth u m' (EVar y _) _ => meth_eqb m m' && Nat.eqb x y && match t with Some t => rty_eqb t u | None => true end
      | _ => false
      end
  | _ => false
  end.
(** methods/filter_map.rs:46-51, 266-325 [option_filter_map], [result_filter_map]: to `flatten()`. *)
Definition option_filter_map (nm : names) (c : chain) : option chain :=
  match c with
  | IMap g (IFilter f c) =>
      given (is_method nm None MUnwrap g && (is_method nm (Some TOption) MIsGood f || is_method nm (Some TResult) MIsGood f))
        (Some (IFlatten c))
  | _ => None
  end.

Inductive offending := ByMethod (t : rty) (recv : expr) | ByPattern (c : nat).
(** methods/filter_map.rs:227-262 [OffendingFilterExpr::hir].  Arms of `matches!` end in `_ => false`. *)
Definition offending_of (x : nat) (e : expr) : option offending :=
  match e with
  | EMeth ((TOption | TResult) as t) MIsGood r [] => Some (ByMethod t r)
  | EMatch false (EVar y _) [(PData (KCtor c) _ _, _, EBool true); (PWild, None, EBool false)] =>
      given (Nat.eqb x y) (Some (ByPattern c))
  | _ => None
  end.
(** methods/filter_map.rs:170-181 [expr_uses_local]. *)
Definition uses_local (c : nat) (p : pat) (e : expr) : option nat :=
  match p with
  | PData (KCtor d) [PBind _ y _] _ => given (is_local y (peel_blocks e) && Nat.eqb d c) (Some y)
  | _ => None
  end.
Definition is_panic (e : expr) : bool := match peel_blocks e with EPanic _ => true | _ => false end.
Definition some_e (e : expr) : expr := EData (KCtor c_some) [e].
Definition none_e : expr := EData (KCtor c_none) [].
(** The suggested match (379-384). *)
Definition variant_match (x : nat) (adj : bool) (p : pat) (y : nat) : expr :=
  EMatch false (EVar x adj) [(p, None, some_e (EVar y false)); (PWild, None, none_e)].
(** methods/filter_map.rs:109-225 [check_map_call] and the suggestion made of its result (338-390): [fx] is the parameter of
    the filter, [mx] that of the map.  Receivers are compared when they are the parameters (139-140); equal larger expressions
    (141-154) and the methods of 132-137 other than `as_ref` are left out. *)
Definition map_call (o : offending) (fx mx : nat) (body : expr) : option expr :=
  match o with
  | ByMethod t r =>
      match body with
      | EMeth u m a args =>
          let peeled := match a with EMeth _ MAsRef b [] => b | _ => a end in
          given ((meth_eqb m MExpect || meth_eqb m MUnwrap || meth_eqb m MUnwrapOr) && rty_eqb t u
                 && is_local fx r && is_local mx peeled)
            (Some (match t with TResult => EMeth TResult MOk a [] | _ => a end))
      | _ => None
      end
  | ByPattern c =>
      match body with
      | EIfLet p (EVar y adj) th (Some el) =>
          match uses_local c p th with
          | Some z => given (Nat.eqb y mx && is_panic el) (Some (variant_match mx adj p z))
          | None => None
          end
      | EMatch false (EVar y adj) [(p, _, th); (PWild, _, el)] =>
          match uses_local c p (peel_blocks th) with
          | Some z => given (Nat.eqb y mx && is_panic el) (Some (variant_match mx adj p z))
          | None => None
          end
      | _ => None
      end
  end.
(** methods/filter_map.rs:401-434 [is_find_or_filter]. *)
Definition find_or_filter (f g : arg) : option arg :=
  match f, g with
  | AC [fp] fb, AC [PBind r mx None] mb =>
      match (match fp with PRef p => p | p => p end) with
      | PBind _ fx None =>
          match offending_of fx fb with
          | Some o => match map_call o fx mx mb with Some e => Some (AC [PBind false mx None] e) | None => None end
          | None => None
          end
      | _ => None
      end
  | _, _ => None
  end.
(** methods/filter_map.rs:288-399 [manual_filter_map], [manual_find_map]. *)
Definition manual_filter_map (c : chain) : option chain :=
  match c with
  | IMap g (IFilter f c) => match find_or_filter f g with Some h => Some (IFilterMap h c) | None => None end
  | _ => None
  end.
Definition manual_find_map (e : iexpr) : option iexpr :=
  match e with
  | IMeth MMap (IRun c (CFind f)) [g] => match find_or_filter f g with Some h => Some (IRun c (CFindMap h)) | None => None end
  | _ => None
  end.
(** methods/filter_map_bool_then.rs:16-74: `filter_map(|p| c.then(|| b))` to `filter(|&p| c).map(|p| b)`.  Of
    [can_filter_and_then_move_to_closure] (93-117) only the test for `return` is modelled. *)
Definition filter_map_bool_then (c : chain) : option chain :=
  match c with
  | IFilterMap (AC [p] b) c =>
      match peel_blocks b with
      | EMeth TBool MThen r [AC [] th] =>
          given (negb (contains_return r)) (Some (IMap (AC [p] (peel_blocks th)) (IFilter (AC [PRef p] r) c)))
      | _ => None
      end
  | _ => None
  end.
(** ** Loops: `for p in c { body }` *)
Record for_loop_e := { for_pat : pat; for_iter : chain; for_body : expr }.
(** clippy_utils/src/lib.rs [peel_blocks_with_stmt]. *)
Fixpoint peel_blocks_with_stmt (e : expr) : expr :=
  match e with
  | EBlock _ [] (Some a) => peel_blocks_with_stmt a
  | EBlock _ [SExpr a] None | EBlock _ [SSemi a] None => peel_blocks_with_stmt a
  | _ => e
  end.
(** loops/unused_enumerate_index.rs:15-66; clippy_utils/src/lib.rs [pat_is_wild]: `_`, or a variable the body does not use
    (whose name begins with `_`). *)
Definition pat_is_wild (p : pat) (b : expr) : bool :=
  match p with PWild => true | PBind _ x None => negb (local_used x b) | _ => false end.
Definition unused_enumerate_for (l : for_loop_e) : option for_loop_e :=
  match for_pat l, for_iter l with
  | PData KTup [i; p] _, IEnumerate c =>
      given (pat_is_wild i (for_body l)) (Some {| for_pat := p; for_iter := c; for_body := for_body l |})
  | _, _ => None
  end.
(** unused_enumerate_index.rs:68-98 [check_method], for a closure with one parameter. *)
Definition without_index (f : arg) : option arg :=
  match f with AC [PData KTup [i; p] _] b => given (pat_is_wild i b) (Some (AC [p] b)) | _ => None end.
(** loops/mod.rs:925-944: the methods of which the closure is looked at. *)
Definition unused_enumerate_chain (c : chain) : option chain :=
  match c with
  | IMap f (IEnumerate c) => match without_index f with Some g => Some (IMap g c) | None => None end
  | IFilterMap f (IEnumerate c) => match without_index f with Some g => Some (IFilterMap g c) | None => None end
  | IFlatMap f (IEnumerate c) => match without_index f with Some g => Some (IFlatMap g c) | None => None end
  | _ => None
  end.
Definition unused_enumerate_end (e : iexpr) : option iexpr :=
  match e with
  | IRun (IEnumerate c) (CForEach f) => match without_index f with Some g => Some (IRun c (CForEach g)) | None => None end
  | IRun (IEnumerate c) (CAll f) => match without_index f with Some g => Some (IRun c (CAll g)) | None => None end
  | IRun (IEnumerate c) (CAny f) => match without_index f with Some g => Some (IRun c (CAny g)) | None => None end
  | IRun (IEnumerate c) (CFindMap f) => match without_index f with Some g => Some (IRun c (CFindMap g)) | None => None end
  | _ => None
  end.
(** loops/manual_flatten.rs:16-87.  [is_refutable] is the oracle of the type checker. *)
Definition manual_flatten (refutable : pat -> bool) (copied : bool) (l : for_loop_e) : option for_loop_e :=
  match for_pat l, peel_blocks_with_stmt (for_body l) with
  | PBind _ x _, EIfLet (PData (KCtor c) [q] _) e th None =>
      (* variables are names here: a body that uses a variable of [q] with the name [x] is left alone *)
      given (is_local x e && (Nat.eqb c c_some || Nat.eqb c c_ok) && negb (local_used x th) && negb (refutable q))
        (Some {| for_pat := q; for_iter := IFlatten (if copied then ICloned (for_iter l) else for_iter l); for_body := th |})
  | _, _ => None
  end.
(** clippy_utils/src/usage.rs:183-195 [contains_return_break_continue_macro]. *)
Definition contains_jump : expr -> bool := some_sub (fun e => match e with ERet _ | EBreak _ _ => true | _ => false end).
(** loops/manual_find.rs:18-105 on `for p in c { if cond { return Some(x); } } None`, the end of a function; [copy] tells whether
    the item is Copy.  Adjustments of the result are not modelled. *)
Definition one_binding (p : pat) : option nat :=
  match pat_vars p with [x] => match mode_of x p with Some false => Some x | _ => None end | _ => None end.
Definition manual_find (copy : bool) (l : for_loop_e) (tail : expr) : option iexpr :=
  match peel_blocks_with_stmt (for_body l) with
  | EIf cond (EBlock _ [SSemi (ERet (Some r))] None) None =>
      match one_binding (for_pat l), as_ctor c_some r with
      | Some x, Some a =>
          given (is_local x a && negb (contains_jump cond)
                 && is_none_expr tail)
            (let is_ref := match for_pat l with PRef (PBind _ _ _) => true | _ => false end in
             let plain := match for_pat l with PBind _ _ _ => true | _ => is_ref end in
             let c := if plain then for_iter l else IMap (AC [for_pat l] a) (for_iter l) in
             let q := PBind false x None in
             let q := if copy then (if is_ref then PRef (PRef q) else PRef q) else q in
             let e := IRun c (CFind (AC [q] cond)) in
             Some (if copy && is_ref then ICloneOpt e else e))
      | _, _ => None
      end
  | _ => None
  end.
