(** Model of the lints about closures and the methods of Option, Result and bool
    (/repo/clippy_lints/src/methods) and of the helpers they use
    (/repo/clippy_utils/src/lib.rs, visitors.rs, eager_or_lazy.rs), on the language of CloSpec.

    A lint is a function from an expression to the suggested expression.  Not modelled: spans and texts (a suggestion is the
    expression its text denotes), macros, minimal Rust versions, conditions that only make a lint quieter (types written on
    closure parameters, Copy types and borrows of arguments), the notes of a diagnostic. *)
From Verif Require Export CloSpec.

Definition opt_some (f : expr -> bool) (o : option expr) : bool := match o with Some e => f e | None => false end.

(** clippy_utils/src/visitors.rs [for_each_expr_without_closures]: some subexpression, outside of the bodies of closures,
    satisfies [f]. *)
Fixpoint some_sub (f : expr -> bool) (e : expr) {struct e} : bool :=
  f e ||
  match e with
  | EVar _ _ | EInt _ | EBool _ | EClosure _ _ => false
  | EData _ es | ECall _ es | ECallPath _ es | EPanic es => existsb (some_sub f) es
  | EStruct _ fs => existsb (fun x => match x with (_, a) => some_sub f a end) fs
  | ENot a | EAssign _ a | ELoop _ a => some_sub f a
  | EEq _ a b | EOr a b => some_sub f a || some_sub f b
  | EIf c a b | EIfLet _ c a b => some_sub f c || some_sub f a || opt_some (some_sub f) b
  | EMatch _ a arms =>
      some_sub f a ||
      existsb (fun x => match x with (_, g, b) => opt_some (some_sub f) g || some_sub f b end) arms
  | EBlock _ ss t =>
      existsb (fun x => match x with
                        | SLet _ i b => opt_some (some_sub f) i || opt_some (some_sub f) b
                        | SExpr a | SSemi a => some_sub f a
                        end) ss || opt_some (some_sub f) t
  | ERet a | EBreak _ a => opt_some (some_sub f) a
  | EMeth _ _ r args =>
      some_sub f r || existsb (fun x => match x with AE a => some_sub f a | AC _ _ | AP _ => false end) args
  end.

(** lib.rs:1116-1125 [contains_return]. *)
Definition contains_return : expr -> bool := some_sub (fun e => match e with ERet _ => true | _ => false end).
(** visitors.rs:195-205 [contains_try]. *)
Definition contains_try : expr -> bool := some_sub (fun e => match e with EMatch true _ _ => true | _ => false end).
(** usage.rs:197-206 [local_used_in], also [is_local_used] of visitors.rs and [BindingUsageFinder]: this one also visits the
    bodies of closures. *)
Fixpoint local_used (x : nat) (e : expr) {struct e} : bool :=
  match e with
  | EVar y _ => Nat.eqb x y
  | EInt _ | EBool _ => false
  | EClosure _ b => local_used x b
  | EData _ es | ECall _ es | ECallPath _ es | EPanic es => existsb (local_used x) es
  | EStruct _ fs => existsb (fun y => match y with (_, a) => local_used x a end) fs
  | ENot a | ELoop _ a => local_used x a
  | EAssign y a => Nat.eqb x y || local_used x a
  | EEq _ a b | EOr a b => local_used x a || local_used x b
  | EIf c a b | EIfLet _ c a b => local_used x c || local_used x a || opt_some (local_used x) b
  | EMatch _ a arms =>
      local_used x a || existsb (fun y => match y with (_, g, b) => opt_some (local_used x) g || local_used x b end) arms
  | EBlock _ ss t =>
      existsb (fun y => match y with
                        | SLet _ i b => opt_some (local_used x) i || opt_some (local_used x) b
                        | SExpr a | SSemi a => local_used x a
                        end) ss || opt_some (local_used x) t
  | ERet a | EBreak _ a => opt_some (local_used x) a
  | EMeth _ _ r args =>
      local_used x r || existsb (fun y => match y with AE a => local_used x a | AC _ b => local_used x b | AP _ => false end) args
  end.

(** lib.rs:1236-1250 [peel_blocks]; unsafe blocks do not occur. *)
Fixpoint peel_blocks (e : expr) : expr :=
  match e with EBlock _ [] (Some a) => peel_blocks a | _ => e end.
(** lib.rs:302-304 [is_none_expr], 307-315 [as_some_expr]. *)
Definition is_none_expr (e : expr) : bool :=
  match e with EData (KCtor c) [] => Nat.eqb c c_none | _ => false end.
Definition as_ctor (c : nat) (e : expr) : option expr :=
  match e with EData (KCtor d) [a] => if Nat.eqb d c then Some a else None | _ => None end.
(** [res_local_id]: the expression is a path to a local variable (whatever its adjustments). *)
Definition is_local (x : nat) (e : expr) : bool := match e with EVar y _ => Nat.eqb x y | _ => false end.

(** In this language functions are passed as closures or paths only. *)
Definition callable (a : arg) : bool := match a with AE _ => false | _ => true end.
Definition given {A} (b : bool) (o : option A) : option A := if b then o else None.

(** ** Identity functions *)

(** lib.rs:1899-1955 [is_expr_identity_of_pat] with [by_hir].  [unordered_over] on the fields of structs. *)
Fixpoint identity_of_pat (p : pat) (e : expr) {struct p} : bool :=
  let fix over (ps : list pat) (es : list expr) {struct ps} : bool :=
    match ps, es with
    | [], [] => true
    | p :: ps, e :: es => identity_of_pat p e && over ps es
    | _, _ => false
    end in
  match p, e with
  | PBind by_ref x _, EVar y adj => negb by_ref && Nat.eqb x y && negb adj
  | PData KTup ps None, EData KTup es => over ps es
  | PSlice b None a, EData KArr es => over b (firstn (length b) es) && over a (skipn (length b) es)
  | PData (KCtor c) (p :: ps) None, EData (KCtor d) (e :: es) =>
      Nat.eqb c d && (identity_of_pat p e && over ps es)
  | PStruct c fs false, EStruct d es =>
      Nat.eqb (length fs) (length es) && Nat.eqb c d &&
      (fix each (fs : list (nat * pat)) : bool :=
         match fs with
         | [] => true
         | (i, p) :: fs =>
             existsb (fun x => match x with (j, e) => Nat.eqb i j && identity_of_pat p e end) es && each fs
         end) fs
  | _, _ => false
  end.

(** lib.rs:1806-1888 [is_body_identity_function]: [p] is the pattern whose value the rest must return.  `let` statements
    advance it (lib.rs:1819-1833); a `let … else` counts as a `let`. *)
Fixpoint body_identity (p : pat) (e : expr) {struct e} : bool :=
  match e with
  | ERet (Some a) => body_identity p a
  | EBlock _ ss t =>
      (fix go (p : pat) (ss : list stmt) {struct ss} : bool :=
         match ss, t with
         | [], Some a => body_identity p a
         | [], None => false
         | [SExpr (ERet (Some a))], None | [SSemi (ERet (Some a))], None => body_identity p a
         | SLet q (Some i) _ :: ss, _ => identity_of_pat p i && go q ss
         | _, _ => false
         end) p ss
  | _ => identity_of_pat p e
  end.

(** lib.rs:1962-1975 [is_expr_untyped_identity_function], 1987-1992 [is_expr_identity_function]. *)
Definition identity_function (a : arg) : bool :=
  match a with AC [p] b => body_identity p b | AP PIdentity => true | _ => false end.

(** map_identity.rs:15-83: `x.map(identity)` and `x.map_err(identity)` to `x`. *)
Definition map_identity (e : expr) : option expr :=
  match e with
  | EMeth (TOption | TResult) (MMap | MMapErr) r [a] => if identity_function a then Some r else None
  | _ => None
  end.
(** map_or_identity.rs:14-36: `x.map_or(d, identity)` to `x.unwrap_or(d)`. *)
Definition map_or_identity (e : expr) : option expr :=
  match e with
  | EMeth t MMapOr r [AE d; a] => if identity_function a then Some (EMeth t MUnwrapOr r [AE d]) else None
  | _ => None
  end.
(** unnecessary_map_or_else.rs:14-39: `x.map_or_else(g, identity)` to `x.unwrap_or_else(g)`. *)
Definition unnecessary_map_or_else (e : expr) : option expr :=
  match e with
  | EMeth t MMapOrElse r [g; a] => if identity_function a && callable g then Some (EMeth t MUnwrapOrElse r [g]) else None
  | _ => None
  end.

(** ** The values a body may return *)

Definition trav {A B} (f : A -> option B) : list A -> option (list B) :=
  fix go (l : list A) :=
    match l with
    | [] => Some []
    | a :: l => match f a, go l with Some b, Some m => Some (b :: m) | _, _ => None end
    end.
Definition travo {A B} (f : A -> option B) (o : option A) : option (option B) :=
  match o with None => Some None | Some a => option_map Some (f a) end.
Definition lift2 {A B C} (f : A -> B -> C) (a : option A) (b : option B) : option C :=
  match a, b with Some a, Some b => Some (f a b) | _, _ => None end.
Definition lift3 {A B C D} (f : A -> B -> C -> D) (a : option A) (b : option B) (c : option C) : option D :=
  match a, b, c with Some a, Some b, Some c => Some (f a b c) | _, _, _ => None end.

(** visitors.rs:238-278, the visitor of [find_all_ret_expressions]: [None] if the callback refuses an expression; otherwise the
    expression with each one the callback was called on replaced by what it gave.  [in_stmt] is the flag of the visitor.
    Guards of arms are only visited inside of statements; bodies of closures are not visited. *)
Fixpoint ret_map (cb : expr -> option expr) (in_stmt : bool) (e : expr) {struct e} : option expr :=
  let go := ret_map cb in
  let stmts (ss : list stmt) :=
    trav (fun s => match s with
                   | SLet p i b => lift2 (SLet p) (travo (go true) i) (travo (go true) b)
                   | SExpr a => option_map SExpr (go true a)
                   | SSemi a => option_map SSemi (go true a)
                   end) ss in
  if in_stmt then
    match e with
    | ERet (Some a) => option_map (fun a => ERet (Some a)) (go false a)
    | EVar _ _ | EInt _ | EBool _ | EClosure _ _ | ERet None => Some e
    | EData k es => option_map (EData k) (trav (go true) es)
    | EStruct c fs => option_map (EStruct c) (trav (fun x => match x with (i, a) => option_map (pair i) (go true a) end) fs)
    | ECall f es => option_map (ECall f) (trav (go true) es)
    | ECallPath p es => option_map (ECallPath p) (trav (go true) es)
    | EPanic es => option_map EPanic (trav (go true) es)
    | ENot a => option_map ENot (go true a)
    | EEq n a b => lift2 (EEq n) (go true a) (go true b)
    | EOr a b => lift2 EOr (go true a) (go true b)
    | EAssign x a => option_map (EAssign x) (go true a)
    | EIf c a b => lift3 EIf (go true c) (go true a) (travo (go true) b)
    | EIfLet p c a b => lift3 (EIfLet p) (go true c) (go true a) (travo (go true) b)
    | EMatch t a arms =>
        lift2 (EMatch t) (go true a)
          (trav (fun x => match x with (p, g, b) => lift2 (fun g b => (p, g, b)) (travo (go true) g) (go true b) end) arms)
    | EBlock l ss t => lift2 (EBlock l) (stmts ss) (travo (go true) t)
    | ELoop l a => option_map (ELoop l) (go true a)
    | EBreak l a => option_map (EBreak l) (travo (go true) a)
    | EMeth t m r args =>
        lift2 (EMeth t m) (go true r)
          (trav (fun x => match x with AE a => option_map AE (go true a) | AC _ _ | AP _ => Some x end) args)
    end
  else
    match e with
    | EIf c a b => lift3 EIf (go true c) (go false a) (travo (go false) b)
    | EIfLet p c a b => lift3 (EIfLet p) (go true c) (go false a) (travo (go false) b)
    | EMatch t a arms =>
        lift2 (EMatch t) (go true a)
          (trav (fun x => match x with (p, g, b) => option_map (fun b => (p, g, b)) (go false b) end) arms)
    | EBlock l ss t => lift2 (EBlock l) (stmts ss) (travo (go false) t)
    | ERet (Some a) => option_map (fun a => ERet (Some a)) (go false a)
    | _ => cb e
    end.

(** visitors.rs:207-288 [find_all_ret_expressions]. *)
Definition find_all_ret (cb : expr -> option expr) (e : expr) : option expr :=
  if contains_try e then None else ret_map cb false e.

(** ** bind_instead_of_map *)

(** bind_instead_of_map.rs:14-55: the constructor and the method suggested. *)
Definition bind_kind (t : rty) (m : meth) : option (nat * meth) :=
  match t, m with
  | TOption, MAndThen => Some (c_some, MMap)
  | TResult, MAndThen => Some (c_ok, MMap)
  | TResult, MOrElse => Some (c_err, MMapErr)
  | _, _ => None
  end.
(** bind_instead_of_map.rs:86-114 and 118-127: `Some(y)` without a `return` in [y]. *)
Definition wrapped (c : nat) (e : expr) : option expr :=
  match as_ctor c e with Some a => if contains_return a then None else Some a | None => None end.
(** bind_instead_of_map.rs:157-194 [check] with 86-154.  That some expression is replaced (line 130) is dropped: without one the
    closure never returns. *)
Definition bind_instead_of_map (e : expr) : option expr :=
  match e with
  | EMeth t m r [a] =>
      match bind_kind t m with
      | Some (c, m') =>
          match a with
          | AC ps b =>
              match wrapped c (peel_blocks b) with
              | Some i => Some (EMeth t m' r [AC ps i])
              | None => option_map (fun b' => EMeth t m' r [AC ps b']) (find_all_ret (wrapped c) (peel_blocks b))
              end
          | AP (PCtor d) => if Nat.eqb c d then Some r else None
          | _ => None
          end
      | None => None
      end
  | _ => None
  end.

(** ** unnecessary_filter_map, unnecessary_find_map *)

(** unnecessary_filter_map.rs:111-155 [check_expression]: (found_mapping, found_filtering). *)
Definition or2 (a b : bool * bool) : bool * bool := (fst a || fst b, snd a || snd b).
Fixpoint check_expression (x : nat) (e : expr) {struct e} : bool * bool :=
  match e with
  | EData (KCtor c) [] => if Nat.eqb c c_none then (false, true) else (true, true)
  | EData (KCtor c) [a] =>
      if Nat.eqb c c_some then (if is_local x a then (false, false) else (true, false)) else (true, true)
  | EMeth TBool MThenSome _ [AE a] => if is_local x a then (false, true) else (true, true)
  | EBlock _ _ t => match t with Some a => check_expression x a | None => (false, false) end
  | EMatch _ _ arms =>
      fold_right (fun arm r => match arm with (_, _, b) => or2 (check_expression x b) r end) (false, false) arms
  | EIf _ a (Some b) | EIfLet _ _ a (Some b) => or2 (check_expression x a) (check_expression x b)
  | _ => (true, true)
  end.
(** unnecessary_filter_map.rs:34-43: the operands of `return`, not looking into them. *)
Fixpoint returned (e : expr) {struct e} : list expr :=
  let opt (o : option expr) := match o with Some a => returned a | None => [] end in
  match e with
  | ERet (Some a) => [a]
  | EVar _ _ | EInt _ | EBool _ | EClosure _ _ | ERet None => []
  | EData _ es | ECall _ es | ECallPath _ es | EPanic es => flat_map returned es
  | EStruct _ fs => flat_map (fun y => match y with (_, a) => returned a end) fs
  | ENot a | EAssign _ a | ELoop _ a => returned a
  | EEq _ a b | EOr a b => returned a ++ returned b
  | EIf c a b | EIfLet _ c a b => returned c ++ returned a ++ opt b
  | EMatch _ a arms =>
      returned a ++ flat_map (fun y => match y with (_, g, b) => opt g ++ returned b end) arms
  | EBlock _ ss t =>
      flat_map (fun y => match y with SLet _ i b => opt i ++ opt b | SExpr a | SSemi a => returned a end) ss ++ opt t
  | EBreak _ a => opt a
  | EMeth _ _ r args => returned r ++ flat_map (fun y => match y with AE a => returned a | AC _ _ | AP _ => [] end) args
  end.
(** unnecessary_filter_map.rs:33-43. *)
Definition found (x : nat) (b : expr) : bool * bool :=
  fold_right (fun e r => or2 (check_expression x e) r) (check_expression x b) (returned b).
(** The variable is assigned somewhere, also in a closure (the rest of [mutated_variables] does not occur). *)
Fixpoint assigned (x : nat) (e : expr) {struct e} : bool :=
  match e with
  | EVar _ _ | EInt _ | EBool _ => false
  | EClosure _ b => assigned x b
  | EData _ es | ECall _ es | ECallPath _ es | EPanic es => existsb (assigned x) es
  | EStruct _ fs => existsb (fun y => match y with (_, a) => assigned x a end) fs
  | ENot a | ELoop _ a => assigned x a
  | EAssign y a => Nat.eqb x y || assigned x a
  | EEq _ a b | EOr a b => assigned x a || assigned x b
  | EIf c a b | EIfLet _ c a b => assigned x c || assigned x a || opt_some (assigned x) b
  | EMatch _ a arms =>
      assigned x a || existsb (fun y => match y with (_, g, b) => opt_some (assigned x) g || assigned x b end) arms
  | EBlock _ ss t =>
      existsb (fun y => match y with
                        | SLet _ i b => opt_some (assigned x) i || opt_some (assigned x) b
                        | SExpr a | SSemi a => assigned x a
                        end) ss || opt_some (assigned x) t
  | ERet a | EBreak _ a => opt_some (assigned x) a
  | EMeth _ _ r args =>
      assigned x r || existsb (fun y => match y with AE a => assigned x a | AC _ b => assigned x b | AP _ => false end) args
  end.
(** unnecessary_filter_map.rs:16-84 [check] on `.filter_map(|x| b)` and `.find_map(|x| b)`: what the message says the call is.
    The parameter is a binding; the types of argument and result agree (line 66). *)
Inductive verdict := Unnecessary | JustMap | JustFilter.
Definition unnecessary_filter_map (filter_map : bool) (x : nat) (b : expr) : option verdict :=
  let '(mapping, filtering) := found x b in
  if negb filtering then
    Some (match filter_map, as_ctor c_some b with true, Some (EVar _ _) => Unnecessary | _, _ => JustMap end)
  else if negb mapping && negb (assigned x b) then Some JustFilter
  else None.

(** ** Combinators of Option and Result *)

(** option_map_or_none.rs:15-30 [reduce_unit_expression], for a call of `Some`. *)
Fixpoint reduce_some (e : expr) : option expr :=
  match e with
  | EBlock _ [] (Some a) => reduce_some a
  | _ => as_ctor c_some e
  end.
(** option_map_or_none.rs:33-105. *)
Definition option_map_or_none (e : expr) : option expr :=
  match e with
  | EMeth t MMapOr r [AE d; f] =>
      if is_none_expr d && callable f then
        match t, f with
        | TOption, AC ps b =>
            match reduce_some b with
            | Some a => Some (EMeth TOption MMap r [AC ps a])
            | None => Some (EMeth TOption MAndThen r [f])
            end
        | TOption, _ => Some (EMeth TOption MAndThen r [f])
        | TResult, AP (PCtor c) => if Nat.eqb c c_some then Some (EMeth TResult MOk r []) else None
        | _, _ => None
        end
      else None
  | _ => None
  end.
(** result_map_or_else_none.rs:14-42. *)
Definition result_map_or_else_none (e : expr) : option expr :=
  match e with
  | EMeth TResult MMapOrElse r [AC _ b; AP (PCtor c)] =>
      if Nat.eqb c c_some && is_none_expr (peel_blocks b) then Some (EMeth TResult MOk r []) else None
  | _ => None
  end.
(** map_unwrap_or.rs:21-143. *)
Definition map_unwrap_or (e : expr) : option expr :=
  match e with
  | EMeth t1 MUnwrapOr (EMeth t MMap r [f]) [AE a] =>
      given (callable f)
      match t with
      | TBool => None
      | _ =>
          if match t with TOption => is_none_expr a | _ => false end then Some (EMeth t MAndThen r [f])
          else match a with
               | EBool false => Some (EMeth t MIsGoodAnd r [f])
               | _ => Some (EMeth t MMapOr r [AE a; f])
               end
      end
  | _ => None
  end.
(** map_unwrap_or_else.rs:16-68. *)
Definition map_unwrap_or_else (e : expr) : option expr :=
  match e with
  | EMeth _ MUnwrapOrElse (EMeth t MMap r [f]) [g] =>
      given (callable f && callable g)
      match t with TBool => None | _ => Some (EMeth t MMapOrElse r [g; f]) end
  | _ => None
  end.

(** eager_or_lazy.rs:115-318, 321-323 [switch_to_eager_eval] on this language: comparisons are those of primitive operands, adjusted
    variables may be dereferenced by user code, methods are those of [fn_eagerness] with the answer Lazy. *)
Fixpoint eager (e : expr) {struct e} : bool :=
  match e with
  | EVar _ adj => negb adj
  | EInt _ | EBool _ | EClosure _ _ => true
  | EData _ es => forallb eager es
  | EStruct _ fs => forallb (fun x => match x with (_, a) => eager a end) fs
  | ENot a => eager a
  | EEq _ a b | EOr a b => eager a && eager b
  | EIf c a b | EIfLet _ c a b => eager c && eager a && match b with Some b => eager b | None => true end
  | EMatch _ a arms =>
      eager a && forallb (fun x => match x with
                                   | (_, g, b) => match g with Some g => eager g | None => true end && eager b
                                   end) arms
  | EBlock _ [] t => match t with Some a => eager a | None => true end
  | _ => false
  end.

(** unnecessary_map_or.rs:41-46 [bool_constant]: of the constants ConstEvalCtxt knows, literals, blocks and negations. *)
Fixpoint const_bool (e : expr) : option bool :=
  match e with
  | EBool b => Some b
  | EBlock _ [] (Some a) => const_bool a
  | ENot a => option_map negb (const_bool a)
  | _ => None
  end.
(** unnecessary_map_or.rs:49-57 [closure_bool_constant]. *)
Definition closure_const_bool (a : arg) : option bool := match a with AC [_] b => const_bool b | _ => None end.
(** unnecessary_map_or.rs:65-117 [check_result_variant_query]. *)
Definition variant_query (t : rty) (r : expr) (d : option bool) (f : arg) : option expr :=
  match t, d, closure_const_bool f with
  | TResult, Some x, Some y => if Bool.eqb x y then None else Some (EMeth TResult (if y then MIsGood else MIsBad) r [])
  | _, _, _ => None
  end.
(** unnecessary_map_or.rs:124-248 [check], 255-263 [check_map_or_else].  The parameter of a comparison is a binding whose type is that
    of the other operand. *)
Definition map_or_comparison (t : rty) (r : expr) (def : bool) (f : arg) : option expr :=
  match f with
  | AC [PBind _ x _] b =>
      match peel_blocks b with
      | EEq neg l rt =>
          let other := if is_local x l then rt else l in
          if Bool.eqb neg def && eager other && xorb (is_local x l) (is_local x rt) && negb (local_used x other)
          then Some (EEq neg r (EData (KCtor (good_ctor t)) [other]))
          else None
      | _ => None
      end
  | _ => None
  end.
Definition unnecessary_map_or (e : expr) : option expr :=
  match e with
  | EMeth t MMapOr r [AE d; f] =>
      given (callable f)
      match variant_query t r (const_bool d) f with
      | Some e' => Some e'
      | None =>
          match d, t with
          | _, TBool => None
          | EBool b, _ =>
              match map_or_comparison t r b f with
              | Some e' => Some e'
              | None =>
                  if negb b then Some (EMeth t MIsGoodAnd r [f])
                  else match t with TOption => Some (EMeth t MIsNoneOr r [f]) | _ => None end
              end
          | _, _ => None
          end
      end
  | EMeth t MMapOrElse r [g; f] => variant_query t r (closure_const_bool g) f
  | _ => None
  end.

(** manual_is_variant_and.rs:149-167 [MapFunc::sugg]: [inverted] writes `!` before the body, or `|x| !path(x)`; the variable of the
    latter is new here. *)
Definition inverted (fresh : nat) (f : arg) : option arg :=
  match f with
  | AC ps b => Some (AC ps (ENot b))
  | AP p => Some (AC [PBind false fresh None] (ENot (ECallPath p [EVar fresh false])))
  | AE _ => None
  end.
Definition map_func (fresh : nat) (f : arg) (invert : bool) : option arg :=
  match f with AE _ => None | _ => if invert then inverted fresh f else Some f end.
(** manual_is_variant_and.rs:172-212 [emit_lint], 214-240 [check_map].  The constructor is not looked at. *)
Definition variant_and_compare (fresh : nat) (neg : bool) (c : expr) (m : expr) : option expr :=
  match c, m with
  | EData (KCtor _) [EBool k], EMeth t MMap r [f] =>
      match t, neg with
      | TOption, false => option_map (fun g => EMeth TOption MIsGoodAnd r [g]) (map_func fresh f (negb k))
      | TOption, true => option_map (fun g => EMeth TOption MIsNoneOr r [g]) (map_func fresh f k)
      | TResult, false => option_map (fun g => EMeth TResult MIsGoodAnd r [g]) (map_func fresh f (negb k))
      | TResult, true => option_map (fun g => ENot (EMeth TResult MIsGoodAnd r [g])) (map_func fresh f (negb k))
      | TBool, _ => None
      end
  | _, _ => None
  end.
Section Eq.
  (** [SpanlessEq::eq_expr], which allows side effects here. *)
  Variable same : expr -> expr -> bool.
  (** manual_is_variant_and.rs:242-302 [check_or]. *)
  Definition is_none_or_is_some_and (a b : expr) : option expr :=
    match a, b with
    | EMeth TOption MIsBad r1 [], EMeth TOption MIsGoodAnd r2 [f]
    | EMeth TOption MIsGoodAnd r2 [f], EMeth TOption MIsBad r1 [] =>
        match f with
        | AE _ => None
        | _ => if same r1 r2 then Some (EMeth TOption MIsNoneOr r2 [f]) else None
        end
    | _, _ => None
    end.
  (** manual_is_variant_and.rs:48-99, 214-240, 242-302, 304-342, 345-372. *)
  Definition manual_is_variant_and (fresh : nat) (e : expr) : option expr :=
    match e with
    | EMeth _ (MUnwrapOrDefault true) (EMeth t MMap r [f]) [] =>
        given (callable f) match t with TBool => None | _ => Some (EMeth t MIsGoodAnd r [f]) end
    | EEq neg a b =>
        match variant_and_compare fresh neg a b with
        | Some e' => Some e'
        | None => variant_and_compare fresh neg b a
        end
    | EOr a b => is_none_or_is_some_and a b
    | EMeth TOption MIsGood (EMeth TOption MFilter r [f]) [] =>
        option_map (fun g => EMeth TOption MIsGoodAnd (EMeth TOption MAsRef r []) [g]) (map_func fresh f false)
    | EMeth TOption MIsBad (EMeth TOption MFilter r [f]) [] =>
        option_map (fun g => EMeth TOption MIsNoneOr (EMeth TOption MAsRef r []) [g]) (map_func fresh f true)
    | EMeth TOption MIsGoodAnd (EMeth TResult MOk r []) [f] => given (callable f) (Some (EMeth TResult MIsGoodAnd r [f]))
    | _ => None
    end.
End Eq.

(** manual_ok_or.rs:12-44, 47-70. *)
Definition ok_wrapping (f : arg) : bool :=
  match f with
  | AP (PCtor c) => Nat.eqb c c_ok
  | AC [PBind _ x _] b => match as_ctor c_ok b with Some a => is_local x a | None => false end
  | _ => false
  end.
Definition manual_ok_or (e : expr) : option expr :=
  match e with
  | EMeth TOption MMapOr r [AE d; f] =>
      match as_ctor c_err d with
      | Some a => if ok_wrapping f then Some (EMeth TOption MOkOr r [AE a]) else None
      | None => None
      end
  | _ => None
  end.
(** manual_option_zip.rs:16-61, 70-85. *)
Definition manual_option_zip (e : expr) : option expr :=
  match e with
  | EMeth TOption MAndThen r [AC [PBind _ x None] b] =>
      match peel_blocks b with
      | EMeth TOption MMap r2 [AC [PBind _ y None] b2] =>
          if eager r2 && negb (local_used x r2) then
            match peel_blocks b2 with
            | EData KTup [p; q] =>
                if is_local x p && is_local y q then Some (EMeth TOption MZip r [AE r2])
                else if is_local y p && is_local x q then Some (EMeth TOption MZip r2 [AE r])
                else None
            | _ => None
            end
          else None
      | _ => None
      end
  | _ => None
  end.

(** or_then_unwrap.rs:12-62: `x.or(Some(y)).unwrap()` to `x.unwrap_or(y)`. *)
Definition or_then_unwrap (e : expr) : option expr :=
  match e with
  | EMeth _ MUnwrap (EMeth t MOr r [AE d]) [] =>
      match t with
      | TBool => None
      | _ => option_map (fun a => EMeth t MUnwrapOr r [AE a]) (as_ctor (good_ctor t) d)
      end
  | _ => None
  end.

(** ** Code moved out of closures *)

(** `Default::default()` of a bool, and of another type. *)
Definition default_of (bool : bool) : expr := if bool then EBool false else ECall dflt [].
(** unnecessary_literal_unwrap.rs:27-143 on a receiver that is a constructor without type arguments. *)
Definition unnecessary_literal_unwrap (e : expr) : option expr :=
  match e with
  | EMeth _ m (EData (KCtor c) cargs) args =>
      if existsb (Nat.eqb c) [c_none; c_some; c_ok; c_err] &&
         match m with
         | MUnwrap | MUnwrapErr | MExpect | MExpectErr | MUnwrapOr | MUnwrapOrElse | MUnwrapOrDefault _ => true
         | _ => false
         end
      then
        match cargs with
        | [] =>
            match m, args with
            | MUnwrap, [] => Some (EPanic [])
            | MExpect, [AE a] => Some (EPanic [a])
            | MUnwrapOrDefault b, [] => Some (default_of b)
            | MUnwrapOr, [AE a] => Some a
            | MUnwrapOrElse, [AC _ b] => Some b
            | _, _ => None
            end
        | [a] =>
            match m, args with
            | MUnwrapErr, [] => if Nat.eqb c c_ok then Some (EPanic [a]) else Some a
            | MUnwrap, [] => if Nat.eqb c c_err then Some (EPanic [a]) else Some a
            | MExpectErr, [AE d] => if Nat.eqb c c_ok then Some (EPanic [a; d]) else Some a
            | MExpect, [AE d] => if Nat.eqb c c_err then Some (EPanic [a; d]) else Some a
            | MUnwrapOr, [AE _] | MUnwrapOrDefault _, [] | MUnwrapOrElse, [AC _ _] | MUnwrapOrElse, [AP _] => Some a
            | _, _ => None
            end
        | _ => None
        end
      else None
  | _ => None
  end.

(** obfuscated_if_else.rs:13-84: [Some (suggestion, machine_applicable)]. *)
Definition obfuscated_if_else (e : expr) : option (expr * bool) :=
  match e with
  | EMeth _ m (EMeth TBool m1 c [a]) args =>
      let if_then :=
        match m1, a with
        | MThen, AC _ b => Some b
        | MThenSome, AE b => Some b
        | _, _ => None
        end in
      let els :=
        match m, args with
        | MUnwrapOr, [AE d] => Some (d, eager d)
        | MUnwrapOrElse, [AC _ b] => Some (b, true)
        | MUnwrapOrElse, [AP p] => Some (ECallPath p [], true)
        | MUnwrapOrDefault b, [] => Some (default_of b, true)
        | _, _ => None
        end in
      match if_then, els with
      | Some b, Some (d, ok) =>
          Some (EIf c (EBlock None [] (Some b)) (Some (EBlock None [] (Some d))),
                match a with AE x => eager x | _ => true end && ok)
      | _, _ => None
      end
  | _ => None
  end.

(** `x?` (rustc desugaring): the error is returned as it is, `From` being the identity between equal types. *)
Definition try_expr (t : rty) (x : nat) (r : expr) : expr :=
  match t with
  | TResult =>
      EMatch true r
        [(PData (KCtor c_ok) [PBind false x None] None, None, EVar x false);
         (PData (KCtor c_err) [PBind false x None] None, None, ERet (Some (EData (KCtor c_err) [EVar x false])))]
  | _ =>
      EMatch true r
        [(PData (KCtor c_some) [PBind false x None] None, None, EVar x false);
         (PData (KCtor c_none) [] None, None, ERet (Some (EData (KCtor c_none) [])))]
  end.
(** return_and_then.rs:18-97: `x.and_then(|p| b)` where it is the value of the function, to `let p = x?; b`. *)
Definition return_and_then (fresh : nat) (e : expr) : option expr :=
  match e with
  | EMeth t MAndThen r [AC [p] b] =>
      match t with
      | TBool => None
      | _ => Some (EBlock None [SLet p (Some (try_expr t fresh r)) None] (Some (peel_blocks b)))
      end
  | _ => None
  end.

(** unnecessary_lazy_eval.rs:15-107 and its callers (mod.rs): the eager method. *)
Fixpoint pat_vars (p : pat) : list nat :=
  match p with
  | PBind _ x None => [x]
  | PBind _ x (Some q) => x :: pat_vars q
  | PData _ ps _ => flat_map pat_vars ps
  | PSlice b m a =>
      flat_map pat_vars b ++ match m with Some q => pat_vars q | None => [] end ++ flat_map pat_vars a
  | PStruct _ fs _ => flat_map (fun y => match y with (_, q) => pat_vars q end) fs
  | PRef q => pat_vars q
  | _ => []
  end.
Definition eager_method (t : rty) (m : meth) : option meth :=
  match t, m with
  | (TOption | TResult), MAndThen => Some MAnd
  | (TOption | TResult), MOrElse => Some MOr
  | (TOption | TResult), MUnwrapOrElse => Some MUnwrapOr
  | TOption, MOkOrElse => Some MOkOr
  | TBool, MThen => Some MThenSome
  | _, _ => None
  end.
Definition unnecessary_lazy_eval (e : expr) : option expr :=
  match e with
  | EMeth t m r [AC ps b] =>
      match eager_method t m with
      | Some m' =>
          if forallb (fun x => negb (local_used x b)) (flat_map pat_vars ps) && eager b
          then Some (EMeth t m' r [AE b]) else None
      | None => None
      end
  | _ => None
  end.
