(** Model of the lints that turn a `match` or an `if let` into a method of Option, Result or bool
    (/repo/clippy_lints/src/matches/manual_utils.rs, manual_map.rs, manual_filter.rs, manual_unwrap_or.rs, manual_ok_err.rs,
    /repo/clippy_lints/src/option_if_let_else.rs, if_then_some_else_none.rs), on the language of CloSpec.

    A lint is a function from an expression to the suggested expression.  Not modelled: spans and texts (except where said),
    macros, minimal Rust versions, scrutinees that are references, and conditions that only make a lint quieter (borrows
    and captures of variables, coercions, unit values, unsafe blocks). *)
From Verif Require Export CloModel.

(** ** Moving an expression into a closure. *)
Definition opt_all (f : expr -> bool) (o : option expr) : bool := match o with Some e => f e | None => true end.
(** clippy_utils/src/lib.rs:753-776 [can_move_expr_to_closure_no_visit], 922-1004 [can_move_expr_to_closure]: [ls] are the
    labels of the loops around, inside of the expression.  Closures are not entered.  A labelled block hides a loop of the
    same label. *)
Fixpoint movable (ls : list (option nat)) (e : expr) {struct e} : bool :=
  match e with
  | EVar _ _ | EInt _ | EBool _ | EClosure _ _ => true
  | EData _ es | ECall _ es | ECallPath _ es | EPanic es => forallb (movable ls) es
  | EStruct _ fs => forallb (fun x => match x with (_, a) => movable ls a end) fs
  | ENot a | EAssign _ a => movable ls a
  | ELoop l a => movable (l :: ls) a
  | EEq _ a b | EOr a b => movable ls a && movable ls b
  | EIf c a b | EIfLet _ c a b => movable ls c && movable ls a && opt_all (movable ls) b
  | EMatch _ a arms =>
      movable ls a && forallb (fun x => match x with (_, g, b) => opt_all (movable ls) g && movable ls b end) arms
  | EBlock l ss t =>
      let ls' := match l with
                 | Some _ => filter (fun l' => negb (same_label l l')) ls
                 | None => ls
                 end in
      forallb (fun x => match x with
                        | SLet _ i b => opt_all (movable ls') i && opt_all (movable ls') b
                        | SExpr a | SSemi a => movable ls' a
                        end) ss && opt_all (movable ls') t
  | ERet _ => false
  | EBreak l a =>
      match l with None => negb (match ls with [] => true | _ => false end) | Some _ => existsb (same_label l) ls end &&
      opt_all (movable ls) a
  | EMeth _ _ r args =>
      movable ls r && forallb (fun x => match x with AE a => movable ls a | AC _ _ | AP _ => true end) args
  end.

(** ** Two alternatives. *)
(** manual_map.rs:11-34, manual_filter.rs:151-188 [check_match], [check_if_let]: a `match` with two arms without guards, or
    an `if let` with an `else`.  (scrutinee, first pattern, its body, second pattern, its body.) *)
Definition two_arms (e : expr) : option (expr * pat * expr * option pat * expr) :=
  match e with
  | EMatch false r [(p, None, a); (q, None, b)] => Some (r, p, a, Some q, b)
  | EIfLet p r a (Some b) => Some (r, p, a, None, b)
  | _ => None
  end.
(** manual_utils.rs:193-204 [OptionPat], 236-263 [try_parse_pattern]; lib.rs [is_none_pattern], [as_some_pattern]. *)
Inductive optpat := OWild | ONone | OSome (p : pat).
Definition parse_pat (p : pat) : option optpat :=
  match p with
  | PWild => Some OWild
  | PData (KCtor c) [] None => if Nat.eqb c c_none then Some ONone else None
  | PData (KCtor c) [q] _ => if Nat.eqb c c_some then Some (OSome q) else None
  | _ => None
  end.
(** manual_utils.rs:266-268 [is_none_arm_body]. *)
Definition none_body (e : expr) : bool := is_none_expr (peel_blocks e).
(** The match on both patterns of [check_with], manual_utils.rs:42-61: (body, pattern inside of Some, whether the other
    pattern is `_`). *)
Definition some_arm (p : pat) (a : expr) (q : option pat) (b : expr) : option (expr * pat * bool) :=
  match parse_pat p, match q with Some q => parse_pat q | None => Some OWild end with
  | Some OWild, Some (OSome x) => if none_body a then Some (b, x, true) else None
  | Some ONone, Some (OSome x) => if none_body a then Some (b, x, false) else None
  | Some (OSome x), Some OWild => if none_body b then Some (a, x, true) else None
  | Some (OSome x), Some ONone => if none_body b then Some (a, x, false) else None
  | _, _ => None
  end.
(** [contains_explicit_ref_binding] of rustc. *)
Fixpoint has_ref (p : pat) : bool :=
  match p with
  | PBind r _ s => r || match s with Some q => has_ref q | None => false end
  | PData _ ps _ => existsb has_ref ps
  | PSlice b m a => existsb has_ref b || match m with Some q => has_ref q | None => false end || existsb has_ref a
  | PStruct _ fs _ => existsb (fun x => match x with (_, q) => has_ref q end) fs
  | PRef q => has_ref q
  | PWild | PLit _ | PBool _ => false
  end.
(** manual_utils.rs:176-190 [can_pass_as_func]: a call of one argument, the variable as it is. *)
Definition pass_as_func (x : nat) (e : expr) : option path :=
  match e with
  | ECall f [EVar y false] => if Nat.eqb x y then Some (PFn f) else None
  | ECallPath p [EVar y false] => if Nat.eqb x y then Some p else None
  | EData (KCtor c) [EVar y false] => if Nat.eqb x y then Some (PCtor c) else None
  | _ => None
  end.
(** manual_utils.rs:206-232 [SomeExpr]: the expression for the closure, and whether it is to be negated. *)
Inductive closure := FPath (p : path) | FBody (p : pat) (e : expr).
(** manual_utils.rs:63-164, the rest of [check_with]: (scrutinee, with `as_ref`, body of the closure). *)
Definition check_with (get_some_expr : pat -> expr -> option (expr * bool)) (e : expr) : option (expr * bool * closure) :=
  match two_arms e with
  | Some (r, p, a, q, b) =>
      match some_arm p a q b with
      | Some (body, some_pat, is_wild_none) =>
          match get_some_expr some_pat body with
          | Some (arg, negated) =>
              if movable [] arg then
                let text := if negated then ENot arg else arg in
                match some_pat with
                | PBind by_ref x None =>
                    match pass_as_func x arg with
                    | Some f => Some (r, by_ref, FPath f)
                    | None =>
                        if is_local x arg && by_ref then None else Some (r, by_ref, FBody (PBind false x None) text)
                    end
                | _ =>
                    if negb is_wild_none && negb (has_ref some_pat) then Some (r, false, FBody some_pat text) else None
                end
              else None
          | None => None
          end
      | None => None
      end
  | None => None
  end.
Definition with_ref (by_ref : bool) (r : expr) : expr := if by_ref then EMeth TOption MAsRef r [] else r.

(** ** manual_map *)
(** manual_map.rs:77-115 [get_some_expr]; the label of a block does not matter. *)
Fixpoint get_some_expr (e : expr) : option expr :=
  match e with
  | EData (KCtor c) [a] => if Nat.eqb c c_some then Some a else None
  | EBlock _ [] (Some a) => get_some_expr a
  | _ => None
  end.
(** manual_map.rs:36-74 [check]. *)
Definition manual_map (e : expr) : option expr :=
  match check_with (fun _ a => option_map (fun a => (a, false)) (get_some_expr a)) e with
  | Some (r, by_ref, f) =>
      Some (EMeth TOption MMap (with_ref by_ref r) [match f with FPath p => AP p | FBody p b => AC [p] b end])
  | None => None
  end.

(** ** manual_filter *)
(** manual_filter.rs:43-56 [peels_blocks_incl_unsafe_opt], [peels_blocks_incl_unsafe]: one block without a label. *)
Definition unblock (e : expr) : option expr := match e with EBlock None [] t => t | _ => None end.
(** manual_filter.rs:65-77 [is_some_expr], [is_none_expr]. *)
Definition some_of (x : nat) (e : expr) : bool :=
  match unblock e with
  | Some a => match as_ctor c_some a with Some b => is_local x b | None => false end
  | None => false
  end.
Definition none_of (e : expr) : bool := match unblock e with Some a => is_none_expr a | None => false end.
(** manual_filter.rs:20-41 [get_cond_expr]. *)
Definition get_cond_expr (p : pat) (e : expr) : option (expr * bool) :=
  match match unblock e with Some a => a | None => e end, p with
  | EIf c a (Some b), PBind _ x _ =>
      if some_of x a && none_of b || none_of a && some_of x b
      then Some (match unblock c with Some c => c | None => c end, none_of a) else None
  | _, _ => None
  end.
(** manual_filter.rs:81-89 [add_ampersand_if_copy] puts `&` behind the first character of the text of the closure, which is
    its bar; when the text is the name of a function, the result is no name any more ([None]). *)
Definition add_ampersand (copy : bool) (f : closure) : option arg :=
  match f with
  | FBody p b => Some (AC [if copy then PRef p else p] b)
  | FPath p => if copy then None else Some (AP p)
  end.
Inductive text := Garbled | Expr (e : expr).
(** manual_filter.rs:190-229 [check]; [copy]: the Option has a Copy type. *)
Definition manual_filter (copy : bool) (e : expr) : option text :=
  match check_with get_cond_expr e with
  | Some (r, by_ref, f) =>
      Some match add_ampersand copy f with
           | Some a => Expr (EMeth TOption MFilter (with_ref by_ref r) [a])
           | None => Garbled
           end
  | None => None
  end.
(** manual_filter.rs:91-149 [check_and_then_method]: `o.and_then(|x| if c { Some(x) } else { None })`. *)
Definition manual_filter_and_then (copy : bool) (e : expr) : option expr :=
  match e with
  | EMeth TOption MAndThen r [AC [p] b] =>
      match get_cond_expr p b with
      | Some (c, negated) =>
          Some (EMeth TOption MFilter r [AC [if copy then PRef p else p] (if negated then ENot c else c)])
      | None => None
      end
  | _ => None
  end.

(** ** manual_unwrap_or, manual_unwrap_or_default *)
(** manual_unwrap_or.rs:20-34 [get_some]: what follows `@` is not looked at. *)
Definition get_some (p : pat) : option (rty * nat) :=
  match p with
  | PData (KCtor c) [PBind false x _] _ =>
      if Nat.eqb c c_some then Some (TOption, x) else if Nat.eqb c c_ok then Some (TResult, x) else None
  | _ => None
  end.
(** manual_unwrap_or.rs:36-57 [get_none]. *)
Definition get_none (p : pat) (allow_wildcard : bool) : bool :=
  match p with
  | PData (KCtor c) ps d =>
      (Nat.eqb c c_none && match ps, d with [], None => true | _, _ => false end) || Nat.eqb c c_err
  | PWild => allow_wildcard
  | _ => false
  end.
(** manual_unwrap_or.rs:59-76 [get_some_and_none_bodies], 203-246 [check_match], [check_if_let]:
    (type, scrutinee, variable, body, other body). *)
Definition some_and_none (e : expr) : option (rty * expr * nat * expr * expr) :=
  match e with
  | EMatch false r [(p, None, a); (q, None, b)] =>
      match get_some p with
      | Some (t, x) =>
          if get_none q true then Some (t, r, x, a, b)
          else if get_none p false
               then match get_some q with Some (t, x) => Some (t, r, x, b, a) | None => None end else None
      | None =>
          if get_none p false
          then match get_some q with Some (t, x) => Some (t, r, x, b, a) | None => None end else None
      end
  | EIfLet p r a (Some b) =>
      match get_some p with Some (t, x) => Some (t, r, x, peel_blocks a, peel_blocks b) | None => None end
  | _ => None
  end.
(** clippy_utils/src/lib.rs:666-696 [is_default_equivalent] on this language. *)
Fixpoint default_equivalent (e : expr) : bool :=
  match e with
  | EBool b => negb b
  | EInt z => Z.eqb z 0
  | EData (KTup | KArr) es => forallb default_equivalent es
  | EData (KCtor c) [] => Nat.eqb c c_none
  | ECall f [] => Nat.eqb f dflt
  | EBlock _ [] (Some a) => default_equivalent a
  | _ => false
  end.
(** clippy_utils/src/consts.rs [eval_local]: of the constants it knows, literals, tuples, arrays, negations and blocks. *)
Fixpoint constant (e : expr) : bool :=
  match e with
  | EInt _ | EBool _ => true
  | EData (KTup | KArr) es => forallb constant es
  | ENot a => constant a
  | EBlock _ [] (Some a) => constant a
  | _ => false
  end.
Definition is_bool_lit (e : expr) : bool := match e with EBool _ => true | _ => false end.
Definition unadjusted (e : expr) : bool := match e with EVar _ adj => negb adj | _ => true end.
(** manual_unwrap_or.rs:78-172 [handle]; [has_default]: the type of the payload has a Default and the lint about it is on. *)
Definition manual_unwrap_or (has_default : bool) (e : expr) : option expr :=
  match some_and_none e with
  | Some (t, r, x, a, b) =>
      if is_local x (peel_blocks a) then
        if has_default && default_equivalent (peel_blocks b)
        then Some (EMeth t (MUnwrapOrDefault (is_bool_lit (peel_blocks b))) r [])
        else if unadjusted a && constant b then Some (EMeth t MUnwrapOr r [AE (peel_blocks b)]) else None
      else None
  | None => None
  end.

(** ** manual_ok_err *)
(** manual_ok_err.rs:101-118 [is_ok_or_err]: (it is Ok, variable). *)
Definition ok_or_err (p : pat) : option (bool * nat) :=
  match p with
  | PData (KCtor c) [PBind false x None] _ =>
      if Nat.eqb c c_ok then Some (true, x) else if Nat.eqb c c_err then Some (false, x) else None
  | _ => None
  end.
(** manual_ok_err.rs:121-136 [is_some_ident].  Names are compared there; no other variable of that name can be between. *)
Definition some_ident (x : nat) (e : expr) : bool :=
  match as_ctor c_some (peel_blocks e) with Some a => is_local x a | None => false end.
(** manual_ok_err.rs:74-98 [is_variant_or_wildcard]. *)
Fixpoint variant_or_wildcard (p : pat) (can_be_wild must_match_err : bool) : bool :=
  match p with
  | PWild | PBind _ _ None | PData (KCtor _) [] None => can_be_wild
  | PData (KCtor c) _ _ => Bool.eqb (Nat.eqb c c_err) must_match_err
  | PBind _ _ (Some q) | PRef q => variant_or_wildcard q can_be_wild must_match_err
  | _ => false
  end.
Definition ok_arm (p : pat) (a : expr) : option bool :=
  match ok_or_err p with Some (ok, x) => given (some_ident x a) (Some ok) | None => None end.
(** manual_ok_err.rs:20-70 [check_if_let], [check_match], 138-168 [apply_lint]. *)
Definition manual_ok_err (e : expr) : option expr :=
  let sugg r (ok : bool) := EMeth TResult (if ok then MOk else MErr) r [] in
  match e with
  | EIfLet p r a (Some b) =>
      match ok_arm p a with Some ok => given (none_body b) (Some (sugg r ok)) | None => None end
  | EMatch false r [(p, None, a); (q, None, b)] =>
      match ok_arm p a with
      | Some ok => given (variant_or_wildcard q true ok && none_body b) (Some (sugg r ok))
      | None =>
          match ok_arm q b with
          | Some ok => given (variant_or_wildcard p false ok && none_body a) (Some (sugg r ok))
          | None => None
          end
      end
  | _ => None
  end.

(** ** option_if_let_else *)
(** option_if_let_else.rs:370-384 [is_none_or_err_arm]. *)
Definition none_or_err (p : pat) : bool :=
  match p with
  | PData (KCtor c) [] None => Nat.eqb c c_none
  | PData (KCtor c) [PWild] _ => Nat.eqb c c_err
  | PWild => true
  | _ => false
  end.
(** option_if_let_else.rs:323-368 [detect_option_if_let_else], [detect_option_match], [try_convert_match]. *)
Definition convert (e : expr) : option (pat * expr * expr * expr) :=
  match e with
  | EIfLet p r a (Some b) => Some (p, r, a, b)
  | EMatch false r [(p, None, a); (q, None, b)] =>
      if none_or_err q then Some (p, r, a, b) else if none_or_err p then Some (q, r, b, a) else None
  | _ => None
  end.
(** option_if_let_else.rs:305-318 [try_get_inner_pat_and_is_result]. *)
Definition inner_pat (p : pat) : option (pat * bool) :=
  match p with
  | PData (KCtor c) [q] _ => if Nat.eqb c c_some then Some (q, false) else if Nat.eqb c c_ok then Some (q, true) else None
  | _ => None
  end.
(** [switch_to_eager_eval]; a call of a constructor without arguments, written `C()`, is [ECallPath]. *)
Definition eager_call (e : expr) : bool := eager e || match e with ECallPath (PCtor _) [] => true | _ => false end.
(** option_if_let_else.rs:118-245 [try_get_option_occurrence], 386-416 [check_expr].  A function that is not called has no
    value but [VFn]: it is written as a closure. *)
Definition option_if_let_else (e : expr) : option expr :=
  match convert e with
  | Some (p, r, a, b) =>
      match inner_pat p with
      | Some (PBind by_ref x None, is_result) =>
          if movable [] a && movable [] b then
            let some_body := peel_blocks a in
            let other := peel_blocks b in
            let t := if is_result then TResult else TOption in
            let r' := if by_ref then EMeth t MAsRef r [] else r in
            let func := if is_result then None
                        else match other with ECall f [] => Some (PFn f) | ECallPath p [] => Some p | _ => None end in
            let some_fn := AC [PBind false x None] some_body in
            Some (if eager_call other
                  then EMeth t MMapOr r' [AE match func with Some _ => EClosure [] other | None => other end; some_fn]
                  else EMeth t MMapOrElse r'
                         [match func with Some f => AP f | None => AC (if is_result then [PWild] else []) other end; some_fn])
          else None
      | _ => None
      end
  | None => None
  end.

(** ** if_then_some_else_none *)
(** if_then_some_else_none.rs:64-140 [check_expr]; statements before the value stay in front of it. *)
Definition if_then_some_else_none (e : expr) : option expr :=
  match e with
  | EIf c (EBlock None ss (Some te)) (Some b) =>
      match as_ctor c_some te with
      | Some a =>
          if none_body b && negb (contains_return (EBlock None ss (Some te))) then
            let body := match ss with [] => a | _ => EBlock None ss (Some a) end in
            Some (if eager e then EMeth TBool MThenSome c [AE body] else EMeth TBool MThen c [AC [] body])
          else None
      | None => None
      end
  | _ => None
  end.
