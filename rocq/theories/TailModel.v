(** Model of the lints about `return`, `let` in front of a result, and the `?` operator
    (/repo/clippy_lints/src/returns/needless_return.rs, let_and_return.rs, needless_return_with_question_mark.rs,
    /repo/clippy_lints/src/question_mark.rs), on the language of CloSpec.

    A lint is a function from an expression to the suggested expression, or to all expressions suggested for parts of it.
    Not modelled: spans and texts, macros, attributes, minimal Rust versions, scrutinees that are references, and conditions
    that only make a lint quieter (temporaries and borrows, uses of the variable afterwards, constants, `try` blocks). *)
From Verif Require Export MatModel.

Definition unit_e : expr := EData KTup [].

(** ** needless_return *)
Section Tail.
  (** Whether the type of an expression is a tuple. *)
  Variable tuple : expr -> bool.
  (** needless_return.rs:113-217 [check_final_expr], and 79-111 [check_block_return] in the last cases.  The results are what
      the expression becomes by each of the suggestions; [None] stands for nothing.  [repl] is [RetReplacement], [mt] whether
      the type of the match around is a tuple.  That a statement without a semicolon ends a block does not arise: the parser
      makes it the value of the block. *)
  Fixpoint final_expr (repl : option expr) (mt : option bool) (e : expr) {struct e} : list (option expr) :=
    match e with
    | ERet (Some a) => [Some a]
    | ERet None => match mt with Some true => [Some unit_e] | Some false => [] | None => [repl] end
    | EIf c a b =>
        map (option_map (fun a' => EIf c a' b)) (match a with EBlock _ _ _ => final_expr None None a | _ => [] end) ++
        match b with Some b => map (fun b' => Some (EIf c a b')) (final_expr None mt b) | None => [] end
    | EIfLet p c a b =>
        map (option_map (fun a' => EIfLet p c a' b)) (match a with EBlock _ _ _ => final_expr None None a | _ => [] end) ++
        match b with Some b => map (fun b' => Some (EIfLet p c a b')) (final_expr None mt b) | None => [] end
    | EMatch false r arms =>
        (fix go (before arms : list (pat * option expr * expr)) {struct arms} : list (option expr) :=
           match arms with
           | [] => []
           | (p, g, b) :: arms =>
               map (option_map (fun b' => EMatch false r (rev before ++ (p, g, b') :: arms)))
                   (final_expr (Some unit_e) (Some (tuple e)) b) ++
               go ((p, g, b) :: before) arms
           end) [] arms
    | EBlock l ss (Some t) => map (fun t' => Some (EBlock l ss t')) (final_expr None None t)
    | EBlock l ss None =>
        (fix go (before ss : list stmt) {struct ss} : list (option expr) :=
           match ss with
           | [] => []
           | SSemi a :: ss =>
               match ss with
               | [] => map (fun a' => Some (EBlock l (rev before) a')) (final_expr None None a)
               | _ => go (SSemi a :: before) ss
               end
           | x :: ss => go (x :: before) ss
           end) [] ss
    | _ => []
    end.
  (** needless_return.rs:79-111 [check_block_return]. *)
  Definition block_return (e : expr) : list (option expr) :=
    match e with EBlock _ _ _ => final_expr None None e | _ => [] end.
  (** needless_return.rs:57-76 [check_fn]. *)
  Definition needless_return_fn (e : expr) : list (option expr) := block_return e.
  Definition needless_return_closure (e : expr) : list (option expr) :=
    final_expr (match e with ERet None => Some (EBlock None [] None) | _ => None end) None e.
End Tail.

(** ** let_and_return *)
(** let_and_return.rs:16-65 [check_block]; only where the returned variable is not adjusted (else the initializer gets
    `as _`). *)
Fixpoint let_last (x : nat) (ss : list stmt) : option (list stmt * expr) :=
  match ss with
  | [] => None
  | [SLet (PBind _ y _) (Some i) None] => if Nat.eqb x y then Some ([], i) else None
  | a :: ss => match let_last x ss with Some (ss, i) => Some (a :: ss, i) | None => None end
  end.
Definition let_and_return (e : expr) : option expr :=
  match e with
  | EBlock l ss (Some (EVar x false)) =>
      match let_last x ss with Some (ss, i) => Some (EBlock l ss (Some i)) | None => None end
  | _ => None
  end.

(** ** needless_return_with_question_mark *)
(** needless_return_with_question_mark.rs:12-45 [check_stmt]. *)
Definition return_question_mark (s : stmt) : option stmt :=
  match s with
  | SSemi (ERet (Some (EMatch true (EData (KCtor c) [a]) arms))) =>
      if Nat.eqb c c_err then Some (SSemi (EMatch true (EData (KCtor c) [a]) arms)) else None
  | _ => None
  end.

(** ** question_mark *)
(** The function behind `Into::into`. *)
Definition into : nat := 1.
(** `r?`; [conv]: the error is converted. *)
Definition try_conv (conv : bool) (t : rty) (x : nat) (r : expr) : expr :=
  match t, conv with
  | TResult, true =>
      EMatch true r
        [(PData (KCtor c_ok) [PBind false x None] None, None, EVar x false);
         (PData (KCtor c_err) [PBind false x None] None, None,
          ERet (Some (EData (KCtor c_err) [ECall into [EVar x false]])))]
  | _, _ => try_expr t x r
  end.
(** clippy_utils/src/lib.rs:1261-1289 [peel_blocks_with_stmt]. *)
Fixpoint peel_stmt (e : expr) : expr :=
  match e with
  | EBlock _ [] (Some a) | EBlock _ [SExpr a] None | EBlock _ [SSemi a] None => peel_stmt a
  | _ => e
  end.
Definition is_ret (e : expr) : bool := match e with ERet _ => true | _ => false end.

(** question_mark.rs:101-117 [find_let_else_ret_expression]. *)
Definition let_else_ret (e : expr) : option expr :=
  match e with
  | EBlock _ [] (Some a) => Some a
  | EBlock _ [SSemi (ERet a)] _ => Some (ERet a)
  | _ => None
  end.
(** clippy_utils/src/lib.rs:2921-2940 [pat_and_expr_can_be_question_mark], but for [is_refutable]. *)
Definition some_else_none (p : pat) (ret : expr) : option pat :=
  match p, peel_blocks ret with
  | PData (KCtor c) [q] _, ERet (Some a) => given (Nat.eqb c c_some && is_none_expr a) (Some q)
  | _, _ => None
  end.
Section Try.
  (** [fresh] is the variable of the desugaring of `?`; [irrefutable] what the type checker says about patterns. *)
  Variable fresh : nat.
  Variable irrefutable : pat -> bool.
  (** question_mark.rs:119-203 [check_let_some_else_return_none]. *)
  Definition let_else_question (s : stmt) : option stmt :=
    match s with
    | SLet p (Some i) (Some els) =>
        match let_else_ret els with
        | Some ret =>
            match some_else_none p ret with
            | Some q =>
                if irrefutable q then
                  Some match q with
                       | PBind true x sub =>
                           SLet (PBind false x match sub with
                                               | Some (PBind true y None) => Some (PBind false y None)
                                               | Some q => Some (PRef q)
                                               | None => None
                                               end)
                             (Some (try_expr TOption fresh (EMeth TOption MAsRef i []))) None
                       | _ => SLet q (Some (try_expr TOption fresh i)) None
                       end
                else None
            | None => None
            end
        | None => None
        end
    | _ => None
    end.

  (** question_mark.rs:241-273 [expr_return_none_or_err]; [peeled]: blocks have been removed from the expression.  [name]
      gives the name of a variable. *)
  Variable name : nat -> nat.
  Fixpoint return_bad (t : rty) (cond : expr) (err : option nat) (peeled : bool) (e : expr) {struct e} : bool :=
    match e with
    | EBlock _ [] (Some a) | EBlock _ [SExpr a] None | EBlock _ [SSemi a] None => return_bad t cond err true a
    | ERet (Some a) => return_bad t cond err false a
    | EData (KCtor c) [] => match t with TOption => Nat.eqb c c_none | _ => false end
    | EVar x false =>
        match t, cond with TResult, EVar y false => Nat.eqb x y && negb peeled | _, _ => false end
    | EData (KCtor c) [EVar x false] =>
        match t, err with TResult, Some y => Nat.eqb c c_err && Nat.eqb (name x) (name y) | _, _ => false end
    | _ => false
    end.
  Definition same_var (a b : expr) : bool :=
    match a, b with EVar x false, EVar y false => Nat.eqb x y | _, _ => false end.
  (** question_mark.rs:205-214, 290-326 [check_is_none_or_err_and_early_return]; [by_ref]: the type is not Copy.  Of equal
      expressions only variables are modelled. *)
  Definition question_if_is (by_ref : bool) (e : expr) : option expr :=
    match e with
    | EIf (EMeth t MIsBad r []) a b =>
        if return_bad t r None false a then
          match b with
          | Some b =>
              if same_var r (peel_blocks b) then Some (EData (KCtor c_some) [try_expr t fresh r]) else None
          | None =>
              let by_ref := by_ref && match r with ECall _ _ | ECallPath _ _ | EMeth _ _ _ _ => false | _ => true end in
              Some (EBlock None [SSemi (try_expr t fresh (if by_ref then EMeth t MAsRef r [] else r))] None)
          end
        else None
    | _ => None
    end.

  (** question_mark.rs:215-238 [is_early_return] of an `if let`, 517-590 [check_if_let_some_or_err_and_early_return]; [semi]:
      the value is not used or of type unit. *)
  Definition question_if_let (semi : bool) (e : expr) : option expr :=
    match e with
    | EIfLet (PData (KCtor c) [PBind by_ref x None] None) r a b =>
        let is_option := Nat.eqb c c_some && opt_some (return_bad TOption r None false) b in
        let is_result :=
          Nat.eqb c c_ok && opt_some (return_bad TResult r (Some x) false) b
          || Nat.eqb c c_err && return_bad TResult r (Some x) false a && match b with None => true | Some _ => false end in
        let t := if is_option then TOption else TResult in
        if (is_option || is_result) && opt_all (fun b => negb (same_var r (peel_blocks b))) b
           && negb (is_option && opt_some (fun b => negb (is_ret (peel_stmt b))) b)
        then
          if negb is_option || is_local x (peel_blocks a)
          then
            let q := try_expr t fresh (if by_ref then EMeth t MAsRef r [] else r) in
            Some (if semi then EBlock None [SSemi q] None else q)
          else
            match a with
            | EBlock None ss v => Some (EBlock None (SLet (PBind by_ref x None) (Some (try_expr t fresh r)) None :: ss) v)
            | _ => None
            end
        else None
    | _ => None
    end.

  (** question_mark.rs:346-360 [extract_ctor_call], [extract_binding_pat]. *)
  Definition ctor_binding (c : nat) (p : pat) : option (bool * nat) :=
    match p with PData (KCtor d) [PBind r x None] _ => given (Nat.eqb c d) (Some (r, x)) | _ => None end.
  (** question_mark.rs:372-398 [check_arm_is_some_or_ok]: [None] is [DirectReturn]. *)
  Definition arm_good (t : rty) (arm : pat * option expr * expr) : option (option (bool * nat * expr)) :=
    match arm with
    | (p, None, b) =>
        match ctor_binding (good_ctor t) p with
        | Some (r, x) => Some (if is_local x (peel_blocks b) then None else Some (r, x, b))
        | None => None
        end
    | _ => None
    end.
  (** question_mark.rs:400-438 [check_arm_is_none_or_err], 440-452 [is_local_or_local_into]: whether the error is converted. *)
  Definition arm_bad (t : rty) (arm : pat * option expr * expr) : option bool :=
    match arm with
    | (p, None, b) =>
        match t, p, peel_blocks b with
        | TResult, _, ERet (Some (EData (KCtor c) [a])) =>
            match ctor_binding c_err p with
            | Some (_, x) =>
                if Nat.eqb c c_err then
                  match a with
                  | ECall f [EVar y false] => if Nat.eqb f into && Nat.eqb x y then Some true else None
                  | EVar y false => if Nat.eqb x y then Some false else None
                  | _ => None
                  end
                else None
            | None => None
            end
        | TOption, PData (KCtor c) [] None, ERet (Some a) =>
            if Nat.eqb c c_none && is_none_expr a then Some false else None
        | _, _, _ => None
        end
    | _ => None
    end.
  (** question_mark.rs:454-463 [check_arms_are_try], 473-515 [check_if_try_match]. *)
  Definition question_match (t : rty) (e : expr) : option expr :=
    match e with
    | EMatch false r [a; b] =>
        match match arm_bad t b, arm_good t a with
              | Some conv, then_ => Some (conv, then_)
              | None, _ => match arm_bad t a with Some conv => Some (conv, arm_good t b) | None => None end
              end with
        | Some (conv, Some None) => Some (try_conv conv t fresh r)
        | Some (conv, Some (Some (by_ref, x, b))) =>
            let bind := SLet (PBind by_ref x None) (Some (try_conv conv t fresh r)) None in
            Some match b with
                 | EBlock None ss v => EBlock None (bind :: ss) v
                 | _ => EBlock None [bind] (Some b)
                 end
        | _ => None
        end
    | _ => None
    end.
End Try.
