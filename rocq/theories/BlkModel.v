(** Model of the lints about blocks, `if`, `let`, loops, assignments and `continue`: what each of them puts in place of the code
    it warns about.  Guards about macros, comments, attributes and configuration, which only keep the lints quiet, are not
    modelled, nor are those about drop order: values here are not dropped.  What the compiler knows about types comes in as
    [ty_never]: the expressions whose type is `!`. *)
From Verif Require Import BlkSpec.

(** ** Conditions.  [body]: the block after them; [on_body]: the same conditions with another block; [tests]: none is a `let`
    (higher.rs:74-82, `has_let_expr`); [link]: there are more conditions. *)
Definition link (e : ex) : bool := match e with XTest _ _ | XBind _ _ _ => true | _ => false end.
Fixpoint body (k : ex) : ex := match k with XTest _ k => body k | XBind _ _ k => body k | b => b end.
Fixpoint on_body (g : ex -> ex) (k : ex) : ex :=
  match k with XTest a k => XTest a (on_body g k) | XBind p a k => XBind p a (on_body g k) | b => g b end.
Fixpoint tests (k : ex) : bool := match k with XTest _ k => tests k | XBind _ _ _ => false | _ => true end.
Fixpoint conj (k : ex) : ex := match k with XTest a k => if link k then XAnd a (conj k) else a | b => b end.
Fixpoint cond_uses (x : nat) (k : ex) : bool :=
  match k with
  | XTest a k => uses x a || cond_uses x k
  | XBind p a k => uses x a || negb (mem x (pvars p)) && cond_uses x k
  | _ => false end.
Fixpoint cond_vars (k : ex) : list nat :=
  match k with XTest _ k => cond_vars k | XBind p _ k => pvars p ++ cond_vars k | _ => [] end.
Definition is_unit (e : ex) : bool := match e with XVal VUnit => true | _ => false end.
Definition is_if (e : ex) : bool := match e with XIf _ _ | XWhen _ => true | _ => false end.
Fixpoint peel (e : ex) : ex := match e with XBrace a => peel a | e => e end.

(** The statements of block [b], then [r] (text after text: the names `let` brings in [b] stay in scope in [r]). *)
Fixpoint app (b r : ex) : ex :=
  match b with
  | XSeq a b => XSeq a (app b r)
  | XLet p a b => XLet p a (app b r)
  | XDecl x b => XDecl x (app b r)
  | XLetElse p a d b => XLetElse p a d (app b r)
  | t => XSeq t r end.
(** Whether a statement of the block is a `let`. *)
Fixpoint has_let (b : ex) : bool :=
  match b with XSeq _ b => has_let b | XLet _ _ _ | XDecl _ _ | XLetElse _ _ _ _ => true | _ => false end.
Fixpoint let_vars (b : ex) : list nat :=
  match b with
  | XSeq _ b => let_vars b
  | XLet p _ b | XLetElse p _ _ b => pvars p ++ let_vars b
  | XDecl x b => x :: let_vars b
  | _ => [] end.

(** ** collapsible_if.rs.  [expr_block], lines 300-306; [eligible_condition], 219-221: [chains] is whether `let` may be combined
    with other conditions. *)
Definition eligible (chains : bool) (k : ex) : bool := match k with XBind _ _ k => link k || chains | _ => true end.
Definition inner_if (b : ex) : option ex :=
  match b with XWhen k => Some k | XSeq (XWhen k) t => if is_unit t then Some k else None | _ => None end.
(** [check_collapsible_if_if], 168-217, 278-282: `if k { if k2 .. }`. *)
Definition collapsible_if (chains : bool) (e : ex) : option ex :=
  match e with
  | XWhen k => if eligible chains k then
      match inner_if (body k) with
      | Some k2 => if eligible chains k2 then Some (XWhen (on_body (fun _ => k2) k)) else None
      | None => None end else None
  | _ => None end.
(** [single_inner_if_else], 286-296. *)
Definition single_inner (b : ex) : bool :=
  match b with XIf _ _ => true | XSeq (XIf _ _) t => is_unit t | _ => false end.
(** [check_collapsible_else_if], 97-166, 268-277: `if .. else { if .. }`; the braces go, and with them a `;`. *)
Definition collapsible_else_if (e : ex) : option ex :=
  match e with
  | XIf k (XBrace b) => if single_inner (body k) && single_inner b then None else
      match b with
      | XIf _ _ | XWhen _ => Some (XIf k b)
      | XSeq c t => if is_if c && is_unit t then Some (XIf k c) else None
      | _ => None end
  | _ => None end.

(** ** needless_else.rs:39-60. *)
Definition needless_else (e : ex) : option ex :=
  match e with XIf k d => if is_unit (peel d) then Some (XWhen k) else None | _ => None end.
(** ** needless_ifs.rs:40-83.  [effects]: `can_have_side_effects`, of the compiler. *)
Definition needless_ifs (effects : ex -> bool) (e : ex) : option ex :=
  match e with
  | XSeq (XWhen k) r =>
      if link k && tests k && is_unit (body k) then Some (if effects (conj k) then XSeq (conj k) r else r) else None
  | _ => None end.
(** ** if_not_else.rs:52-136. *)
Definition is_zero (e : ex) : bool := match e with XVal (VInt z) => (z =? 0)%Z | _ => false end.
Definition if_not_else (e : ex) : option ex :=
  match e with
  | XIf (XTest c a) b => if link a || is_if b then None else
      match c with
      | XNot c => Some (XIf (XTest c b) a)
      | XBin ONe l r => if is_zero r then None else Some (XIf (XTest (XBin OEq l r) b) a)
      | _ => None end
  | _ => None end.
(** ** blocks_in_conditions.rs:55-152.  [res]: the name `res`.  [contains_return]: `contains_return` of clippy_utils. *)
Fixpoint contains_return (e : ex) : bool :=
  match e with
  | XRet _ => true
  | XVal _ | XCnt _ | XVar _ | XLen _ | XIsEmpty _ | XPop _ | XSwap _ _ => false
  | XCall _ a b | XBin _ a b | XAnd a b | XOr a b | X2 _ a b | XEnum a b | XSeq a b | XIf a b | XTest a b | XAsgIdx _ a b
  | XOpIdx _ _ a b | XSwapIdx _ a b | XLet _ a b | XBind _ a b | XFor _ _ a b => contains_return a || contains_return b
  | XNot a | X1 _ a | XArr a | XUnwrap a | XBrace a | XWhen a | XLoop _ a | XWhile _ a | XBlk _ a | XBrk _ a | XIdx _ a
  | XAsg _ a | XAsgOp _ _ a | XDecl _ a => contains_return a
  | XLetElse _ a d b | XMatch a _ d _ b => contains_return a || contains_return d || contains_return b
  end.
Definition has_stmts (b : ex) : bool :=
  match b with XSeq _ _ | XLet _ _ _ | XDecl _ _ | XLetElse _ _ _ _ => true | _ => false end.
(** Lines 79-112: the braces around a condition go. *)
Definition braced (c : ex) : option ex :=
  match c with XBrace a => if has_stmts a || contains_return a then None else Some a | _ => None end.
Definition blocks_in_conditions_braces (e : ex) : option ex :=
  match e with
  | XIf (XTest c a) b => if link a then None else option_map (fun c => XIf (XTest c a) b) (braced c)
  | XWhen (XTest c a) => if link a then None else option_map (fun c => XWhen (XTest c a)) (braced c)
  | XMatch c p a q b => option_map (fun c => XMatch c p a q b) (braced c)
  | _ => None end.
(** Lines 113-150: a block with statements is moved before the `if` or `match` and bound to `res`; [r] is what follows. *)
Definition stmt_block (c : ex) : bool := match c with XBrace a => has_stmts a | _ => false end.
Definition cond_to_let (res : nat) (e : ex) : option (ex * ex) :=
  match e with
  | XIf (XTest c a) b => if link a || negb (stmt_block c) then None else Some (c, XIf (XTest (XVar res) a) b)
  | XWhen (XTest c a) => if link a || negb (stmt_block c) then None else Some (c, XWhen (XTest (XVar res) a))
  | XMatch c p a q b => if stmt_block c then Some (c, XMatch (XVar res) p a q b) else None
  | _ => None end.
Definition blocks_in_conditions_let (res : nat) (e : ex) : option ex :=
  match e with
  | XSeq i r => match cond_to_let res i with Some (c, i') => Some (XLet (PVar res) c (XSeq i' r)) | None => None end
  | i => match cond_to_let res i with Some (c, i') => Some (XLet (PVar res) c i') | None => None end end.

Section Never.
Variable ty_never : ex -> bool.
(** ** redundant_else.rs.  [is_never_root], 137-158.  A block with a last expression is judged by it; `if` and `match` by their branches;
    calls, operators, loops and the rest of the blocks by their type. *)
Fixpoint is_never_root (e : ex) : bool :=
  match e with
  | XBrk _ _ | XCnt _ | XRet _ => true
  | XBrace b => is_never_root b
  | XSeq _ b | XLet _ _ b | XDecl _ b | XLetElse _ _ _ b => if is_unit b then ty_never e else is_never_root b
  | XMatch _ _ a _ b => is_never_root a && is_never_root b
  | XIf k b => is_never_root k && is_never_root b
  | XTest _ k | XBind _ _ k => is_never_root k
  | XCall _ _ _ | XBin _ _ _ | XNot _ | XVar _ | XLoop _ _ | XWhile _ _ | XBlk _ _ | XUnwrap _ => ty_never e
  | _ => false end.
(** [check], 64-113: the `if`s of the chain without the last `else`, and what was in it. *)
Fixpoint split_else (e : ex) : option (ex * ex) :=
  match e with
  | XIf k d => if is_never_root (body k) then
      match d with
      | XIf _ _ => match split_else d with Some (d', b) => Some (XIf k d', b) | None => None end
      | XWhen _ => None
      | XBrace b => Some (XWhen k, b)
      | b => Some (XWhen k, b) end else None
  | _ => None end.
(** At the end of a block (lines 51-55), and as a statement with [r] after it (57-61). *)
Definition redundant_else_tail (e : ex) : option ex :=
  match split_else e with Some (i, b) => Some (XSeq i b) | None => None end.
Definition redundant_else_stmt (e : ex) : option ex :=
  match e with
  | XSeq i r => match split_else i with Some (i', b) => Some (XSeq i' (app b r)) | None => None end
  | _ => None end.
(** Whether the suggestion is marked as one to be applied by a program (lines 104-108). *)
Definition redundant_else_applicable (e : ex) : bool :=
  match e with XSeq i _ => match split_else i with Some (_, b) => negb (has_let b) | None => false end | _ => false end.

(** ** needless_late_init.rs.  [give x b]: block [b] with its last statement or expression, an assignment to [x], replaced by what is assigned:
    [LocalAssign::new], 221-237, [LocalAssignGroup::new], 308-347, for groups of one assignment; [grouped]: the statement before is
    another assignment of the group (313-334). *)
Definition grouped (x : nat) (a b : ex) : bool :=
  match b with
  | XSeq (XAsg _ v) t => is_unit t && match a with XAsg y _ => negb (y =? x) && negb (uses y v) | _ => false end
  | _ => false end.
Fixpoint give (x : nat) (b : ex) : option ex :=
  match b with
  | XAsg y v => if y =? x then Some v else None
  | XSeq a b' =>
      if is_unit b' then match a with XAsg y v => if y =? x then Some v else None | _ => None end
      else if grouped x a b' then None else option_map (XSeq a) (give x b')
  | XLet p a b' => if mem x (pvars p) then None else option_map (XLet p a) (give x b')
  | XDecl y b' => if y =? x then None else option_map (XDecl y) (give x b')
  | XLetElse p a d b' => if mem x (pvars p) then None else option_map (XLetElse p a d) (give x b')
  | _ => None end.
(** The loop of [check_if_or_match], 91-113: a branch of type `!` stays; the flag says whether there is an assignment. *)
Definition branch (x : nat) (b : ex) : option (ex * bool) :=
  if ty_never b then Some (b, false) else match give x b with Some b' => Some (b', true) | None => None end.
(** In the scope of pattern [p]. *)
Definition arm (x : nat) (p : pat) (b : ex) : option (ex * bool) :=
  if mem x (pvars p) && negb (ty_never b) then None else branch x b.
(** The branches of an `if` chain, [check_local] 426-438. *)
Fixpoint arms (x : nat) (e : ex) : option (ex * bool) :=
  match e with
  | XIf k d => if tests k then
      match branch x (body k), arms x d with
      | Some (b', f), Some (d', g) => Some (XIf (on_body (fun _ => b') k) d', f || g)
      | _, _ => None end else None
  | b => branch x b end.
(** [check_local], 391-442, with [check_if_or_match], 128-187: statement [a], the first with [x] in it, followed by [r]. *)
Definition late_usage (x : nat) (a r : ex) : option ex :=
  match a with
  | XAsg y v => if y =? x then Some (XLet (PVar x) v r) else None
  | XIf _ _ => match arms x a with Some (a', true) => Some (XLet (PVar x) a' r) | _ => None end
  | XMatch c p b q d =>
      match arm x p b, arm x q d with
      | Some (b', f), Some (d', g) => if f || g then Some (XLet (PVar x) (XMatch c p b' q d') r) else None
      | _, _ => None end
  | _ => None end.
(** [first_usage], 247-285: the first statement that uses [x]; where that is a `let`, the last expression of the block. *)
Fixpoint late_tail (x : nat) (b : ex) : option ex :=
  match b with
  | XSeq a b => option_map (XSeq a) (late_tail x b)
  | XLet p a b => if mem x (pvars p) then None else option_map (XLet p a) (late_tail x b)
  | XDecl y b => if y =? x then None else option_map (XDecl y) (late_tail x b)
  | XLetElse p a d b => if mem x (pvars p) then None else option_map (XLetElse p a d) (late_tail x b)
  | t => if uses x t then late_usage x t (XVal VUnit) else None end.
Fixpoint late (x : nat) (b : ex) : option ex :=
  match b with
  | XSeq a r => if uses x a then late_usage x a r else option_map (XSeq a) (late x r)
  | XLet p a r => if uses x a then late_tail x b else if mem x (pvars p) then None else option_map (XLet p a) (late x r)
  | XDecl y r => if y =? x then None else option_map (XDecl y) (late x r)
  | XLetElse p a d r =>
      if uses x a || uses x d then late_tail x b else if mem x (pvars p) then None else option_map (XLetElse p a d) (late x r)
  | t => if uses x t then late_usage x t (XVal VUnit) else None end.
Definition needless_late_init (e : ex) : option ex := match e with XDecl x b => late x b | _ => None end.

(** ** manual_let_else.rs.  [never]: [is_never_expr] of clippy_utils, here what the types say.  [expr_simple_identity_map], 406-451, for a
    path; [replace_in_pattern], 219-338. *)
Fixpoint replace_in (y : nat) (p q : pat) : pat :=
  match q with
  | PVar z => if z =? y then p else PVar z
  | P1 c q => P1 c (replace_in y p q)
  | P2 c q r => P2 c (replace_in y p q) (replace_in y p r)
  | q => q end.
Definition let_else (p q : pat) (e b d r : ex) : option ex :=
  match peel b with XVar y => if mem y (pvars q) then Some (XLetElse (replace_in y p q) e d r) else None | _ => None end.
(** [is_enum_variant], 131-153, for [is_arms_disjointed], 120-127. *)
Definition simple_pat (p : pat) : bool := match p with PWild | PVar _ => true | _ => false end.
Definition is_variant (p : pat) : bool :=
  match p with P0 _ => true | P1 _ p => simple_pat p | P2 _ p q => simple_pat p && simple_pat q | _ => false end.
Definition no_vars (p : pat) : bool := match pvars p with [] => true | _ => false end.
(** [check_stmt], 62-113. *)
Definition manual_let_else (e : ex) : option ex :=
  match e with
  | XLet p (XIf (XBind q e b) d) r => if negb (link b) && ty_never d then let_else p q e b d r else None
  | XLet p (XMatch e q1 b1 q2 b2) r =>
      if ty_never b1 && no_vars q1 then
        if is_variant q1 && is_variant q2 then let_else p q2 e b2 b1 r else None
      else if ty_never b2 && no_vars q2 then let_else p q1 e b1 b2 r else None
  | _ => None end.
End Never.

(** ** let_if_seq.rs.  [check_assign], 147-171. *)
Fixpoint check_assign (x : nat) (b : ex) : option ex :=
  match b with
  | XSeq a b' =>
      if is_unit b' then match a with XAsg y v => if y =? x then Some v else None | _ => None end
      else if uses x a then None else option_map (XSeq a) (check_assign x b')
  | XLet p a b' => if uses x a || mem x (pvars p) then None else option_map (XLet p a) (check_assign x b')
  | XDecl y b' => if y =? x then None else option_map (XDecl y) (check_assign x b')
  | XLetElse p a d b' => if uses x a || uses x d || mem x (pvars p) then None else option_map (XLetElse p a d) (check_assign x b')
  | _ => None end.
(** The value assigned, at the end of what [check_assign] gives. *)
Fixpoint last_value (b : ex) : ex :=
  match b with XSeq _ b | XLet _ _ b | XDecl _ b | XLetElse _ _ _ b => last_value b | v => v end.
(** [check_block_inner], 75-145.  The `..` of the suggestion are the statements that were there. *)
Definition let_if (x : nat) (init i r : ex) : option ex :=
  match i with
  | XWhen k =>
      if cond_uses x k || mem x (cond_vars k) then None else
      match check_assign x (body k) with
      | Some b => if uses x (last_value b) then None else Some (XLet (PVar x) (XIf (on_body (fun _ => b) k) init) r)
      | None => None end
  | XIf k d =>
      if cond_uses x k || mem x (cond_vars k) || is_if d then None else
      match check_assign x (body k) with
      | Some b => if uses x (last_value b) then None else
          Some (XLet (PVar x) (XIf (on_body (fun _ => b) k) (match check_assign x d with Some d' => d' | None => app d init end)) r)
      | None => None end
  | _ => None end.
Definition useless_let_if_seq (e : ex) : option ex :=
  match e with
  | XLet (PVar x) init (XSeq i r) => let_if x init i r
  | XLet (PVar x) init i => let_if x init i (XVal VUnit)
  | _ => None end.

(** ** redundant_locals.rs:50-95: `let x = x;`.  [b] is a block in which [x] is declared, by a `let` with the same `mut`: what follows that `let`.
    Mutable variables are only looked at within the block they are declared in ([affects_assignments], 125-128). *)
Fixpoint drop_local (x : nat) (b : ex) : option ex :=
  match b with
  | XLet (PVar y) (XVar z) r => if (y =? x) && (z =? x) then Some r
      else if y =? x then None else option_map (XLet (PVar y) (XVar z)) (drop_local x r)
  | XLet p a r => if mem x (pvars p) then None else option_map (XLet p a) (drop_local x r)
  | XSeq a r => option_map (XSeq a) (drop_local x r)
  | XDecl y r => if y =? x then None else option_map (XDecl y) (drop_local x r)
  | XLetElse p a d r => if mem x (pvars p) then None else option_map (XLetElse p a d) (drop_local x r)
  | _ => None end.
Definition redundant_local (x : nat) (e : ex) : option ex :=
  match e with
  | XLet p a b => if mem x (pvars p) then option_map (XLet p a) (drop_local x b) else None
  | _ => None end.

(** ** loops/while_let_loop.rs.  [is_simple_break_block] and [is_simple_break_expr], 66-82. *)
Fixpoint simple_break (e : ex) : bool :=
  match e with
  | XBrk None v => is_unit v
  | XBrace b => simple_break b
  | XSeq s t => is_unit t && simple_break s
  | _ => false end.
(** [is_trivial_assignment], 139-148. *)
Definition trivial_assignment (p : pat) (e : ex) : bool :=
  match p, e with PWild, _ => true | PVar y, XVar z => y =? z | _, _ => false end.
(** The tests of [check], 39-63, on the first thing in the loop: the pattern, what it is matched with, and the branch that goes on. *)
Definition if_let_or_break (i : ex) : option (pat * ex * ex) :=
  match i with XIf (XBind p e b) d => if negb (link b) && simple_break d then Some (p, e, b) else None | _ => None end.
Definition match_or_break (i : ex) : option (pat * ex * ex) :=
  match i with XMatch e p b _ d => if simple_break d then Some (p, e, b) else None | _ => None end.
Definition let_or_break (i : ex) : option (pat * ex * ex) :=
  match if_let_or_break i with Some r => Some r | None => match_or_break i end.
(** [could_be_while_let], 84-137; `..` is what was in the loop. *)
Definition bound_body (py : pat) (b r : ex) : ex := if trivial_assignment py (peel b) then r else XLet py (peel b) r.
Definition while_let_loop (e : ex) : option ex :=
  match e with
  | XLoop l b =>
      match b with
      | XLet py i r => match let_or_break i with
          | Some (p, e, b) => Some (XWhile None (XBind p e (bound_body py b r))) | None => None end
      | XLetElse py i d r => match if_let_or_break i with
          | Some (p, e, b) => Some (XWhile None (XBind p e (bound_body py b r)))
          | None => if simple_break d then Some (XWhile None (XBind py i r)) else
              match match_or_break i with Some (p, e, b) => Some (XWhile None (XBind p e (bound_body py b r))) | None => None end end
      | XSeq i r => match let_or_break i with
          | Some (p, e, b) => Some (XWhile None (XBind p e (XSeq b r))) | None => None end
      | i => match let_or_break i with
          | Some (p, e, b) => Some (XWhile None (XBind p e b)) | None => None end
      end
  | _ => None end.

(** ** loops/single_element_loop.rs:14-84, 137-148; `[e]` only; [contains_break_or_continue] of visitors.rs:842-851. *)
Fixpoint jumps (e : ex) : bool :=
  match e with
  | XBrk _ _ | XCnt _ => true
  | XVal _ | XVar _ | XLen _ | XIsEmpty _ | XPop _ | XSwap _ _ => false
  | XCall _ a b | XBin _ a b | XAnd a b | XOr a b | X2 _ a b | XEnum a b | XSeq a b | XIf a b | XTest a b | XAsgIdx _ a b
  | XOpIdx _ _ a b | XSwapIdx _ a b | XLet _ a b | XBind _ a b | XFor _ _ a b => jumps a || jumps b
  | XNot a | X1 _ a | XArr a | XUnwrap a | XBrace a | XWhen a | XLoop _ a | XWhile _ a | XBlk _ a | XRet a | XIdx _ a
  | XAsg _ a | XAsgOp _ _ a | XDecl _ a => jumps a
  | XLetElse _ a d b | XMatch a _ d _ b => jumps a || jumps d || jumps b
  end.
Definition single_element_loop (e : ex) : option ex :=
  match e with
  | XFor _ p (XArr a) b => if is_unit b || jumps b then None else Some (XBrace (XLet p a b))
  | _ => None end.

(** ** loops/manual_while_let_some.rs:61-105.  [elem]: the name `element`. *)
Definition pop_unwrap (x : nat) (e : ex) : bool := match e with XUnwrap (XPop y) => y =? x | _ => false end.
Definition manual_while_let_some (elem : nat) (e : ex) : option ex :=
  match e with
  | XWhile l (XTest (XNot (XIsEmpty x)) b) =>
      match b with
      | XLet p i r => if pop_unwrap x i then Some (XWhile l (XBind (P1 1 p) (XPop x) r)) else None
      | XSeq (XCall f a c) r =>
          if pop_unwrap x a then Some (XWhile l (XBind (P1 1 (PVar elem)) (XPop x) (XSeq (XCall f (XVar elem) c) r)))
          else if pop_unwrap x c then Some (XWhile l (XBind (P1 1 (PVar elem)) (XPop x) (XSeq (XCall f a (XVar elem)) r)))
          else None
      | _ => None end
  | _ => None end.

(** ** loops/utils.rs: [IncrementVisitor], 20-107, for the variable [i].  [on]: the name is that variable here; [pe]: the parent is an expression
    ([get_parent_expr], lib.rs:1128-1139).  The right sides of assignments are visited first, as `rustc` does. *)
Inductive vstate := Initial | IncrOnce | DontWarn.
Definition touch (s : vstate) : vstate := match s with IncrOnce => DontWarn | s => s end.
Definition is_one (e : ex) : bool := match e with XVal (VInt z) => (z =? 1)%Z | _ => false end.
Section Visit.
Variable i : nat.
Definition here (on : bool) (y : nat) : bool := on && (y =? i).
Definition use_of (on pe : bool) (y : nat) (s : vstate * nat) : vstate * nat :=
  if here on y && pe then (touch (fst s), snd s) else s.
Definition spoil (on : bool) (y : nat) (s : vstate * nat) : vstate * nat := if here on y then (DontWarn, snd s) else s.
Definition deeper (f : vstate * nat -> vstate * nat) (s : vstate * nat) : vstate * nat :=
  let r := f (fst s, S (snd s)) in (fst r, pred (snd r)).
Fixpoint visit (on pe : bool) (e : ex) (s : vstate * nat) {struct e} : vstate * nat :=
  match e with
  | XVal _ => s
  | XCnt _ => (fst s, S (snd s))
  | XVar y => use_of on pe y s
  | XLen y | XIsEmpty y => use_of on true y s
  | XPop y => spoil on y s
  | XCall _ a b | XBin _ a b | XAnd a b | XOr a b | X2 _ a b | XEnum a b => visit on true b (visit on true a s)
  | XNot a | X1 _ a | XArr a | XUnwrap a | XBrk _ a | XRet a => visit on true a s
  | XIdx y a => visit on true a (use_of on true y s)
  | XAsg y a => spoil on y (visit on true a s)
  | XAsgOp o y a =>
      let r := visit on true a s in
      if here on y then
        (match fst r, o with
         | Initial, OAdd => if is_one a && (snd r =? 0) then IncrOnce else DontWarn
         | _, _ => DontWarn end, snd r)
      else r
  | XAsgIdx y j a | XOpIdx _ y j a => spoil on y (visit on true j (visit on true a s))
  | XSwapIdx y j a => visit on true a (visit on true j (spoil on y s))
  | XSwap y z => spoil on z (spoil on y s)
  | XBrace a | XBlk _ a => visit on false a s
  | XSeq a b => visit on false b (visit on false a s)
  | XDecl y b => visit (on && negb (y =? i)) false b s
  | XLet p a b => visit (on && negb (mem i (pvars p))) false b (visit on false a s)
  | XLetElse p a d b => visit (on && negb (mem i (pvars p))) false b (deeper (visit on false d) (visit on false a s))
  | XIf k d => deeper (fun s => visit on false d (visit on false k s)) s
  | XWhen k => deeper (visit on false k) s
  | XTest a k => visit on false k (visit on true a s)
  | XBind p a k => visit (on && negb (mem i (pvars p))) false k (visit on true a s)
  | XMatch a p b q d => deeper (fun s => visit (on && negb (mem i (pvars q))) false d
      (visit (on && negb (mem i (pvars p))) false b (visit on true a s))) s
  | XLoop _ b => deeper (visit on false b) s
  | XWhile _ k => deeper (deeper (visit on false k)) s
  | XFor _ p a b => deeper (fun s => deeper (deeper (visit (on && negb (mem i (pvars p))) false b)) (visit on true a s)) s
  end.
(** The loop body without the increment, which goes with the counter. *)
Fixpoint strip (on : bool) (e : ex) : ex :=
  match e with
  | XVal _ | XCnt _ | XVar _ | XLen _ | XIsEmpty _ | XPop _ | XSwap _ _ => e
  | XAsgOp OAdd y a => if here on y && is_one a then XVal VUnit else XAsgOp OAdd y (strip on a)
  | XCall f a b => XCall f (strip on a) (strip on b)
  | XBin o a b => XBin o (strip on a) (strip on b)
  | XAnd a b => XAnd (strip on a) (strip on b)
  | XOr a b => XOr (strip on a) (strip on b)
  | X2 c a b => X2 c (strip on a) (strip on b)
  | XEnum a b => XEnum (strip on a) (strip on b)
  | XSeq a b => XSeq (strip on a) (strip on b)
  | XIf a b => XIf (strip on a) (strip on b)
  | XTest a b => XTest (strip on a) (strip on b)
  | XNot a => XNot (strip on a)
  | X1 c a => X1 c (strip on a)
  | XArr a => XArr (strip on a)
  | XUnwrap a => XUnwrap (strip on a)
  | XBrace a => XBrace (strip on a)
  | XWhen a => XWhen (strip on a)
  | XLoop l a => XLoop l (strip on a)
  | XWhile l a => XWhile l (strip on a)
  | XBlk l a => XBlk l (strip on a)
  | XBrk l a => XBrk l (strip on a)
  | XRet a => XRet (strip on a)
  | XIdx y a => XIdx y (strip on a)
  | XAsg y a => XAsg y (strip on a)
  | XAsgOp o y a => XAsgOp o y (strip on a)
  | XAsgIdx y a b => XAsgIdx y (strip on a) (strip on b)
  | XOpIdx o y a b => XOpIdx o y (strip on a) (strip on b)
  | XSwapIdx y a b => XSwapIdx y (strip on a) (strip on b)
  | XDecl y b => XDecl y (strip (on && negb (y =? i)) b)
  | XLet p a b => XLet p (strip on a) (strip (on && negb (mem i (pvars p))) b)
  | XBind p a b => XBind p (strip on a) (strip (on && negb (mem i (pvars p))) b)
  | XFor l p a b => XFor l p (strip on a) (strip (on && negb (mem i (pvars p))) b)
  | XLetElse p a d b => XLetElse p (strip on a) (strip on d) (strip (on && negb (mem i (pvars p))) b)
  | XMatch a p b q d => XMatch (strip on a) p (strip (on && negb (mem i (pvars p))) b) q (strip (on && negb (mem i (pvars q))) d)
  end.
Fixpoint has_loop (e : ex) : bool :=
  match e with
  | XLoop _ _ | XWhile _ _ | XFor _ _ _ _ => true
  | XVal _ | XCnt _ | XVar _ | XLen _ | XIsEmpty _ | XPop _ | XSwap _ _ => false
  | XCall _ a b | XBin _ a b | XAnd a b | XOr a b | X2 _ a b | XEnum a b | XSeq a b | XIf a b | XTest a b | XAsgIdx _ a b
  | XOpIdx _ _ a b | XSwapIdx _ a b | XLet _ a b | XBind _ a b => has_loop a || has_loop b
  | XNot a | X1 _ a | XArr a | XUnwrap a | XBrace a | XWhen a | XBlk _ a | XBrk _ a | XRet a | XIdx _ a
  | XAsg _ a | XAsgOp _ _ a | XDecl _ a => has_loop a
  | XLetElse _ a d b | XMatch a _ d _ b => has_loop a || has_loop d || has_loop b
  end.
(** [InitializeVisitor], 131-256, on what follows the `let` of the counter in its block: [init] is the last value given to it before the loop.
    An assignment to it that is not a statement of the block keeps the lint quiet here.  explicit_counter_loop.rs:18-125. *)
Fixpoint counter_loop (init b : ex) : option ex :=
  match b with
  | XSeq (XFor l p a c) r =>
      if negb (mem i (pvars p)) && match fst (visit true false c (Initial, 0)) with IncrOnce => true | _ => false end && negb (uses i r) && negb (changes i a)
      then Some (XSeq (XFor l (P2 2 (PVar i) p) (XEnum init a) (strip true c)) r) else None
  | XSeq (XAsg y v) r => if has_loop v || changes i v then None else
      option_map (XSeq (XAsg y v)) (counter_loop (if y =? i then v else init) r)
  | XSeq a r => if has_loop a || changes i a then None else option_map (XSeq a) (counter_loop init r)
  | XLet p a r => if has_loop a || changes i a || mem i (pvars p) then None else option_map (XLet p a) (counter_loop init r)
  | _ => None end.
End Visit.
Definition explicit_counter_loop (e : ex) : option ex :=
  match e with XLet (PVar i) init b => option_map (XLet (PVar i) init) (counter_loop i init b) | _ => None end.

(** ** Equal expressions without effects: `eq_expr_value` of clippy_utils, on what occurs in places and indices. *)
Definition op_eqb (o o' : op) : bool :=
  match o, o' with
  | OAdd, OAdd | OSub, OSub | OMul, OMul | ODiv, ODiv | OXor, OXor | OBAnd, OBAnd | OBOr, OBOr | OEq, OEq | ONe, ONe | OLt, OLt => true
  | _, _ => false end.
Fixpoint eqv (a b : ex) : bool :=
  match a, b with
  | XVal (VInt y), XVal (VInt z) => (y =? z)%Z
  | XVar x, XVar y => x =? y
  | XBin o a c, XBin o' b d => op_eqb o o' && eqv a b && eqv c d
  | XIdx x a, XIdx y b => (x =? y) && eqv a b
  | XLen x, XLen y => x =? y
  | _, _ => false end.

(** ** swap.rs.  [check_manual_swap], 170-206; [generate_swap_warning], 88-167, for two variables and for two elements of one vector.  The
    temporary variable [t] is none of those swapped: it would be another variable there. *)
Definition manual_swap (e : ex) : option ex :=
  match e with
  | XLet (PVar t) (XVar x) (XSeq (XAsg x' (XVar y)) (XSeq (XAsg y' (XVar t')) r)) =>
      if (t =? t') && (x =? x') && (y =? y') && negb (t =? x) && negb (t =? y) && negb (x =? y)
      then Some (XSeq (XSwap x y) r) else None
  | XLet (PVar t) (XIdx x i) (XSeq (XAsgIdx x' i' (XIdx y j)) (XSeq (XAsgIdx y' j' (XVar t')) r)) =>
      if (t =? t') && (x =? x') && (y =? y') && (x =? y) && eqv i i' && eqv j j' && negb (t =? x) && negb (uses t i) && negb (uses t j)
      then Some (XSeq (XSwapIdx x i j) r) else None
  | _ => None end.
(** [check_xor_swap], 283-321. *)
Definition xor_swap (e : ex) : option ex :=
  match e with
  | XSeq (XAsgOp OXor x (XVar y)) (XSeq (XAsgOp OXor y' (XVar x')) (XSeq (XAsgOp OXor x'' (XVar y'')) r)) =>
      if (x =? x') && (x =? x'') && (y =? y') && (y =? y'') && negb (x =? y) then Some (XSeq (XSwap x y) r) else None
  | XSeq (XOpIdx OXor v i (XIdx v1 j)) (XSeq (XOpIdx OXor v2 j1 (XIdx v3 i1)) (XSeq (XOpIdx OXor v4 i2 (XIdx v5 j2)) r)) =>
      if (v =? v1) && (v =? v2) && (v =? v3) && (v =? v4) && (v =? v5) && eqv i i1 && eqv i i2 && eqv j j1 && eqv j j2
      then Some (XSeq (XSwapIdx v i j) r) else None
  | _ => None end.
(** [check_suspicious_swap], 209-244, for variables: `a = b; b = a`. *)
Definition almost_swapped (e : ex) : option ex :=
  match e with
  | XSeq (XAsg x (XVar y)) (XSeq (XAsg y' (XVar x')) r) =>
      if (x =? x') && (y =? y') && negb (x =? y) then Some (XSeq (XSwap x y) r) else None
  | _ => None end.

(** ** operators/assign_op_pattern.rs:20-124: `x = x o a`, for operators with an assigning form; the only `x` on the right is the operand. *)
Definition has_assign (o : op) : bool := match o with OEq | ONe | OLt => false | _ => true end.
Definition commutes (o : op) : bool := match o with OAdd | OMul | OXor | OBAnd | OBOr => true | _ => false end.
Definition is_var (x : nat) (e : ex) : bool := match e with XVar y => y =? x | _ => false end.
Definition assign_op_pattern (e : ex) : option ex :=
  match e with
  | XAsg x (XBin o l r) => if has_assign o then
      if is_var x l && negb (uses x r) then Some (XAsgOp o x r)
      else if is_var x r && negb (uses x l) && commutes o then Some (XAsgOp o x l) else None else None
  | _ => None end.
(** ** operators/misrefactored_assign_op.rs:11-71: `x o= x o a`; two suggestions. *)
Definition misrefactored_assign_op (e : ex) : option (ex * ex) :=
  match e with
  | XAsgOp o x (XBin o' l r) => if op_eqb o o' then
      if is_var x l then Some (XAsgOp o x r, XAsg x (XBin o (XVar x) (XBin o' l r)))
      else if commutes o && is_var x r then Some (XAsgOp o x l, XAsg x (XBin o (XVar x) (XBin o' l r))) else None else None
  | _ => None end.

(** ** needless_continue.rs.  [compare_labels], 218-227. *)
Definition compare_labels (l c : option nat) : bool :=
  match l, c with _, None => true | None, _ => false | Some a, Some b => a =? b end.
(** [check_last_stmt_in_expr] and [check_last_stmt_in_block], 420-464: every `continue` warned about is dropped.  (A `match` whose type is not `()` is left alone by
    the code; its value would not be used.) *)
Fixpoint drop_last (l : option nat) (e : ex) : ex :=
  match e with
  | XCnt c => if compare_labels l c then XVal VUnit else e
  | XIf k d => XIf (drop_last l k) (drop_last l d)
  | XWhen k => XWhen (drop_last l k)
  | XTest a k => XTest a (drop_last l k)
  | XBind p a k => XBind p a (drop_last l k)
  | XMatch a p b q d => XMatch a p (drop_last l b) q (drop_last l d)
  | XBrace b => XBrace (drop_last l b)
  | XBlk m b => XBlk m (drop_last l b)
  | XSeq a b => if is_unit b then XSeq (drop_last l a) b else XSeq a (drop_last l b)
  | XLet p a b => XLet p a (drop_last l b)
  | XDecl x b => XDecl x (drop_last l b)
  | XLetElse p a d b => XLetElse p a d (drop_last l b)
  | _ => e end.
Definition on_loop (g : option nat -> ex -> option ex) (e : ex) : option ex :=
  match e with
  | XLoop l b => option_map (XLoop l) (g l b)
  | XWhile l k => match g l (body k) with Some b => Some (XWhile l (on_body (fun _ => b) k)) | None => None end
  | XFor l p a b => option_map (XFor l p a) (g l b)
  | _ => None end.
Definition needless_continue_last : ex -> option ex := on_loop (fun l b => Some (drop_last l b)).
(** [is_first_block_stmt_continue], 204-215, which is also what [needless_continue_in_else], 196-202, asks of a block. *)
Definition first_continue (l : option nat) (b : ex) : bool :=
  match b with XSeq (XCnt c) _ => compare_labels l c | _ => false end.
(** [check_and_warn], 466-549, with the suggestions of 344-418: `if k { b } else { continue; }`, then [r], becomes `if k { b r }`; `if k { continue; .. } else
    { d }`, then [r], loses its `else`.  The first such `if` of the loop's block is changed. *)
Fixpoint merge_continue (l : option nat) (b : ex) : option ex :=
  match b with
  | XSeq (XIf k d) r =>
      if tests k then
        if first_continue l d then Some (XWhen (on_body (fun b => app b r) k))
        else if first_continue l (body k) then Some (XSeq (XWhen k) (XSeq (XBrace d) r))
        else option_map (XSeq (XIf k d)) (merge_continue l r)
      else option_map (XSeq (XIf k d)) (merge_continue l r)
  | XIf k d =>
      if tests k then
        if first_continue l d then Some (XWhen k)
        else if first_continue l (body k) then Some (XSeq (XWhen k) (XBrace d)) else None
      else None
  | XSeq a r => option_map (XSeq a) (merge_continue l r)
  | XLet p a r => option_map (XLet p a) (merge_continue l r)
  | XDecl x r => option_map (XDecl x) (merge_continue l r)
  | XLetElse p a d r => option_map (XLetElse p a d) (merge_continue l r)
  | _ => None end.
Definition needless_continue_merge : ex -> option ex := on_loop merge_continue.
