(** Model of `never_loop`, /repo/clippy_lints/src/loops/never_loop.rs. *)
From Coq Require Export List Bool Arith.
Export ListNotations.

(** ** Control flow of an expression

    Loops and blocks are named by numbers ([HirId]).  Values, types, patterns and places are left out:
    every test may go either way.  [never]: the type of the expression is `!`; [todo]: it is the
    outermost expression of a `todo!()`. *)
Inductive ex :=
| N (never todo : bool) (k : kind)
with kind :=
| KLeaf                              (* literal, path, closure, const block *)
| KYield (e : ex)
| KSeq (es : exs)                    (* operands evaluated from left to right *)
| KShort (e1 e2 : ex)                (* && and || *)
| KAssign (e1 e2 : ex)               (* e1 = e2 *)
| KAssignOp (prim : bool) (e1 e2 : ex)   (* e1 += e2, on primitive types or not *)
| KLoop (id : nat) (b : blk)
| KIf (c t : ex) (f : oex)
| KMatch (e : ex) (l : arms)
| KBlock (id : nat) (b : blk)
| KContinue (id : nat)
| KRet (e : oex)
| KBreak (id : nat) (e : oex)
| KBecome (e : ex)
| KAsm (l : ops)
with exs := ENil | ECons (e : ex) (es : exs)
with oex := ONone | OSome (e : ex)
(* statements and the final expression; [BLetElse]: `let pat = e else { els };`; items are left out *)
with blk := BNil | BCons (e : ex) (b : blk) | BLetElse (e : ex) (els : blk) (b : blk)
with arms := ANil | ACons (guard : oex) (body : ex) (l : arms)
(* operands of `asm!` *)
with ops := PNil | PExprs (es : exs) (l : ops) | PLabel (b : blk) (l : ops).

Scheme ex_mut := Induction for ex Sort Prop
with kind_mut := Induction for kind Sort Prop
with exs_mut := Induction for exs Sort Prop
with oex_mut := Induction for oex Sort Prop
with blk_mut := Induction for blk Sort Prop
with arms_mut := Induction for arms Sort Prop
with ops_mut := Induction for ops Sort Prop.
Combined Scheme syntax_mut from ex_mut, kind_mut, exs_mut, oex_mut, blk_mut, arms_mut, ops_mut.

(** ** Jumps that occur in an expression *)
Inductive jump := JBreak (id : nat) | JContinue (id : nat).
Fixpoint jumps (e : ex) : list jump := match e with N _ _ k => jumps_kind k end
with jumps_kind (k : kind) : list jump :=
  match k with
  | KLeaf => []
  | KYield e | KBecome e => jumps e
  | KSeq es => jumps_exs es
  | KShort a b | KAssign a b | KAssignOp _ a b => jumps a ++ jumps b
  | KLoop _ b | KBlock _ b => jumps_blk b
  | KIf c t f => jumps c ++ jumps t ++ jumps_oex f
  | KMatch e l => jumps e ++ jumps_arms l
  | KContinue id => [JContinue id]
  | KRet e => jumps_oex e
  | KBreak id e => JBreak id :: jumps_oex e
  | KAsm l => jumps_ops l
  end
with jumps_exs (es : exs) : list jump := match es with ENil => [] | ECons e es => jumps e ++ jumps_exs es end
with jumps_oex (e : oex) : list jump := match e with ONone => [] | OSome e => jumps e end
with jumps_blk (b : blk) : list jump :=
  match b with BNil => [] | BCons e b => jumps e ++ jumps_blk b | BLetElse e els b => jumps e ++ jumps_blk els ++ jumps_blk b end
with jumps_arms (l : arms) : list jump :=
  match l with ANil => [] | ACons g e l => jumps_oex g ++ jumps e ++ jumps_arms l end
with jumps_ops (l : ops) : list jump :=
  match l with PNil => [] | PExprs es l => jumps_exs es ++ jumps_ops l | PLabel b l => jumps_blk b ++ jumps_ops l end.
(** [Block::targeted_by_break], as set by the compiler. *)
Definition is_break (id : nat) (j : jump) : bool := match j with JBreak i => Nat.eqb i id | _ => false end.
Definition targeted_by_break (id : nat) (b : blk) : bool := existsb (is_break id) (jumps_blk b).

(** ** The analysis *)

(** never_loop.rs:135-150 [NeverLoopResult], without the spans. *)
Inductive nlr := MayContinueMainLoop | Diverging | Normal.
(** [local_labels]. *)
Definition labels := list (nat * bool).
Definition run := labels -> nlr * labels.

(** never_loop.rs:152-158 [absorb_break]. *)
Definition absorb_break (r : nlr) : nlr := match r with Diverging | Normal => Normal | MayContinueMainLoop => MayContinueMainLoop end.
(** never_loop.rs:160-167 [combine_seq]; the second part is not run if the first is not [Normal]. *)
Definition combine_seq (first : nlr * labels) (second : run) : nlr * labels :=
  match fst first with Diverging | MayContinueMainLoop => first | Normal => second (snd first) end.
(** never_loop.rs:180-212 [combine_branches]. *)
Definition combine_branches (b1 b2 : nlr) : nlr :=
  match b1, b2 with
  | MayContinueMainLoop, _ | _, MayContinueMainLoop => MayContinueMainLoop
  | Normal, _ | _, Normal => Normal
  | Diverging, Diverging => Diverging
  end.
(** never_loop.rs:500-506 [mark_block_as_reachable] of a break to [t]. *)
Fixpoint mark (t : nat) (l : labels) : labels :=
  match l with
  | [] => []
  | (i, b) :: l => if Nat.eqb i t then (i, true) :: l else (i, b) :: mark t l
  end.
Definition normal : run := fun l => (Normal, l).
(** never_loop.rs:457-481: the type of the expression and `todo!()`. *)
Definition finish (never todo : bool) (r : nlr * labels) : nlr * labels :=
  let r := combine_seq r (fun l => (if never then Diverging else Normal, l)) in
  match fst r with
  | Diverging => if todo then (MayContinueMainLoop, snd r) else r
  | _ => r
  end.

(** never_loop.rs:295-482 [never_loop_expr], 484-492 [never_loop_expr_all], 214-242 [never_loop_block];
    [combine_seq_many] (169-178) is the nested [combine_seq]. *)
Fixpoint nl (main : nat) (e : ex) : run := fun l => match e with N never todo k => finish never todo (nl_kind main k l) end
with nl_kind (main : nat) (k : kind) : run := fun l =>
  match k with
  | KLeaf | KYield _ => (Normal, l)
  | KSeq es => nl_exs main es l
  | KShort e1 _ => nl main e1 l
  | KAssign e1 e2 | KAssignOp _ e1 e2 => combine_seq (nl main e1 l) (nl main e2)
  | KLoop _ b => let '(r, l) := nl_blk main b l in (absorb_break r, l)
  | KIf c t f =>
      combine_seq (nl main c l) (fun l =>
        let '(r2, l) := nl main t l in
        let '(r3, l) := nl_oex main f l in
        (combine_branches r2 r3, l))
  | KMatch e arms => combine_seq (nl main e l) (nl_arms main arms Diverging)
  | KBlock id b =>
      if targeted_by_break id b then
        let '(r, l') := nl_blk main b (l ++ [(id, false)]) in
        let jumped_to := snd (last l' (id, false)) in
        (match r with Diverging => if jumped_to then Normal else r | _ => r end, removelast l')
      else nl_blk main b l
  | KContinue id => if Nat.eqb id main then (MayContinueMainLoop, l) else (Diverging, l)
  | KRet e => combine_seq (nl_oex main e l) (fun l => (Diverging, l))
  | KBreak id e => combine_seq (nl_oex main e l) (fun l => (Diverging, mark id l))
  | KBecome e => combine_seq (nl main e l) (fun l => (Diverging, l))
  | KAsm ops => nl_ops main ops l
  end
with nl_exs (main : nat) (es : exs) : run := fun l =>
  match es with ENil => (Normal, l) | ECons e es => combine_seq (nl main e l) (nl_exs main es) end
with nl_oex (main : nat) (e : oex) : run := fun l => match e with ONone => (Normal, l) | OSome e => nl main e l end
with nl_blk (main : nat) (b : blk) : run := fun l =>
  match b with
  | BNil => (Normal, l)
  | BCons e b => combine_seq (nl main e l) (nl_blk main b)
  | BLetElse e els b =>
      combine_seq
        (combine_seq (nl main e l) (fun l => let '(r, l) := nl_blk main els l in (absorb_break r, l)))
        (nl_blk main b)
  end
with nl_arms (main : nat) (a : arms) : nlr -> run := fun acc l =>
  match a with
  | ANil => (acc, l)
  | ACons _ body a => let '(r, l) := nl main body l in nl_arms main a (combine_branches acc r) l
  end
with nl_ops (main : nat) (o : ops) : run := fun l =>
  match o with
  | PNil => (Normal, l)
  | PExprs es o => combine_seq (nl_exs main es l) (nl_ops main o)
  | PLabel b o => combine_seq (let '(r, l) := nl_blk main b l in (absorb_break r, l)) (nl_ops main o)
  end.

(** never_loop.rs:20-85 [check]: the loop [main] with this body is reported. *)
Definition never_loop (main : nat) (body : blk) : bool :=
  match fst (nl_blk main body []) with Diverging => true | _ => false end.
