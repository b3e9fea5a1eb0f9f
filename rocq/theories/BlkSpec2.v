(** What counters of `for` loops are, for the property about them. *)
From Verif Require Import BlkSpec.

(** Whether a variable stands on its own as a statement, the value of a block or of an arm, or what a `let` gives its name to; within a larger
    expression ([inner]) it does not. *)
Fixpoint alone (x : nat) (inner : bool) (e : ex) : bool :=
  match e with
  | XVar y => negb inner && (x =? y)
  | XVal _ | XCnt _ | XLen _ | XIsEmpty _ | XPop _ | XSwap _ _ => false
  | XCall _ a b | XBin _ a b | XAnd a b | XOr a b | X2 _ a b | XEnum a b | XAsgIdx _ a b | XOpIdx _ _ a b | XSwapIdx _ a b => alone x true a || alone x true b
  | XNot a | X1 _ a | XArr a | XUnwrap a | XBrk _ a | XRet a | XIdx _ a | XAsg _ a | XAsgOp _ _ a => alone x true a
  | XBrace a | XBlk _ a | XWhen a | XLoop _ a | XWhile _ a => alone x false a
  | XSeq a b | XIf a b => alone x false a || alone x false b
  | XDecl y b => negb (x =? y) && alone x false b
  | XLet p a b => alone x false a || negb (mem x (pvars p)) && alone x false b
  | XLetElse p a d b => alone x false a || alone x false d || negb (mem x (pvars p)) && alone x false b
  | XTest a k => alone x true a || alone x false k
  | XBind p a k | XFor _ p a k => alone x true a || negb (mem x (pvars p)) && alone x false k
  | XMatch a p b q d => alone x true a || negb (mem x (pvars p)) && alone x false b || negb (mem x (pvars q)) && alone x false d
  end.
(** A variable that is not used in a labelled block, and not changed on the right of `&&` or `||`. *)
Fixpoint straight (x : nat) (e : ex) : Prop :=
  match e with
  | XVal _ | XCnt _ | XVar _ | XLen _ | XIsEmpty _ | XPop _ | XSwap _ _ => True
  | XAnd a b | XOr a b => straight x a /\ changes x b = false
  | XBlk _ a => uses x a = false
  | XCall _ a b | XBin _ a b | X2 _ a b | XEnum a b | XSeq a b | XIf a b | XTest a b | XAsgIdx _ a b
  | XOpIdx _ _ a b | XSwapIdx _ a b | XLet _ a b | XBind _ a b | XFor _ _ a b => straight x a /\ straight x b
  | XNot a | X1 _ a | XArr a | XUnwrap a | XBrace a | XWhen a | XLoop _ a | XWhile _ a | XBrk _ a | XRet a | XIdx _ a
  | XAsg _ a | XAsgOp _ _ a | XDecl _ a => straight x a
  | XLetElse _ a d b | XMatch a _ d _ b => straight x a /\ straight x d /\ straight x b
  end.
Definition literal (e : ex) : Prop := exists z, e = XVal (VInt z).
(** What follows the declaration of a counter in its block, up to the first `for` loop: it is only ever set to literals, and the body of the loop
    is as above. *)
Fixpoint counter (x : nat) (b : ex) : Prop :=
  match b with
  | XSeq (XFor _ _ _ c) _ => alone x false c = false /\ straight x c
  | XSeq (XAsg y v) r => (y = x -> literal v) /\ counter x r
  | XSeq _ r | XLet _ _ r => counter x r
  | _ => True end.
