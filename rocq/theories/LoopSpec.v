(** Executions of expressions, as sets of outcomes. *)
From Verif Require Import LoopModel.

(** How an evaluation may end; panics and endless loops have no outcome. *)
Inductive outcome := Done | Brk (id : nat) | Cont (id : nat) | Return.

(** Runs of a loop [id] whose body may end as [body] says: number of times the body is entered, outcome. *)
Inductive iterates (id : nat) (body : outcome -> Prop) : nat -> outcome -> Prop :=
| It_again n o o' : body o -> o = Done \/ o = Cont id -> iterates id body n o' -> iterates id body (S n) o'
| It_break : body (Brk id) -> iterates id body 1 Done
| It_leave o : body o -> o <> Done -> o <> Cont id -> o <> Brk id -> iterates id body 1 o.

(** One evaluation after another. *)
Definition andthen (a b : outcome -> Prop) (o : outcome) : Prop := a Done /\ b o \/ a o /\ o <> Done.

(** Outcomes of an expression.  An expression of type `!` is never [Done].  The right side of an
    assignment is evaluated first, also for a compound assignment of primitive types. *)
Fixpoint out (e : ex) (o : outcome) : Prop := match e with N never _ k => out_kind k o /\ (never = true -> o <> Done) end
with out_kind (k : kind) (o : outcome) : Prop :=
  match k with
  | KLeaf => o = Done
  | KYield e => out e o
  | KSeq es => out_exs es o
  | KShort e1 e2 => andthen (out e1) (fun o => o = Done \/ out e2 o) o
  | KAssign e1 e2 => andthen (out e2) (out e1) o
  | KAssignOp prim e1 e2 => if prim then andthen (out e2) (out e1) o else andthen (out e1) (out e2) o
  | KLoop id b => exists n, iterates id (out_blk b) n o
  | KIf c t f => andthen (out c) (fun o => out t o \/ out_oex f o) o
  | KMatch e l => andthen (out e) (out_arms l) o
  | KBlock id b => out_blk b o /\ o <> Brk id \/ o = Done /\ out_blk b (Brk id)
  | KContinue id => o = Cont id
  | KRet e => andthen (out_oex e) (fun o => o = Return) o
  | KBreak id e => andthen (out_oex e) (fun o => o = Brk id) o
  | KBecome e => andthen (out e) (fun o => o = Return) o
  | KAsm l => out_ops l o
  end
with out_exs (es : exs) (o : outcome) : Prop :=
  match es with ENil => o = Done | ECons e es => andthen (out e) (out_exs es) o end
with out_oex (e : oex) (o : outcome) : Prop := match e with ONone => o = Done | OSome e => out e o end
with out_blk (b : blk) (o : outcome) : Prop :=
  match b with
  | BNil => o = Done
  | BCons e b => andthen (out e) (out_blk b) o
  | BLetElse e els b => andthen (out e) (fun o => out_blk els o /\ o <> Done \/ out_blk b o) o
  end
with out_arms (l : arms) (o : outcome) : Prop :=
  match l with
  | ANil => False
  | ACons g body l => out_arms l o \/ andthen (out_oex g) (fun o => out body o \/ out_arms l o) o
  end
with out_ops (l : ops) (o : outcome) : Prop :=
  match l with
  | PNil => o = Done
  | PExprs es l => andthen (out_exs es) (out_ops l) o
  | PLabel b l => andthen (fun o => o = Done \/ out_blk b o) (out_ops l) o
  end.

(** ** Programs the compiler accepts, and the positions the analysis looks at *)

(** No jump to the loop [main] or to one of the blocks [ids]. *)
Definition quiet (main : nat) (ids : list nat) (l : list jump) : Prop :=
  ~ In (JContinue main) l /\ forall i, In i ids -> ~ In (JBreak i) l.
(** Evaluation always completes: places such as `x`, `a.b`, `a[i]`. *)
Fixpoint total (e : ex) : bool := match e with N never todo k => negb never && total_kind k end
with total_kind (k : kind) : bool := match k with KLeaf => true | KSeq es => total_exs es | _ => false end
with total_exs (es : exs) : bool := match es with ENil => true | ECons e es => total e && total_exs es end.

(** Every block is named differently from those around it ([HirId]s are unique), and there are no jumps
    to [main] or to a block around in the right operand of `&&` and `||`, in a match guard, under `yield`,
    and on the right of an assignment whose left side may not complete. *)
Fixpoint ok (main : nat) (ids : list nat) (e : ex) : Prop := match e with N _ _ k => ok_kind main ids k end
with ok_kind (main : nat) (ids : list nat) (k : kind) : Prop :=
  match k with
  | KLeaf | KContinue _ => True
  | KYield e => quiet main ids (jumps e)
  | KSeq es => ok_exs main ids es
  | KShort e1 e2 => ok main ids e1 /\ quiet main ids (jumps e2)
  | KAssign e1 e2 => ok main ids e1 /\ ok main ids e2 /\ (total e1 = true \/ quiet main ids (jumps e2))
  | KAssignOp prim e1 e2 => ok main ids e1 /\ ok main ids e2 /\ (prim = true -> total e1 = true \/ quiet main ids (jumps e2))
  | KLoop _ b => ok_blk main ids b
  | KIf c t f => ok main ids c /\ ok main ids t /\ ok_oex main ids f
  | KMatch e l => ok main ids e /\ ok_arms main ids l
  | KBlock id b => ~ In id ids /\ ok_blk main (ids ++ [id]) b
  | KRet e | KBreak _ e => ok_oex main ids e
  | KBecome e => ok main ids e
  | KAsm l => ok_ops main ids l
  end
with ok_exs (main : nat) (ids : list nat) (es : exs) : Prop :=
  match es with ENil => True | ECons e es => ok main ids e /\ ok_exs main ids es end
with ok_oex (main : nat) (ids : list nat) (e : oex) : Prop := match e with ONone => True | OSome e => ok main ids e end
with ok_blk (main : nat) (ids : list nat) (b : blk) : Prop :=
  match b with
  | BNil => True
  | BCons e b => ok main ids e /\ ok_blk main ids b
  | BLetElse e els b => ok main ids e /\ ok_blk main ids els /\ ok_blk main ids b
  end
with ok_arms (main : nat) (ids : list nat) (l : arms) : Prop :=
  match l with
  | ANil => True
  | ACons g e l => quiet main ids (jumps_oex g) /\ ok main ids e /\ ok_arms main ids l
  end
with ok_ops (main : nat) (ids : list nat) (l : ops) : Prop :=
  match l with
  | PNil => True
  | PExprs es l => ok_exs main ids es /\ ok_ops main ids l
  | PLabel b l => ok_blk main ids b /\ ok_ops main ids l
  end.
