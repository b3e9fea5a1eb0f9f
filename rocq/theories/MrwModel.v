(* Model of the lint mixed_read_write_in_expression in /repo/clippy_lints/src/mixed_read_write_in_expression.rs.  Closures, at which both walks stop
   (273-287, 346-349), are not modelled; the walk up from each write (200-239) is told top down: for each expression, the writes below it. *)
From Coq Require Import List Bool PeanoNat.
Import ListNotations.
From Verif Require Import MrwSpec.

(* 310-369 ReadVisitor, 371-379 is_in_assignment_position: x = .. is no read of x, x += .. is; 351-363: not behind & *)
Fixpoint visit (x : name) (e : expr) : bool :=
  match e with
  | EVar y => Nat.eqb y x
  | ELit _ => false
  | EAssign _ e => visit x e
  | EAddAssign y e => Nat.eqb y x || visit x e
  | EOp _ a b | EAnd a b | ESeq a b | EWhile a b => visit x a || visit x b
  | EIf c a b => visit x c || visit x a || visit x b
  | ERef _ => false
  end.
(* 88-105 check_expr: the variables written to, of all the writes in an expression *)
Fixpoint written (e : expr) : list name :=
  match e with
  | EVar _ | ELit _ => []
  | EAssign x e | EAddAssign x e => x :: written e
  | EOp _ a b | EAnd a b | ESeq a b | EWhile a b => written a ++ written b
  | EIf c a b => written c ++ written a ++ written b
  | ERef e => written e
  end.
(* 248-294 check_expr: a write in one operand (last_expr) and a read in what else there is *)
Definition unsequenced (a b : expr) : bool := existsb (fun x => visit x b) (written a).
Fixpoint reports (e : expr) : bool :=
  match e with
  | EVar _ | ELit _ => false
  (* 258: the variable is in assignment position *)
  | EAssign _ e => reports e
  (* 262: it is read *)
  | EAddAssign x e => existsb (Nat.eqb x) (written e) || reports e
  (* 253-264, 269-271 *)
  | EOp _ a b => unsequenced a b || unsequenced b a || reports a || reports b
  (* 266-268, 288-290: these are sequenced *)
  | EAnd a b | ESeq a b | EWhile a b => reports a || reports b
  | EIf c a b => reports c || reports a || reports b
  | ERef e => reports e
  end.
