(* Expressions that write to variables, and the orders in which they can be evaluated (/repo/clippy_lints/src/mixed_read_write_in_expression.rs).
   Does not depend on MrwModel.v. *)
From Coq Require Import List Bool PeanoNat.
Import ListNotations.

Notation name := nat (only parsing).
Inductive expr :=
| EVar (x : name)
| ELit (n : nat)
| EAssign (x : name) (e : expr)         (* x = e *)
| EAddAssign (x : name) (e : expr)      (* x += e *)
| EOp (f : nat) (a b : expr)            (* a binary operator, call, tuple, array, index, struct *)
| EAnd (a b : expr)                     (* a && b *)
| ESeq (a b : expr)                     (* { a; b } *)
| EIf (c a b : expr)
| EWhile (c b : expr)
| ERef (e : expr).                      (* &e *)
Definition store := name -> nat.
Definition set (x : name) (n : nat) (st : store) : store := fun y => if Nat.eqb y x then n else st y.

Section Run.
Variable op : nat -> nat -> nat -> nat.
(* Operands can be evaluated in either order, and x of x += e be read before or after e *)
Inductive eval : expr -> store -> nat -> store -> Prop :=
| EvVar x st : eval (EVar x) st (st x) st
| EvLit n st : eval (ELit n) st n st
| EvAssign x e st n st' : eval e st n st' -> eval (EAssign x e) st 0 (set x n st')
| EvAddAfter x e st n st' : eval e st n st' -> eval (EAddAssign x e) st 0 (set x (st' x + n) st')
| EvAddBefore x e st n st' : eval e st n st' -> eval (EAddAssign x e) st 0 (set x (st x + n) st')
| EvOpLeft f a b st n st1 m st2 : eval a st n st1 -> eval b st1 m st2 -> eval (EOp f a b) st (op f n m) st2
| EvOpRight f a b st n st1 m st2 : eval b st m st1 -> eval a st1 n st2 -> eval (EOp f a b) st (op f n m) st2
| EvAndNo a b st st1 : eval a st 0 st1 -> eval (EAnd a b) st 0 st1
| EvAndYes a b st n st1 m st2 : eval a st (S n) st1 -> eval b st1 m st2 -> eval (EAnd a b) st m st2
| EvSeq a b st n st1 m st2 : eval a st n st1 -> eval b st1 m st2 -> eval (ESeq a b) st m st2
| EvIfNo c a b st st1 n st2 : eval c st 0 st1 -> eval b st1 n st2 -> eval (EIf c a b) st n st2
| EvIfYes c a b st k st1 n st2 : eval c st (S k) st1 -> eval a st1 n st2 -> eval (EIf c a b) st n st2
| EvWhileNo c b st st1 : eval c st 0 st1 -> eval (EWhile c b) st 0 st1
| EvWhileYes c b st k st1 n st2 m st3 : eval c st (S k) st1 -> eval b st1 n st2 -> eval (EWhile c b) st2 m st3 -> eval (EWhile c b) st m st3
| EvRef e st n st' : eval e st n st' -> eval (ERef e) st n st'.
End Run.

(* The variables written, read, and read behind & *)
Fixpoint writes (e : expr) : list name :=
  match e with
  | EVar _ | ELit _ => []
  | EAssign x e | EAddAssign x e => x :: writes e
  | EOp _ a b | EAnd a b | ESeq a b | EWhile a b => writes a ++ writes b
  | EIf c a b => writes c ++ writes a ++ writes b
  | ERef e => writes e
  end.
Fixpoint all_reads (e : expr) : list name :=
  match e with
  | EVar x => [x]
  | ELit _ => []
  | EAssign _ e => all_reads e
  | EAddAssign x e => x :: all_reads e
  | EOp _ a b | EAnd a b | ESeq a b | EWhile a b => all_reads a ++ all_reads b
  | EIf c a b => all_reads c ++ all_reads a ++ all_reads b
  | ERef e => all_reads e
  end.
Fixpoint ref_reads (e : expr) : list name :=
  match e with
  | EVar _ | ELit _ => []
  | EAssign _ e | EAddAssign _ e => ref_reads e
  | EOp _ a b | EAnd a b | ESeq a b | EWhile a b => ref_reads a ++ ref_reads b
  | EIf c a b => ref_reads c ++ ref_reads a ++ ref_reads b
  | ERef e => all_reads e
  end.
(* Both operands write to a variable *)
Fixpoint both_write (e : expr) : Prop :=
  match e with
  | EVar _ | ELit _ => False
  | EAssign _ e | EAddAssign _ e | ERef e => both_write e
  | EOp _ a b => (exists x, In x (writes a) /\ In x (writes b)) \/ both_write a \/ both_write b
  | EAnd a b | ESeq a b | EWhile a b => both_write a \/ both_write b
  | EIf c a b => both_write c \/ both_write a \/ both_write b
  end.
