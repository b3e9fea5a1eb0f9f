(* Loops with a condition (/repo/clippy_lints/src/loops/while_immutable_condition.rs).  Does not depend on WhlModel.v. *)
From Coq Require Import List ZArith Bool PeanoNat.
Import ListNotations.
Local Open Scope Z_scope.

Definition name := nat.
Inductive expr :=
| ELit (z : Z) | EVar (x : name)
| EStatic (s : name) | EStaticMut (s : name)
| EOp (o : nat) (a b : expr)                (* a built-in operator *)
| EOver (o : nat) (a b : expr)              (* an overloaded operator *)
| ECall (f : nat) (a : expr)
| ECallMut (f : nat) (x : name) (a : expr)  (* f(&mut x, a) *)
| EAssign (x : name) (a : expr).            (* { x = a; x } *)
Inductive stmt :=
| SSkip | SSeq (a b : stmt) | SExpr (e : expr) | SAssign (x : name) (e : expr) | SSetStatic (s : name) (e : expr)
| SIf (c : expr) (a b : stmt) | SWhile (c : expr) (b : stmt) | SLoop (b : stmt)
| SBreak (n : nat) | SContinue (n : nat)    (* of the n-th enclosing loop *)
| SReturn.

Definition trace := list (nat * Z).
Record state := { vars : name -> Z; muts : name -> Z; made : trace }.
Definition set (x : name) (v : Z) (st : state) : state :=
  {| vars := fun y => if Nat.eqb y x then v else vars st y; muts := muts st; made := made st |}.
Inductive outcome := Out | Norm (st : state) | Brk (n : nat) (st : state) | Cont (n : nat) (st : state) | Ret (st : state).

Section Run.
Variable op : nat -> Z -> Z -> Z.
Variable consts : name -> Z.                           (* static items that are not mutable *)
Variable calls : nat -> Z -> trace -> Z.               (* what a function returns may depend on what was called before *)
Variable leaves : nat -> Z -> trace -> (name -> Z) -> name -> Z.     (* what a function leaves in mutable static items *)
Variable writes : nat -> Z -> trace -> Z.              (* what a function leaves behind a mutable reference *)
Definition call (f : nat) (a : Z) (st : state) : Z * state :=
  (calls f a (made st), {| vars := vars st; muts := leaves f a (made st) (muts st); made := (f, a) :: made st |}).
Fixpoint eval (e : expr) (st : state) : Z * state :=
  match e with
  | ELit z => (z, st)
  | EVar x => (vars st x, st)
  | EStatic s => (consts s, st)
  | EStaticMut s => (muts st s, st)
  | EOp o a b => let (u, st) := eval a st in let (v, st) := eval b st in (op o u v, st)
  | EOver o a b => let (u, st) := eval a st in let (v, st) := eval b st in call o (op o u v) st
  | ECall f a => let (u, st) := eval a st in call f u st
  | ECallMut f x a => let (u, st) := eval a st in let (r, st') := call f u st in (r, set x (writes f u (made st)) st')
  | EAssign x a => let (u, st) := eval a st in (u, set x u st)
  end.
(* fuel: any bound on the depth *)
Fixpoint exec (fuel : nat) (s : stmt) (st : state) : outcome :=
  match fuel with
  | O => Out
  | S fuel =>
      match s with
      | SSkip => Norm st
      | SSeq a b => match exec fuel a st with Norm st => exec fuel b st | r => r end
      | SExpr e => Norm (snd (eval e st))
      | SAssign x e => let (v, st) := eval e st in Norm (set x v st)
      | SSetStatic x e => let (v, st) := eval e st in
          Norm {| vars := vars st; muts := fun y => if Nat.eqb y x then v else muts st y; made := made st |}
      | SIf c a b => let (v, st) := eval c st in if v =? 0 then exec fuel b st else exec fuel a st
      | SWhile c b =>
          let (v, st) := eval c st in
          if v =? 0 then Norm st else
          match exec fuel b st with
          | Norm st | Cont O st => exec fuel (SWhile c b) st
          | Brk O st => Norm st
          | Brk (S n) st => Brk n st
          | Cont (S n) st => Cont n st
          | r => r
          end
      | SLoop b =>
          match exec fuel b st with
          | Norm st | Cont O st => exec fuel (SLoop b) st
          | Brk O st => Norm st
          | Brk (S n) st => Brk n st
          | Cont (S n) st => Cont n st
          | r => r
          end
      | SBreak n => Brk n st
      | SContinue n => Cont n st
      | SReturn => Ret st
      end
  end.
End Run.

Fixpoint overloaded (e : expr) : bool :=
  match e with
  | EOver _ _ _ => true
  | EOp _ a b => overloaded a || overloaded b
  | ECall _ a | ECallMut _ _ a | EAssign _ a => overloaded a
  | _ => false
  end.
(* Loops around are continued *)
Fixpoint continues_outer (depth : nat) (s : stmt) : bool :=
  match s with
  | SContinue n => (depth <=? n)%nat
  | SSeq a b | SIf _ a b => continues_outer depth a || continues_outer depth b
  | SWhile _ b | SLoop b => continues_outer (S depth) b
  | _ => false
  end.
