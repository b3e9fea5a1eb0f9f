(* Divisions behind a check that the divisor is not zero (/repo/clippy_lints/src/manual_checked_ops.rs).  Does not depend on McoModel.v. *)
From Coq Require Import List Bool PeanoNat.
Import ListNotations.

Notation ident := nat (only parsing).
(* Expressions of unsigned integers *)
Inductive expr :=
| EVar (x : ident)
| ELit (v : nat)
| EOp (o : nat) (a b : expr)                    (* other operators and calls *)
| EDiv (n : nat) (a b : expr)                   (* a / b, at a place n in the source *)
| EAssign (x : ident) (a : expr)
| EDivAssign (n : nat) (x : ident) (a : expr)   (* x /= a *)
| ESeq (a b : expr)
| EIf (a b c : expr)
| ELoop (a : expr).                             (* stops at any time *)
Definition expr_eq_dec : forall a b : expr, {a = b} + {a <> b}.
Proof. decide equality; apply Nat.eq_dec. Defined.
Definition store := ident -> nat.
Definition put (s : store) (x : ident) (v : nat) : store := fun y => if Nat.eqb x y then v else s y.
Section Run.
Variable op : nat -> nat -> nat -> nat.
(* What runs, its value, and each division with its divisor; for a divisor of zero, where the program panics, the run goes on with 0 *)
Inductive run : expr -> store -> nat -> list (nat * nat) -> store -> Prop :=
| RVar x s : run (EVar x) s (s x) [] s
| RLit v s : run (ELit v) s v [] s
| ROp o a b s t u v w l l' : run a s v l t -> run b t w l' u -> run (EOp o a b) s (op o v w) (l ++ l') u
| RDiv n a b s t u v w l l' : run a s v l t -> run b t w l' u -> run (EDiv n a b) s (v / w) (l ++ l' ++ [(n, w)]) u
| RAssign x a s t v l : run a s v l t -> run (EAssign x a) s 0 l (put t x v)
| RDivAssign n x a s t w l : run a s w l t -> run (EDivAssign n x a) s 0 (l ++ [(n, w)]) (put t x (t x / w))
| RSeq a b s t u v w l l' : run a s v l t -> run b t w l' u -> run (ESeq a b) s w (l ++ l') u
| RThen a b c s t u v w l l' : run a s v l t -> v <> 0 -> run b t w l' u -> run (EIf a b c) s w (l ++ l') u
| RElse a b c s t u w l l' : run a s 0 l t -> run c t w l' u -> run (EIf a b c) s w (l ++ l') u
| RLoop0 a s : run (ELoop a) s 0 [] s
| RLoop a s t u v w l l' : run a s v l t -> run (ELoop a) t w l' u -> run (ELoop a) s w (l ++ l') u.
End Run.
(* Conditions that compare an expression and 0 *)
Inductive cmp := Ne | Eq | Lt | Gt | Le | Ge.
Definition holds (c : cmp) (a b : nat) : bool :=
  match c with Ne => negb (Nat.eqb a b) | Eq => Nat.eqb a b | Lt => Nat.ltb a b | Gt => Nat.ltb b a | Le => Nat.leb a b | Ge => Nat.leb b a end.
(* No assignments *)
Fixpoint pure (e : expr) : bool :=
  match e with EVar _ | ELit _ => true | EOp _ a b => pure a && pure b | _ => false end.
Fixpoint reads (x : ident) (e : expr) : bool :=
  match e with EVar y => Nat.eqb x y | EOp _ a b => reads x a || reads x b | _ => false end.
Fixpoint assigns (x : ident) (e : expr) : bool :=
  match e with
  | EVar _ | ELit _ => false
  | EOp _ a b | EDiv _ a b | ESeq a b => assigns x a || assigns x b
  | EAssign y a | EDivAssign _ y a => Nat.eqb x y || assigns x a
  | EIf a b c => assigns x a || assigns x b || assigns x c
  | ELoop a => assigns x a
  end.
(* How often there is a division at a place in the source: no more than once *)
Fixpoint times (n : nat) (e : expr) : nat :=
  match e with
  | EVar _ | ELit _ => 0
  | EDiv m a b => (if Nat.eqb n m then 1 else 0) + times n a + times n b
  | EOp _ a b | ESeq a b => times n a + times n b
  | EAssign _ a => times n a
  | EDivAssign m _ a => (if Nat.eqb n m then 1 else 0) + times n a
  | EIf a b c => times n a + times n b + times n c
  | ELoop a => times n a
  end.
(* The division is not in a loop, and what it divides does not assign x *)
Fixpoint once (x n : nat) (e : expr) : bool :=
  match e with
  | EVar _ | ELit _ => true
  | EDiv m a b => (if Nat.eqb n m then negb (assigns x a) else true) && once x n a && once x n b
  | EOp _ a b | ESeq a b => once x n a && once x n b
  | EAssign _ a | EDivAssign _ _ a => once x n a
  | EIf a b c => once x n a && once x n b && once x n c
  | ELoop a => Nat.eqb (times n a) 0
  end.
