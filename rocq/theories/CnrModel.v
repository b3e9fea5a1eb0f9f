(* Model of /repo/clippy_lints/src/collection_is_never_read.rs.  The types of the collections (60-76) are not modelled; names are unique. *)
From Coq Require Import List Bool PeanoNat.
Import ListNotations.
From Verif Require Import CnrSpec.

(* 78-158 has_no_read_access: local, is the method defined in this crate (106-113)?  unit_, is () returned (141-148)? *)
Section Reads.
Variable local unit_ : method -> bool.
Variable id : name.
(* 102-149: a call of a method on the variable; statement: the call is a statement (134-139) *)
Definition reads_by_method (statement : bool) (m : method) : bool := negb (negb (local m) && (statement || unit_ m)).
Fixpoint reads_e (statement : bool) (e : expr) : bool :=
  match e with
  | EVar x => Nat.eqb x id
  | ELit _ => false
  | ECall _ e => reads_e false e
  | EAdd a b => reads_e false a || reads_e false b
  | EMethod x m e => Nat.eqb x id && reads_by_method statement m || reads_e false e
  | EMethodMut x m w => Nat.eqb x id && reads_by_method statement m || Nat.eqb w id
  end.
Fixpoint reads (s : stmt) : bool :=
  match s with
  | SSkip => false
  | SSeq a b => reads a || reads b
  | SLet _ e => reads_e false e
  (* 91-100: the variable as either side of an assignment to it is no read *)
  | SAssign x e => match e with EVar y => Nat.eqb y id && negb (Nat.eqb x id) | _ => reads_e false e end
  | SAddAssign x e => Nat.eqb x id || reads_e false e
  | SExpr e => reads_e true e
  (* 119-128: closures without parameters are not looked at; dest: is the result used? *)
  | SFn dest x m s => Nat.eqb x id && reads_by_method (match dest with None => true | Some _ => false end) m || reads s
  (* 119-132: the id of the parameter (not of its pattern) is never that of an expression: has_access is false, so that any closure with parameters reads *)
  | SFn1 x m _ s => Nat.eqb x id || reads s
  | SIf c a b => reads_e false c || reads a || reads b
  | SWhile c b => reads_e false c || reads b
  end.
(* has_access *)
Fixpoint accesses_e (e : expr) : bool :=
  match e with
  | EVar x => Nat.eqb x id
  | ELit _ => false
  | ECall _ e => accesses_e e
  | EAdd a b => accesses_e a || accesses_e b
  | EMethod x _ e => Nat.eqb x id || accesses_e e
  | EMethodMut x _ w => Nat.eqb x id || Nat.eqb w id
  end.
Fixpoint accesses (s : stmt) : bool :=
  match s with
  | SSkip => false
  | SSeq a b => accesses a || accesses b
  | SLet _ e => accesses_e e
  | SAssign x e | SAddAssign x e => Nat.eqb x id || accesses_e e
  | SExpr e => accesses_e e
  | SFn _ x _ s | SFn1 x _ _ s => Nat.eqb x id || accesses s
  | SIf c a b => accesses_e c || accesses a || accesses b
  | SWhile c b => accesses_e c || accesses b
  end.
Definition has_no_read_access (block : stmt) : bool := accesses block && negb (reads block).
End Reads.
