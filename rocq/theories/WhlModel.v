(* Model of /repo/clippy_lints/src/loops/while_immutable_condition.rs.  That nothing is said about constant conditions (13-16)
   is dropped: it only makes the lint quieter.  So is the case of captured variables (clippy_utils/src/usage.rs:53-58). *)
From Coq Require Import List ZArith Bool PeanoNat.
Import ListNotations.
From Verif Require Import WhlSpec.

(* 75-116 VarCollectorVisitor: the variables, and the static items with whether they are mutable; None at a call *)
Fixpoint collect (e : expr) : option (list name * list bool) :=
  match e with
  | ELit _ => Some ([], [])
  | EVar x => Some ([x], [])
  | EStatic _ => Some ([], [false])
  | EStaticMut _ => Some ([], [true])
  | EOp _ a b | EOver _ a b =>
      match collect a, collect b with Some (i, d), Some (j, e) => Some (i ++ j, d ++ e) | _, _ => None end
  | ECall _ _ | ECallMut _ _ _ => None
  | EAssign x a => match collect a with Some (i, d) => Some (x :: i, d) | None => None end
  end.
(* clippy_utils/src/usage.rs:15-28 mutated_variables *)
Fixpoint mutated_e (e : expr) : list name :=
  match e with
  | EOp _ a b | EOver _ a b => mutated_e a ++ mutated_e b
  | ECall _ a => mutated_e a
  | ECallMut _ x a | EAssign x a => x :: mutated_e a
  | _ => []
  end.
Fixpoint mutated (s : stmt) : list name :=
  match s with
  | SSeq a b => mutated a ++ mutated b
  | SExpr e | SSetStatic _ e => mutated_e e
  | SAssign x e => x :: mutated_e e
  | SIf c a b => mutated_e c ++ mutated a ++ mutated b
  | SWhile c b => mutated_e c ++ mutated b
  | SLoop b => mutated b
  | _ => []
  end.
Definition disjoint (a b : list name) : bool := forallb (fun x => negb (existsb (Nat.eqb x) b)) a.
(* 58-72 HasBreakOrReturnVisitor *)
Fixpoint has_break_or_return (s : stmt) : bool :=
  match s with
  | SBreak _ | SReturn => true
  | SSeq a b | SIf _ a b => has_break_or_return a || has_break_or_return b
  | SWhile _ b | SLoop b => has_break_or_return b
  | _ => false
  end.
(* 12-56 check: reported, and whether with the help to write `if cond { loop { } }` *)
Definition check (c : expr) (b : stmt) : option bool :=
  match collect c with
  | None => None
  | Some (ids, defs) =>
      if disjoint ids (mutated b) && disjoint ids (mutated_e c) && negb (existsb (fun m => m) defs)
      then Some (has_break_or_return b) else None
  end.
