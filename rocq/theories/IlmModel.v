(* Model of /repo/clippy_lints/src/if_let_mutex.rs, before the edition of 2024 (55-57).  That expressions of mutexes are compared by
   eq_expr_value is that they are the same mutex; closures are not modelled, nor an if let
   without an else, of which nothing is reported (62). *)
From Coq Require Import List Bool PeanoNat.
Import ListNotations.
From Verif Require Import IlmSpec.

Definition or_else {A} (o p : option A) : option A := match o with Some x => Some x | None => p end.
(* 92-108 mutex_lock_call *)
Definition mutex_lock_call (e : expr) (op_mutex : option nat) : option (nat * nat) :=
  match e with
  | ELock n m => if match op_mutex with None => true | Some m' => Nat.eqb m m' end then Some (n, m) else None
  | _ => None
  end.
(* for_each_expr_without_closures, until a lock is found *)
Fixpoint for_each_expr (op_mutex : option nat) (e : expr) : option (nat * nat) :=
  or_else (mutex_lock_call e op_mutex)
    match e with
    | EPair a b | ESeq a b => or_else (for_each_expr op_mutex a) (for_each_expr op_mutex b)
    | EIf c a b | EIfLet c a b => or_else (for_each_expr op_mutex c) (or_else (for_each_expr op_mutex a) (for_each_expr op_mutex b))
    | _ => None
    end.
(* 54-89 check_expr: the mutex, and the place of the lock that is said to always deadlock *)
Definition reported (e : expr) : option (nat * nat) :=
  match e with
  | EIfLet s a b =>
      match for_each_expr None s with
      | Some (_, m) =>
          match or_else (for_each_expr (Some m) a) (for_each_expr (Some m) b) with Some (n, _) => Some (m, n) | None => None end
      | None => None
      end
  | _ => None
  end.
