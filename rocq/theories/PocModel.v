(* Model of /repo/clippy_lints/src/panicking_overflow_checks.rs.  Macros and calls are not modelled (eq_expr_value is false of what has side
   effects); all expressions of a condition have one type. *)
From Coq Require Import List Bool ZArith.
Import ListNotations.
From Verif Require Import PocSpec.

(* eq_expr_value *)
Fixpoint eq_expr_value (a b : expr) : bool :=
  match a, b with
  | EVar x, EVar y => Nat.eqb x y
  | ELit x, ELit y => Z.eqb x y
  | EAdd a b, EAdd c d | ESub a b, ESub c d => eq_expr_value a c && eq_expr_value b d
  | _, _ => false
  end.
(* 52-83 check_expr, where is_uint is that the type is unsigned *)
Definition reported (is_uint : bool) (c : cond) : bool :=
  match match c with CLt l r => Some (l, r) | CGt l r => Some (r, l) | CEq _ _ => None end with
  | None => false
  | Some (lt, gt) =>
      match
        match lt, gt with
        | EAdd l r, _ => Some (l, r, gt, true)
        | _, ESub l r => Some (l, r, lt, false)
        | _, _ => None
        end
      with
      | None => false
      | Some (op_lhs, op_rhs, other, commutative) =>
          is_uint && (eq_expr_value op_lhs other || commutative && eq_expr_value op_rhs other)
      end
  end.
