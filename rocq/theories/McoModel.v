(* Model of /repo/clippy_lints/src/manual_checked_ops.rs.  Everything is an unsigned integer, so is_unsigned_integer (170-172) holds; closures,
   which are not visited, are not modelled. *)
From Coq Require Import List Bool PeanoNat.
Import ListNotations.
From Verif Require Import McoSpec.

(* SpanlessEq with deny_side_effects *)
Definition eq_expr (a b : expr) : bool := if expr_eq_dec a b then pure a else false.
(* 68-109: the divisions found so far, and whether to go on; the first use is a division just if there are any *)
Definition use (d e : expr) (found : list nat) : bool := eq_expr e d && match found with [] => true | _ => false end.
Fixpoint visit (d e : expr) (found : list nat) : option (list nat) :=
  if match e with EDiv _ _ b => eq_expr b d | EDivAssign _ _ b => eq_expr b d | _ => false end
  then match e with EDiv n _ _ | EDivAssign n _ _ => Some (found ++ [n]) | _ => None end
  else if use d e found then None
  else
    match e with
    | EVar _ | ELit _ => Some found
    | EOp _ a b | EDiv _ a b | ESeq a b => match visit d a found with Some f => visit d b f | None => None end
    | EAssign x a | EDivAssign _ x a =>
        match visit d a found with Some f => if use d (EVar x) f then None else Some f | None => None end
    | EIf a b c =>
        match visit d a found with Some f => match visit d b f with Some f => visit d c f | None => None end | None => None end
    | ELoop a => visit d a found
    end.
Inductive branch := Then | Else.
(* 135-147 divisor_from_condition, of a condition that compares with 0 on the left, or on the right *)
Definition divisor_from_condition (c : cmp) (zero_left : bool) : option branch :=
  match c, zero_left with
  | Ne, true | Lt, true => Some Then
  | Ne, false | Gt, false => Some Then
  | Eq, _ => Some Else
  | _, _ => None
  end.
(* 49-126 check_expr: the divisions that are reported, of if d c 0 { e } else { e' } *)
Definition reported (c : cmp) (zero_left : bool) (d e e' : expr) : list nat :=
  match divisor_from_condition c zero_left with
  | None => []
  | Some b =>
      if negb (eq_expr d d) then [] else
      match visit d (match b with Then => e | Else => e' end) [] with Some l => l | None => [] end
  end.
