(* Model of /repo/clippy_lints/src/no_effect.rs. *)
From Coq Require Import List ZArith Bool.
Import ListNotations.
From Verif Require Import EffSpec.

(* clippy_utils/src/lib.rs peel_blocks: blocks without statements that are not unsafe *)
Fixpoint peel_blocks (e : expr) : expr := match e with EBlock false e => peel_blocks e | _ => e end.

(* no_effect.rs:206-222 *)
Definition is_operator_overridden (e : expr) : bool :=
  match e with
  | EBin _ _ _ ov => match ov with Some _ => true | None => false end
  | EWrap w _ ov => match w with Deref | Neg | Not => match ov with Some _ => true | None => false end | _ => false end
  | _ => false
  end.

Section no_effect.
Variable sig : expr -> bool.           (* no_effect.rs:225-228 expr_ty_has_significant_drop *)

(* no_effect.rs:230-271 has_no_effect *)
Fixpoint has_no_effect (e : expr) : bool :=
  match e with
  | ELit _ | EClosure _ => true
  | EPath _ => negb (sig e)
  | EIndex a b _ | EBin _ a b _ => has_no_effect a && has_no_effect b
  | EList _ l => have_no_effect l
  | EWrap _ e _ => has_no_effect e
  | ECtor _ l => negb (sig e) && have_no_effect l
  | ECall _ _ | EBlock _ _ => false
  end
with have_no_effect (l : exprs) : bool :=
  match l with Enil => true | Econs e l => has_no_effect e && have_no_effect l end.

Inductive verdict := Quiet | NoEffect | Reduce (l : list expr) | Assert (a b : expr).

(* no_effect.rs:333-402 reduce_expression; casts are of expressions whose type is certain, no type is never *)
Fixpoint reduce_expression (e : expr) : option (list expr) :=
  match e with
  | EIndex a b _ => Some [a; b]
  | EBin o a b _ => match o with And | Or => None | _ => Some [a; b] end
  | EList _ l => Some (to_list l)
  | EWrap _ i _ => match reduce_expression i with Some l => Some l | None => Some [i] end
  | ECtor d l => match d with Some _ => None | None => Some (to_list l) end
  | EBlock unsafe e => if unsafe then None else Some [e]
  | _ => None
  end.

(* no_effect.rs:89-94 check_stmt, 122-183 check_no_effect, 273-331 check_unnecessary_operation, for e; *)
Definition check_stmt (e : expr) : verdict :=
  match e with
  | EPath _ => Quiet
  | _ =>
      if is_operator_overridden (peel_blocks e) then Quiet
      else if has_no_effect (peel_blocks e) then NoEffect
      else match reduce_expression e with
           | None => Quiet
           | Some l =>
               match e with
               | EIndex _ _ _ => match l with [a; b] => Assert a b | _ => Quiet end
               | _ => Reduce l
               end
           end
  end.

(* no_effect.rs:184-201 let _x = e; where _x is not used (114-118) *)
Definition check_let (e : expr) : bool := has_no_effect e.
End no_effect.
