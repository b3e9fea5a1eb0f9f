(* Model of /repo/clippy_lints/src/loops/same_item_push.rs.  The type of the items, which must be Clone, is not modelled. *)
From Coq Require Import List ZArith Bool PeanoNat.
Import ListNotations.
From Verif Require Import SipSpec.

(* 103-110 SameItemPushVisitor *)
Record seen := { non_deterministic : bool; pushes : list (name * expr); used_locals : list name }.
Definition nothing : seen := {| non_deterministic := false; pushes := []; used_locals := [] |}.
Definition both (a b : seen) : seen :=
  {| non_deterministic := non_deterministic a || non_deterministic b; pushes := pushes a ++ pushes b; used_locals := used_locals a ++ used_locals b |}.
(* 136-174 visit_expr, visit_block (the statements only), visit_stmt (neither let statements nor what is pushed) *)
Fixpoint visit_expr (e : expr) : seen :=
  match e with
  | EOther _ => {| non_deterministic := true; pushes := []; used_locals := [] |}
  | EBlock s _ => visit_stmt s
  | EUse v _ => {| non_deterministic := false; pushes := []; used_locals := [v] |}
  | ELocal _ => nothing          (* a variable that is no vector *)
  | EAnd _ e => visit_expr e
  | ELit _ | EConst _ | ECall _ | EBreak => nothing
  end
with visit_stmt (s : stmt) : seen :=
  match s with
  | SNil => nothing
  | SSeq a b => both (visit_stmt a) (visit_stmt b)
  | SPush v item => {| non_deterministic := false; pushes := [(v, item)]; used_locals := [] |}
  | SLet _ => nothing
  | SSemi e => visit_expr e
  end.
(* 122-133 should_lint, with what 157-173 make of a second push *)
Definition should_lint (b : seen) : option (name * expr) :=
  if non_deterministic b then None else
  match pushes b with [(v, item)] => if existsb (Nat.eqb v) (used_locals b) then None else Some (v, item) | _ => None end.
(* 16-100 check *)
Definition check (locals : name -> local) (body : expr) : option (name * expr) :=
  match should_lint (visit_expr body) with
  | None => None
  | Some (v, item) =>
      match item with
      | ELocal x =>
          if mutable (locals x) then None else
          match initialised (locals x) with ByLit _ | ByConst _ => Some (v, item) | ByOther => None end
      | EConst _ => Some (v, item)
      | ELit _ => Some (v, item)
      | _ => None
      end
  end.
