(* Model of /repo/clippy_lints/src/loops/while_let_on_iterator.rs.  Types ascribed, temporaries, items that are no local variables, and
   whether the pattern is refutable (36-39) are not modelled. *)
From Coq Require Import List Bool PeanoNat.
Import ListNotations.
From Verif Require Import WliSpec.

(* 70-78 IterExpr *)
Record iter_expr := { fields : list field; path : name; can_move : bool }.
(* 80-127 try_parse_iter_expr; overloaded deref adjustments (85-94) are PDeref true *)
Fixpoint try_parse (p : pexpr) (fs : list field) (m : bool) : iter_expr :=
  match p with
  | PVar x => {| fields := fs; path := x; can_move := m |}
  | PField q f => try_parse q (fs ++ [f]) m
  | PDeref false q => try_parse q fs m
  | PIndex q _ => try_parse q [] false
  | PDeref true q => try_parse q [] false
  | PRef q => try_parse q fs m
  end.
Definition try_parse_iter_expr (p : pexpr) : iter_expr := try_parse p [] true.
(* 129-143 is_expr_same_field *)
Fixpoint is_expr_same_field (e : pexpr) (fs : list field) (x : name) : bool :=
  match e, fs with
  | PField base f, h :: t => if Nat.eqb f h then is_expr_same_field base t x else false
  | PVar y, [] => Nat.eqb y x
  | PRef base, _ => is_expr_same_field base fs x
  | _, _ => false
  end.
(* 157-163: is the expression a parent field? *)
Fixpoint parent_field (f : field) (base : pexpr) (fs : list field) (x : name) : bool :=
  match fs with [] => false | h :: t => (Nat.eqb h f && is_expr_same_field base t x) || parent_field f base t x end.
(* 166-177: is it a child? *)
Fixpoint child_field (e : pexpr) (fs : list field) (x : name) : bool :=
  match e with
  | PField base _ => is_expr_same_field e fs x || child_field base fs x
  | PVar y => match fs with [] => Nat.eqb y x | _ => false end
  | _ => false
  end.
(* 145-187 is_expr_same_child_or_parent_field *)
Fixpoint is_expr_same_child_or_parent_field (e : pexpr) (fs : list field) (x : name) : bool :=
  match e with
  | PField base f =>
      match fs with
      | [] => false
      | h :: t => (Nat.eqb f h && is_expr_same_field base t x) || parent_field f base t x
      end || child_field base fs x
  | PVar y => Nat.eqb y x
  | PRef base => is_expr_same_child_or_parent_field base fs x
  | _ => false
  end.
(* 210-228 visit_expr of a place, with 189-201 skip_fields_and_path (skipped) *)
Fixpoint visit_place (it : iter_expr) (p : pexpr) : bool :=
  is_expr_same_child_or_parent_field p (fields it) (path it) ||
  match p with
  | PVar _ => false
  | PField q _ => skipped it q
  | PRef q | PDeref _ q | PIndex q _ => visit_place it q
  end
with skipped (it : iter_expr) (p : pexpr) : bool :=
  match p with
  | PVar _ => false
  | PField q _ => skipped it q
  | PRef q | PDeref _ q | PIndex q _ => is_expr_same_child_or_parent_field p (fields it) (path it) || visit_place it q
  end.
(* /repo/clippy_utils/src/visitors.rs 300-311 is_res_used *)
Fixpoint root_is (x : name) (p : pexpr) : bool :=
  match p with PVar y => Nat.eqb y x | PField q _ | PIndex q _ | PDeref _ q | PRef q => root_is x q end.
Fixpoint is_res_used (x : name) (s : stmt) : bool :=
  match s with
  | SUse _ p => root_is x p
  | SSeq a b | SIf _ a b => is_res_used x a || is_res_used x b
  | SLoop b | SOnce b | SLet _ _ b => is_res_used x b
  | SWhile _ _ p b | SFor _ _ p b => root_is x p || is_res_used x b
  | _ => false
  end.
(* 203-234 uses_iter; also the part of 246-267 and 305-320 after the loop *)
Fixpoint uses_iter (it : iter_expr) (s : stmt) : bool :=
  match s with
  | SUse _ p => visit_place it p
  | SSeq a b | SIf _ a b => uses_iter it a || uses_iter it b
  | SLoop b | SLet _ _ b => uses_iter it b
  | SOnce b => is_res_used (path it) b
  | SWhile _ _ p b | SFor _ _ p b => visit_place it p || uses_iter it b
  | _ => false
  end.
(* 237-277 AfterLoopVisitor: after the statement, whether the loop was met, and whether the iterator is used after it *)
Fixpoint after_loop (it : iter_expr) (id : nat) (s : stmt) (after : bool) : bool * bool :=
  if after then (true, uses_iter it s) else
  match s with
  | SSeq a b | SIf _ a b =>
      let (m, u) := after_loop it id a false in if u then (m, true) else after_loop it id b m
  | SLoop b | SLet _ _ b | SOnce b => after_loop it id b false
  | SWhile n _ _ b => if Nat.eqb n id then (true, false) else after_loop it id b false
  | _ => (false, false)
  end.
(* 293-303 NestedLoopVisitor::visit_local: is the variable declared before the loop? *)
Fixpoint found_local (x : name) (id : nat) (s : stmt) : bool * bool :=
  (* whether the loop was met, whether the declaration was met before *)
  match s with
  | SSeq a b | SIf _ a b =>
      let (m, f) := found_local x id a in if m then (true, f) else let (m', f') := found_local x id b in (m', f || f')
  | SLet y _ b => let (m, f) := found_local x id b in (m, Nat.eqb y x || f)
  | SLoop b | SOnce b => found_local x id b
  | SWhile n _ _ b => if Nat.eqb n id then (true, false) else found_local x id b
  | _ => (false, false)
  end.
Fixpoint contains (id : nat) (s : stmt) : bool :=
  match s with
  | SSeq a b | SIf _ a b => contains id a || contains id b
  | SLoop b | SOnce b | SLet _ _ b => contains id b
  | SWhile n _ _ b => Nat.eqb n id || contains id b
  | _ => false
  end.
(* /repo/clippy_utils/src/lib.rs 1190-1210 get_enclosing_loop_or_multi_call_closure: the body of the innermost loop around *)
Fixpoint enclosing_loop (id : nat) (s : stmt) : option stmt :=
  match s with
  | SSeq a b | SIf _ a b => if contains id a then enclosing_loop id a else enclosing_loop id b
  | SOnce b | SLet _ _ b => enclosing_loop id b
  | SLoop b => if contains id b then match enclosing_loop id b with Some e => Some e | None => Some b end else None
  | SWhile n _ _ b => if Nat.eqb n id then None else if contains id b then match enclosing_loop id b with Some e => Some e | None => Some b end else None
  | _ => None
  end.
(* 274 cx.enclosing_body: the body of the innermost closure around *)
Fixpoint enclosing_body (id : nat) (s : stmt) : option stmt :=
  match s with
  | SSeq a b | SIf _ a b => if contains id a then enclosing_body id a else enclosing_body id b
  | SLet _ _ b | SLoop b => enclosing_body id b
  | SWhile n _ _ b => if Nat.eqb n id then None else enclosing_body id b
  | SOnce b => if contains id b then match enclosing_body id b with Some e => Some e | None => Some b end else None
  | _ => None
  end.
(* 236-279 needs_mutable_borrow *)
Definition needs_mutable_borrow (it : iter_expr) (id : nat) (s : stmt) : bool :=
  match enclosing_loop id s with
  | Some e => snd (after_loop it id e false) || negb (snd (found_local (path it) id e))
  | None => snd (after_loop it id (match enclosing_body id s with Some e => e | None => s end) false)
  end.
Fixpoint find_loop (id : nat) (s : stmt) : option (pexpr * stmt) :=
  match s with
  | SSeq a b | SIf _ a b => match find_loop id a with Some r => Some r | None => find_loop id b end
  | SLoop b | SOnce b | SLet _ _ b => find_loop id b
  | SWhile n _ p b => if Nat.eqb n id then Some (p, b) else find_loop id b
  | _ => None
  end.
(* 49 the type of the expression is &mut *)
Definition is_mut_ref (p : pexpr) : bool := match p with PRef _ => true | _ => false end.
(* 19-68 check: Some by_ref, where a for loop is suggested *)
Definition check (s : stmt) (id : nat) : option bool :=
  match find_loop id s with
  | None => None
  | Some (p, b) =>
      let it := try_parse_iter_expr p in
      if uses_iter it b then None else
      Some (is_mut_ref p || negb (can_move it) || negb (match fields it with [] => true | _ => false end) || needs_mutable_borrow it id s)
  end.
