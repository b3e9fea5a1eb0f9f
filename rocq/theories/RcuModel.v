(* Model of /repo/clippy_lints/src/only_used_in_recursion.rs for one function without nested ones. *)
From Coq Require Import List ZArith Bool PeanoNat.
Import ListNotations.
From Verif Require Import RcuSpec.

(* clippy_utils/src/lib.rs:1996-2011 get_expr_use_or_unification_node and only_used_in_recursion.rs:366-436: what becomes
   of the value of an expression, going up through operators, casts, borrows and fields.  All operands are of
   primitive type here. *)
Inductive use :=
| Dropped          (* 374: a statement, or the value of an `if` without else *)
| Argument (i : nat)   (* 377-397: of a recursive call *)
| Update (x : name)    (* 402-408: assigned to x *)
| Used.            (* 432: anything else *)
(* 366-436 check_expr: all uses of variables that are recorded, with the index of the argument, or None where the
   parameter is removed. *)
Definition recorded (u : use) (x : name) : list (name * option nat) :=
  match u with
  | Dropped => []
  | Argument i => [(x, Some i)]
  | Update y => if Nat.eqb x y then [] else [(x, None)]
  | Used => [(x, None)]
  end.
Fixpoint occ (u : use) (e : expr) : list (name * option nat) :=
  match e with
  | ELit _ => []
  | EVar x => recorded u x
  | EBin _ a b | ELazy _ a b => occ u a ++ occ u b
  | EUn _ a => occ u a
  | EAssign x a | EAssignOp _ x a => occ (Update x) a
  | ECall _ a | ERet a => occ Used a
  | ERec es => (fix args (i : nat) (es : list expr) := match es with [] => [] | a :: es => occ (Argument i) a ++ args (S i) es end) O es
  | EIf c a b => occ Used c ++ occ Used a ++ occ Used b
  | EWhen c a => occ Used c ++ occ Dropped a
  | EWhile c a => occ Used c ++ occ Used a
  | ESeq a b => occ Dropped a ++ occ u b
  | ELet _ a b => occ Used a ++ occ u b
  end.

Section Params.
(* The parameters; whether the name does not start with `_` (355) *)
Variables (ps : list (name * bool)) (body : expr).
Definition removed (x : name) : bool :=
  existsb (fun q => Nat.eqb (fst q) x && match snd q with None => true | Some _ => false end) (occ Used body).
(* 236-244 remove_by_id forgets the uses *)
Definition uses (i : nat) : list nat :=
  match nth_error ps i with
  | Some (x, true) =>
      if removed x then [] else flat_map (fun q => match snd q with Some j => if Nat.eqb (fst q) x then [j] else [] | None => [] end) (occ Used body)
  | _ => []
  end.
(* 250-252 get_by_fn *)
Definition get_by_fn (i : nat) : bool :=
  match nth_error ps i with Some (x, true) => negb (removed x) | _ => false end.
Fixpoint set_false (i : nat) (st : list bool) : list bool :=
  match st, i with [], _ => [] | _ :: st, O => false :: st | b :: st, S i => b :: set_false i st end.
(* 284-295: the parameters for which parameter i is passed on, but for itself *)
Fixpoint passed_on (try : nat -> list bool -> bool * list bool) (i : nat) (us : list nat) (st : list bool) : bool * list bool :=
  match us with
  | [] => (false, st)
  | j :: us =>
      if Nat.eqb j i then passed_on try i us st
      else if negb (get_by_fn j) then (true, set_false i st)
      else let (d, st) := try j st in if d then (true, set_false i st) else passed_on try i us st
  end.
(* 270-299 try_disable_lint_for_param; st: apply_lint of all parameters.  n bounds the depth, which the stack keeps
   below the number of parameters. *)
Fixpoint try_disable (n : nat) (i : nat) (stack : list nat) (st : list bool) : bool * list bool :=
  match n with
  | O => (false, st)
  | S n =>
      if negb (nth i st false) then (true, st)
      else if match uses i with [] => true | _ => false end then (true, set_false i st)
      else if existsb (Nat.eqb i) stack then (false, st)
      else passed_on (fun j st => try_disable n j (i :: stack) st) i (uses i) st
  end.
(* 260-267 flag_for_linting *)
Definition flag_for_linting : list bool :=
  fold_left (fun st i => snd (try_disable (S (length ps)) i [] st)) (seq 0 (length ps)) (map snd ps).
(* 438-480 check_body_post: the parameters that are reported *)
Definition reported (i : nat) : bool := nth i flag_for_linting false.
End Params.
