(* Expressions run for their effects: the meaning of what /repo/clippy_lints/src/no_effect.rs looks at and suggests.
   Does not depend on EffModel.v. *)
From Coq Require Import List ZArith Bool Lia.
Import ListNotations.
Open Scope Z_scope.

(* Values; d: the Drop implementation of the type, if any. *)
Inductive value :=
| VInt (z : Z) | VBool (b : bool)
| VRef (v : value)
| VSeq (l : list value)                       (* arrays and vectors *)
| VAgg (d : option nat) (l : list value).     (* tuples, structs, variants, closures with what they capture *)

(* What can be observed: calls of functions, with their arguments, and destructors. *)
Inductive event := Called (f : nat) (args : list value) | Dropped (d : nat).
Fixpoint drops (v : value) : list event :=
  match v with
  | VInt _ | VBool _ | VRef _ => []
  | VSeq l => flat_map drops l
  | VAgg d l => match d with Some n => [Dropped n] | None => [] end ++ flat_map drops l
  end.
(* A copy, which is not dropped. *)
Fixpoint inert (v : value) : value :=
  match v with VSeq l => VSeq (map inert l) | VAgg _ l => VAgg None (map inert l) | _ => v end.

Inductive bop := Add | Sub | Div | Lt | And | Or.
Inductive wrap := Repeat (n : nat) | Cast | Ascribe | Deref | Neg | Not | Field (k : nat) | AddrOf.
(* ov: the function an overloaded operator calls *)
Inductive expr :=
| ELit (z : Z)
| EPath (x : nat)
| EClosure (captured : list nat)
| EIndex (a b : expr) (ov : option nat)
| EBin (o : bop) (a b : expr) (ov : option nat)
| EList (array : bool) (l : exprs)
| EWrap (w : wrap) (e : expr) (ov : option nat)
| ECtor (d : option nat) (l : exprs)          (* structs, with their base last, tuple structs and variants, ranges *)
| ECall (f : nat) (l : exprs)                 (* functions, methods *)
| EBlock (unsafe : bool) (e : expr)
with exprs := Enil | Econs (e : expr) (l : exprs).
Fixpoint to_list (l : exprs) : list expr := match l with Enil => [] | Econs e l => e :: to_list l end.

Definition MAX : Z := 2 ^ 63.
Definition fits (z : Z) : option value := if (- MAX <=? z) && (z <? MAX) then Some (VInt z) else None.
(* Built-in operators; None: they panic.  Operands of other types do not occur. *)
Definition binary (o : bop) (x y : value) : option value :=
  match x, y with
  | VInt a, VInt b =>
      match o with
      | Add => fits (a + b)
      | Sub => fits (a - b)
      | Div => if b =? 0 then None else fits (a / b)
      | _ => Some (VBool (a <? b))
      end
  | _, _ => Some (VBool false)
  end.
Definition at_index (v i : value) : option value :=
  match v, i with
  | VSeq l, VInt z | VRef (VSeq l), VInt z => if (0 <=? z) && (z <? Z.of_nat (length l)) then nth_error l (Z.to_nat z) else None
  | _, _ => None
  end.
Definition field (k : nat) (v : value) : value :=
  match v with VAgg _ l | VRef (VAgg _ l) => nth k l (VBool false) | _ => VBool false end.
Definition deref (v : value) : value := match v with VRef v => v | _ => v end.

Section Run.
Variable env : nat -> value.
(* What functions do may depend on all that happened before; None: they panic. *)
Variable calls : nat -> list value -> list event -> option value.

Definition trace := list event.     (* latest first *)
Definition call (f : nat) (args : list value) (h : trace) : trace * option value :=
  (Called f args :: h, calls f args h).

(* The value of an expression and the temporaries that live until the end of the statement, latest first.  place: the
   expression is only looked at, not moved; then a value that is not in a variable is itself a temporary.  Fields that
   are moved out of a temporary are taken to be dropped with it. *)
Definition result := (trace * option (value * list value))%type.
Definition held (place : bool) (v : value) (t : list value) : value * list value :=
  if place then (inert v, v :: t) else (v, t).
Definition called (place : bool) (f : nat) (args : list value) (t : list value) (h : trace) : result :=
  let (h, r) := call f args h in (h, match r with Some v => Some (held place v t) | None => None end).
Fixpoint run (place : bool) (e : expr) (h : trace) : result :=
  match e with
  | ELit z => (h, Some (VInt z, []))
  | EPath x => (h, Some (if place then inert (env x) else env x, []))
  | EClosure xs => (h, Some (held place (VAgg None (map env xs)) []))
  | EIndex a b ov =>
      match run true a h with
      | (h, Some (u, s)) =>
          match run false b h with
          | (h, Some (v, t)) =>
              match ov with
              | Some f => called true f [VRef u; v] (t ++ s) h
              | None => (h, match at_index u v with Some w => Some (inert w, t ++ s) | None => None end)
              end
          | (h, None) => (h, None)
          end
      | (h, None) => (h, None)
      end
  | EBin o a b ov =>
      match run false a h with
      | (h, Some (u, s)) =>
          match o, ov, u with
          | And, None, VBool false => (h, Some (VBool false, s))
          | Or, None, VBool true => (h, Some (VBool true, s))
          | _, _, _ =>
              match run false b h with
              | (h, Some (v, t)) =>
                  match ov with
                  | Some f => called place f [u; v] (t ++ s) h
                  | None =>
                      match o with
                      | And | Or => (h, Some (v, t ++ s))
                      | _ => (h, match binary o u v with Some w => Some (w, t ++ s) | None => None end)
                      end
                  end
              | (h, None) => (h, None)
              end
          end
      | (h, None) => (h, None)
      end
  | EList array l =>
      match runs l h with
      | (h, Some (vs, t)) => (h, Some (held place (if array then VSeq vs else VAgg None vs) t))
      | (h, None) => (h, None)
      end
  | EWrap w e ov =>
      let looked := match w with Field _ | AddrOf | Deref => true | Cast | Ascribe => place | _ => false end in
      match run looked e h with
      | (h, Some (v, t)) =>
          match ov with
          | Some f => called (place || match w with Deref => true | _ => false end) f [v] t h
          | None =>
              match w with
              | Repeat O => (h, Some (VSeq [], v :: t))
              | Repeat n => (h, Some (held place (VSeq (repeat v n)) t))
              | Cast | Ascribe => (h, Some (v, t))
              | Deref => (h, Some (inert (deref v), t))
              | Neg => (h, match v with VInt z => match fits (- z) with Some w => Some (w, t) | None => None end | _ => Some (v, t) end)
              | Not => (h, Some (match v with VBool b => VBool (negb b) | _ => v end, t))
              | Field k => (h, Some (inert (field k v), t))
              | AddrOf => (h, Some (VRef v, t))
              end
          end
      | (h, None) => (h, None)
      end
  | ECtor d l =>
      match runs l h with
      | (h, Some (vs, t)) => (h, Some (held place (VAgg d vs) t))
      | (h, None) => (h, None)
      end
  | ECall f l =>
      match runs l h with
      | (h, Some (vs, t)) => called place f vs t h
      | (h, None) => (h, None)
      end
  | EBlock _ e => run place e h
  end
with runs (l : exprs) (h : trace) : trace * option (list value * list value) :=
  match l with
  | Enil => (h, Some ([], []))
  | Econs e l =>
      match run false e h with
      | (h, Some (v, t)) =>
          match runs l h with
          | (h, Some (vs, u)) => (h, Some (v :: vs, u ++ t))
          | (h, None) => (h, None)
          end
      | (h, None) => (h, None)
      end
  end.

(* e; — the value is dropped, then the temporaries.  false: it panics *)
Definition stmt (e : expr) (h : trace) : trace * bool :=
  match run false e h with
  | (h, Some (v, t)) => (rev (drops v ++ flat_map drops t) ++ h, true)
  | (h, None) => (h, false)
  end.
Fixpoint stmts (l : list expr) (h : trace) : trace * bool :=
  match l with
  | [] => (h, true)
  | e :: l => match stmt e h with (h, true) => stmts l h | (h, false) => (h, false) end
  end.
(* assert!(a.len() > b); len does nothing else *)
Definition assert_len (a b : expr) (h : trace) : trace * bool :=
  match run true a h with
  | (h, Some (u, s)) =>
      match run false b h with
      | (h, Some (VInt z, t)) =>
          match u with
          | VSeq l | VRef (VSeq l) =>
              if z <? Z.of_nat (length l) then (rev (flat_map drops (t ++ s)) ++ h, true) else (h, false)
          | _ => (h, false)
          end
      | (h, _) => (h, false)
      end
  | (h, None) => (h, false)
  end.
End Run.

(* No operator in it is overloaded. *)
Fixpoint builtin (e : expr) : bool :=
  match e with
  | ELit _ | EPath _ | EClosure _ => true
  | EIndex a b ov | EBin _ a b ov => match ov with None => builtin a && builtin b | Some _ => false end
  | EList _ l | ECtor _ l | ECall _ l => builtins l
  | EWrap _ e ov => match ov with None => builtin e | Some _ => false end
  | EBlock _ e => builtin e
  end
with builtins (l : exprs) : bool := match l with Enil => true | Econs e l => builtin e && builtins l end.
(* Nothing in it indexes, or computes what may overflow. *)
Fixpoint total (e : expr) : bool :=
  match e with
  | ELit _ | EPath _ | EClosure _ => true
  | EIndex _ _ _ => false
  | EBin o a b _ => match o with Lt | And | Or => total a && total b | _ => false end
  | EList _ l | ECtor _ l | ECall _ l => totals l
  | EWrap w e _ => match w with Neg => false | _ => total e end
  | EBlock _ e => total e
  end
with totals (l : exprs) : bool := match l with Enil => true | Econs e l => total e && totals l end.
(* No value it makes has a destructor. *)
Fixpoint dropless (e : expr) : bool :=
  match e with
  | ELit _ | EPath _ | EClosure _ => true
  | EIndex a b _ | EBin _ a b _ => dropless a && dropless b
  | ECtor d l => match d with None => droplesses l | Some _ => false end
  | EList _ l | ECall _ l => droplesses l
  | EWrap _ e _ | EBlock _ e => dropless e
  end
with droplesses (l : exprs) : bool := match l with Enil => true | Econs e l => dropless e && droplesses l end.
(* What its closures capture *)
Fixpoint captures (e : expr) : list nat :=
  match e with
  | ELit _ | EPath _ => []
  | EClosure xs => xs
  | EIndex a b _ | EBin _ a b _ => captures a ++ captures b
  | EList _ l | ECtor _ l | ECall _ l => capturess l
  | EWrap _ e _ | EBlock _ e => captures e
  end
with capturess (l : exprs) : list nat := match l with Enil => [] | Econs e l => captures e ++ capturess l end.
(* The outermost operators, down to what is evaluated first, do not panic. *)
Fixpoint firm (e : expr) : bool :=
  match e with
  | EIndex _ _ _ => false
  | EBin o _ _ _ => match o with Lt | And | Or => true | _ => false end
  | EWrap w e _ => match w with Neg => false | _ => firm e end
  | _ => true
  end.
