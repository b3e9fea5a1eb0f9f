(* Loops that fill a slice (/repo/clippy_lints/src/loops/manual_slice_fill.rs).  Does not depend on MsfModel.v. *)
From Coq Require Import List Bool PeanoNat.
Import ListNotations.

Notation ident := nat (only parsing).
Inductive value :=
| VVar (x : ident)
| VLit (n : nat)
| VLen (s : ident)                     (* s.len() *)
| VPair (a b : value)                  (* tuples, structs and so on *)
| VIndex (s : ident) (i : value)       (* s[i], which may panic *)
| VCall (a : value).                   (* a call, which counts how often it was made, and tells so *)
Inductive loop :=
| LRange (p : ident) (start : nat) (inclusive : bool) (r s i : ident) (v : value)    (* for p in start..r.len() { s[i] = v } *)
| LIter (p s q : ident) (v : value).                                                 (* for p in &mut s { *q = v }, or in s *)
Record store := { slices : ident -> list nat; vars : ident -> nat; calls : nat }.
Definition upd {A} (f : ident -> A) (x : ident) (a : A) : ident -> A := fun y => if Nat.eqb x y then a else f y.
Definition with_var (t : store) (x : ident) (n : nat) : store := {| slices := slices t; vars := upd (vars t) x n; calls := calls t |}.
Definition with_slice (t : store) (x : ident) (l : list nat) : store := {| slices := upd (slices t) x l; vars := vars t; calls := calls t |}.
Section Run.
Variable pair : nat -> nat -> nat.
(* None for a panic *)
Fixpoint eval (v : value) (t : store) : option (nat * store) :=
  match v with
  | VVar x => Some (vars t x, t)
  | VLit n => Some (n, t)
  | VLen s => Some (length (slices t s), t)
  | VPair a b =>
      match eval a t with Some (m, t) => match eval b t with Some (n, t) => Some (pair m n, t) | None => None end | None => None end
  | VIndex s i => match eval i t with Some (n, t) => match nth_error (slices t s) n with Some v => Some (v, t) | None => None end | None => None end
  | VCall a =>
      match eval a t with Some (n, t) => Some (n + calls t, {| slices := slices t; vars := vars t; calls := S (calls t) |}) | None => None end
  end.
Definition set_nth (l : list nat) (i v : nat) : option (list nat) :=
  if Nat.ltb i (length l) then Some (firstn i l ++ v :: skipn (S i) l) else None.
(* s[i] = v: the value first *)
Definition assign (s : ident) (i : nat) (v : value) (t : store) : option store :=
  match eval v t with Some (n, t) => match set_nth (slices t s) i n with Some l => Some (with_slice t s l) | None => None end | None => None end.
(* The body for each of the numbers *)
Fixpoint each (body : nat -> store -> option store) (l : list nat) (t : store) : option store :=
  match l with [] => Some t | n :: l => match body n t with Some t => each body l t | None => None end end.
(* The variable of the loop is only seen in it *)
Definition exec (l : loop) (t : store) : option store :=
  match l with
  | LRange p start inclusive r s i v =>
      let len := length (slices t r) in
      match each (fun n t => assign s (vars (with_var t p n) i) v (with_var t p n)) (seq start ((if inclusive then S len else len) - start)) t with
      | Some t' => Some (with_var t' p (vars t p))
      | None => None
      end
  (* p is at each of the elements; only where q is p, *q is the element *)
  | LIter p s q v =>
      match each (fun n t => if Nat.eqb q p then assign s n v (with_var t p n) else None) (seq 0 (length (slices t s))) t with
      | Some t' => Some (with_var t' p (vars t p))
      | None => None
      end
  end.
(* s.fill(v) *)
Definition filled (s : ident) (v : value) (t : store) : option store :=
  match eval v t with Some (n, t) => Some (with_slice t s (repeat n (length (slices t s)))) | None => None end.
End Run.
Definition same (a b : option store) : Prop :=
  match a, b with
  | Some a, Some b => (forall s, slices a s = slices b s) /\ (forall x, vars a x = vars b x) /\ calls a = calls b
  | None, None => True
  | _, _ => False
  end.
