(* Vectors that are allocated and then filled with zeros (/repo/clippy_lints/src/slow_vector_initialization.rs).  Does not depend on SviModel.v. *)
From Coq Require Import List Bool PeanoNat.
Import ListNotations.

Notation ident := nat (only parsing).
(* Expressions for sizes *)
Inductive size :=
| ZVar (x : ident)
| ZLit (n : nat)
| ZAdd (a b : size)
| ZLen (v : ident)           (* v.len() *)
| ZCap (v : ident)           (* v.capacity() *)
| ZCall.                     (* a call that counts how often it was made, and tells so *)
Inductive alloc := ANew | ACap (z : size) | AZeros (z : size).   (* Vec::new(), Vec::with_capacity(z), vec![0; z] *)
Inductive stm :=
| SInit (v : ident) (a : alloc)                     (* let mut v = a; or v = a; *)
| SMatch (x : ident) (a b : stm)                    (* match x { 0 => a, _ => b } *)
| SResize (v : ident) (z : size) (fill : nat)       (* v.resize(z, fill) *)
| SExtend (v : ident) (elem : nat) (z : size)       (* v.extend(repeat(elem).take(z)) *)
| SOther.
Record store := { vecs : ident -> list nat; caps : ident -> nat; nums : ident -> nat; calls : nat }.
Definition upd {A} (f : ident -> A) (x : ident) (a : A) : ident -> A := fun y => if Nat.eqb x y then a else f y.
Definition with_vec (s : store) (v : ident) (l : list nat) (c : nat) : store :=
  {| vecs := upd (vecs s) v l; caps := upd (caps s) v c; nums := nums s; calls := calls s |}.
Fixpoint value (z : size) (s : store) : nat * store :=
  match z with
  | ZVar x => (nums s x, s)
  | ZLit n => (n, s)
  | ZAdd a b => let (m, s) := value a s in let (n, s) := value b s in (m + n, s)
  | ZLen v => (length (vecs s v), s)
  | ZCap v => (caps s v, s)
  | ZCall => (S (calls s), {| vecs := vecs s; caps := caps s; nums := nums s; calls := S (calls s) |})
  end.
Section Run.
(* An allocation has room for as many as it was asked for, or more *)
Variable room : nat -> nat.
Definition allocated (v : ident) (a : alloc) (s : store) : store :=
  match a with
  | ANew => with_vec s v [] 0
  | ACap z => let (n, s) := value z s in with_vec s v [] (room n)
  | AZeros z => let (n, s) := value z s in with_vec s v (repeat 0 n) (room n)
  end.
Definition resized (l : list nat) (n fill : nat) : list nat := firstn n l ++ repeat fill (n - length l).
Fixpoint exec (t : stm) (s : store) : store :=
  match t with
  | SInit v a => allocated v a s
  | SMatch x a b => if Nat.eqb (nums s x) 0 then exec a s else exec b s
  | SResize v z fill => let (n, s) := value z s in with_vec s v (resized (vecs s v) n fill) (Nat.max (caps s v) (room n))
  | SExtend v e z => let (n, s) := value z s in with_vec s v (vecs s v ++ repeat e n) (Nat.max (caps s v) (room (length (vecs s v) + n)))
  | SOther => s
  end.
End Run.
(* The same but for capacities *)
Definition same (s t : store) : Prop :=
  (forall v, vecs s v = vecs t v) /\ (forall x, nums s x = nums t x) /\ calls s = calls t.
(* Sizes without calls, that do not ask the vector itself, or a capacity *)
Fixpoint plain (v : ident) (z : size) : bool :=
  match z with
  | ZVar _ | ZLit _ => true
  | ZAdd a b => plain v a && plain v b
  | ZLen w => negb (Nat.eqb v w)
  | ZCap _ | ZCall => false
  end.
