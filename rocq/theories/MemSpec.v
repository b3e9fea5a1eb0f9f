(* Loops over ranges that assign elements of arrays, and copies between slices: the meaning of what
   /repo/clippy_lints/src/loops/manual_memcpy.rs looks at and of what it suggests.  Does not depend on MemModel.v. *)
From Coq Require Import List ZArith Bool Lia.
Import ListNotations.
Open Scope Z_scope.

(* Indices are usize. *)
Definition W : Z := 2 ^ 64.
Definition fit (z : Z) : option Z := if (0 <=? z) && (z <? W) then Some z else None.

(* The expressions indexed: local variables, and others such as fields. *)
Inductive base := BLocal (a : nat) | BPath (a : nat).
Definition base_eqb (a b : base) : bool :=
  match a, b with BLocal x, BLocal y | BPath x, BPath y => Nat.eqb x y | _, _ => false end.

Inductive ix := ILit (n : Z) | IVar (x : nat) | ILen (b : base) | IAdd (a b : ix) | ISub (a b : ix) | INeg (a : ix).
Inductive stmt :=
| SCopy (d : base) (i : ix) (s : base) (j : ix)   (* d[i] = s[j]; *)
| SAdd (x : nat) (k : Z)                          (* x += k; *)
| SAddAt (b : base) (i : ix) (k : Z)              (* b[i] += k; *)
| SLet (x : nat) (e : ix)                         (* let x = e; *)
| SSet (x : nat) (e : ix).                        (* x = e; *)

Record st := { var : nat -> Z; arr : base -> list Z }.
Definition size (s : st) (b : base) : Z := Z.of_nat (length (arr s b)).

(* None: panics (overflow). *)
Fixpoint ev (s : st) (e : ix) : option Z :=
  match e with
  | ILit n => fit n
  | IVar x => fit (var s x)
  | ILen b => fit (size s b)
  | IAdd a b => match ev s a, ev s b with Some x, Some y => fit (x + y) | _, _ => None end
  | ISub a b => match ev s a, ev s b with Some x, Some y => fit (x - y) | _, _ => None end
  | INeg a => match ev s a with Some x => fit (- x) | None => None end
  end.

Definition setv (s : st) (x : nat) (z : Z) : st :=
  {| var := fun y => if Nat.eqb y x then z else var s y; arr := arr s |}.
Definition seta (s : st) (b : base) (l : list Z) : st :=
  {| var := var s; arr := fun c => if base_eqb c b then l else arr s c |}.
Fixpoint upd (l : list Z) (n : nat) (v : Z) : list Z :=
  match l, n with [], _ => [] | _ :: r, O => v :: r | a :: r, S m => a :: upd r m v end.
Definition elem (s : st) (b : base) (z : Z) : option Z :=
  if (0 <=? z) && (z <? size s b) then Some (nth (Z.to_nat z) (arr s b) 0) else None.
Definition store (s : st) (b : base) (z v : Z) : option st :=
  if (0 <=? z) && (z <? size s b) then Some (seta s b (upd (arr s b) (Z.to_nat z) v)) else None.

Definition step (s : st) (c : stmt) : option st :=
  match c with
  | SCopy d i b j =>
      match ev s j with
      | Some y => match elem s b y with
                  | Some v => match ev s i with Some x => store s d x v | None => None end
                  | None => None
                  end
      | None => None
      end
  | SAdd x k => match fit (var s x + k) with Some z => Some (setv s x z) | None => None end
  | SAddAt b i k =>
      match ev s i with
      | Some x => match elem s b x with Some v => store s b x (v + k) | None => None end
      | None => None
      end
  | SLet x e | SSet x e => match ev s e with Some z => Some (setv s x z) | None => None end
  end.
Fixpoint steps (s : st) (l : list stmt) : option st :=
  match l with [] => Some s | c :: r => match step s c with Some s' => steps s' r | None => None end end.
(* n times, with i = z, z + 1, .. *)
Fixpoint iter (i : nat) (body : list stmt) (n : nat) (z : Z) (s : st) : option st :=
  match n with
  | O => Some s
  | S n => match steps (setv s i z) body with Some s' => iter i body n (z + 1) s' | None => None end
  end.
(* for i in lo..hi (closed: lo..=hi) { body }; None: it panics *)
Definition rounds (closed : bool) (a b : Z) : Z := if closed then b + 1 - a else b - a.
Definition loop (i : nat) (lo hi : ix) (closed : bool) (body : list stmt) (s : st) : option st :=
  match ev s lo, ev s hi with
  | Some a, Some b => iter i body (Z.to_nat (rounds closed a b)) a s
  | _, _ => None
  end.

(* d[dlo..dhi].copy_from_slice(&b[blo..bhi]); bounds may be absent *)
Record copy := { d_ : base; dlo : option ix; dhi : option ix; s_ : base; slo : option ix; shi : option ix }.
Definition bound (s : st) (e : option ix) (z : Z) : option Z := match e with Some e => ev s e | None => Some z end.
Definition slice (s : st) (b : base) (lo hi : option ix) : option (Z * Z) :=
  match bound s lo 0, bound s hi (size s b) with
  | Some x, Some y => if (0 <=? x) && (x <=? y) && (y <=? size s b) then Some (x, y) else None
  | _, _ => None
  end.
Definition run_copy (s : st) (c : copy) : option st :=
  match slice s (d_ c) (dlo c) (dhi c), slice s (s_ c) (slo c) (shi c) with
  | Some (x, y), Some (u, v) =>
      if y - x =? v - u
      then Some (seta s (d_ c) (firstn (Z.to_nat x) (arr s (d_ c)) ++
                                firstn (Z.to_nat (v - u)) (skipn (Z.to_nat u) (arr s (s_ c))) ++
                                skipn (Z.to_nat y) (arr s (d_ c))))
      else None
  | _, _ => None
  end.
Fixpoint run_copies (s : st) (l : list copy) : option st :=
  match l with [] => Some s | c :: r => match run_copy s c with Some s' => run_copies s' r | None => None end end.

(* Variables of an expression. *)
Fixpoint vars (e : ix) : list nat :=
  match e with ILit _ | ILen _ => [] | IVar x => [x] | IAdd a b | ISub a b => vars a ++ vars b | INeg a => vars a end.

(* Bodies of assignments of elements and increments of variables only, where they write and read, and their indices. *)
Definition plain (c : stmt) : bool := match c with SCopy _ _ _ _ | SAdd _ _ => true | _ => false end.
Definition dests (body : list stmt) : list base := flat_map (fun c => match c with SCopy d _ _ _ => [d] | _ => [] end) body.
Definition sources (body : list stmt) : list base := flat_map (fun c => match c with SCopy _ _ b _ => [b] | _ => [] end) body.
Definition indices (body : list stmt) : list ix := flat_map (fun c => match c with SCopy _ i _ j => [i; j] | _ => [] end) body.
