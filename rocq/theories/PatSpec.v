(** What range patterns match. *)
From Verif Require Import PatModel.
Open Scope Z_scope.

(** The value of a literal in a pattern. *)
Definition lit_value (e : pat_expr) : option Z :=
  match e with PLit neg n => Some (if neg then - n else n) | POtherExpr => None end.
(** The pattern matches the integer [z]. *)
Definition matches (p : pat) (z : Z) : Prop :=
  match p with
  | PExpr e => lit_value e = Some z
  | PRange l r Included => exists a b, lit_value l = Some a /\ lit_value r = Some b /\ a <= z <= b
  | PRange l r Excluded => exists a b, lit_value l = Some a /\ lit_value r = Some b /\ a <= z < b
  | POther => False
  end.
Definition any_matches (l : list pat) (z : Z) : Prop := exists p, In p l /\ matches p z.
(** Patterns the compiler accepts: literals are not negative, ranges are not empty. *)
Definition pat_ok (p : pat) : Prop :=
  match p with
  | PExpr e => exists neg n, e = PLit neg n /\ 0 <= n
  | PRange l r k => (exists neg n, l = PLit neg n /\ 0 <= n) /\ (exists neg n, r = PLit neg n /\ 0 <= n) /\ exists z, matches p z
  | POther => False
  end.

(** An unguarded arm with bounds read as values of type [t]. *)
Definition const_value (p : ptrw) (t : ity) (c : constant) : option Z :=
  match c with CInt u => Some (if ity_signed t then of_bits p t u else u) | _ => None end.
(** The arm is certain to match [z] of type [t]. *)
Definition arm_matches (p : ptrw) (t : ity) (a : arm) (z : Z) : Prop :=
  guarded a = false /\ inr p t z = true /\
  match pattern a with
  | ARange l r k =>
      (match l with
       | None => True
       | Some c => exists a, match c with Some c => const_value p t c = Some a | None => False end /\ a <= z
       end) /\
      (match r with
       | None => True
       | Some c => exists b, match c with Some c => const_value p t c = Some b | None => False end /\ match k with Included => z <= b | Excluded => z < b end
       end)
  | AExpr c => match c with Some c => const_value p t c = Some z | None => False end
  | AOther => False
  end.
(** An arm as the compiler accepts it: bounds are values of the type, the range is not empty,
    an open end is inclusive. *)
Definition arm_ok (p : ptrw) (t : ity) (a : arm) : Prop :=
  let ok c := match c with CInt u => 0 <= u < 2 ^ bits p t | _ => False end in
  match pattern a with
  | ARange l r k =>
      match l with Some (Some c) => ok c | _ => True end /\ match r with Some (Some c) => ok c | None => k = Included | _ => True end /\
      (guarded a = false -> (l <> Some None /\ r <> Some None) -> exists z, arm_matches p t a z)
  | AExpr (Some c) => ok c
  | _ => True
  end.
(** Every literal of the pattern is at most i128::MAX. *)
Definition small_literals (p : pat) : Prop :=
  let small e := match e with PLit _ n => n <= 2 ^ 127 - 1 | POtherExpr => False end in
  match p with PExpr e => small e | PRange l r _ => small l /\ small r | POther => False end.
