(** Documented meaning of the standard-library integer methods that Clippy
    suggestions use.  Specification only, on mathematical integers; sources are
    the std documentation of the primitive integer types. *)
From Verif Require Export RustInt.
Open Scope Z_scope.

(** Number of one bits of a non-negative number. *)
Fixpoint pos_ones (q : positive) : Z :=
  match q with xH => 1 | xO q' => pos_ones q' | xI q' => 1 + pos_ones q' end.
Definition ones (u : Z) : Z := match u with Zpos q => pos_ones q | _ => 0 end.

(** Number of trailing zero bits of a positive number. *)
Fixpoint pos_ctz (q : positive) : Z :=
  match q with xH => 0 | xI _ => 0 | xO q' => 1 + pos_ctz q' end.
(** [trailing_zeros]: the width for 0. *)
Definition ctz (w u : Z) : Z := match u with Zpos q => pos_ctz q | _ => w end.
(** [leading_zeros]: the width for 0. *)
Definition clz (w u : Z) : Z := if u =? 0 then w else w - 1 - Z.log2 u.

(** [rotate_left] of a [w]-bit pattern: bits shifted out at the top re-enter at
    the bottom; the amount is taken modulo the width. *)
Definition rotl (w u n : Z) : Z :=
  let k := n mod w in (u * 2 ^ k) mod 2 ^ w + u / 2 ^ (w - k).
Definition rotr (w u n : Z) : Z := rotl w u (w - n mod w).

(** Ceiling of the exact quotient. *)
Definition zceil_div (a b : Z) : Z := - ((- a) / b).

(** [2^k] for some [k >= 0]. *)
Definition is_pow2 (u : Z) : bool := (0 <? u) && (u =? 2 ^ Z.log2 u).

(** Clamp to an interval. *)
Definition sat (lo hi z : Z) : Z := if z <? lo then lo else if hi <? z then hi else z.

(** Euclidean remainder: the unique r with 0 <= r < |b| and b | a - r. *)
Definition zrem_euclid (a b : Z) : Z := a mod (Z.abs b).

(** Only the lowest one bit kept (0 for 0). *)
Definition lowest_one (u : Z) : Z := match u with Zpos q => 2 ^ pos_ctz q | _ => 0 end.
