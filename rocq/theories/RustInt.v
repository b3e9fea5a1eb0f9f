(** Rust primitive integer types and their arithmetic.

    This file is part of the specification: it states what the Rust language
    does (Rust Reference, "Numeric types", "Operator expressions" and "Type
    cast expressions"), not what Clippy does.  The only Clippy-related choice is
    which types exist: the twelve integer types, with the pointer-sized ones
    depending on the target pointer width (16, 32 or 64, see
    /repo/clippy_lints/src/casts/cast_possible_wrap.rs:8-9 for the same list). *)
From Coq Require Export ZArith List Bool Lia.
Export ListNotations.
Open Scope Z_scope.

(** Size of an integer type; [WSize] is the pointer size. *)
Inductive isz := W8 | W16 | W32 | W64 | W128 | WSize.

(** An integer type: signedness and size. *)
Inductive ity := IT (sgn : bool) (sz : isz).

Definition ity_signed (t : ity) : bool := let 'IT s _ := t in s.
Definition ity_size (t : ity) : isz := let 'IT _ z := t in z.

Definition i8 := IT true W8.    Definition u8 := IT false W8.
Definition i16 := IT true W16.  Definition u16 := IT false W16.
Definition i32 := IT true W32.  Definition u32 := IT false W32.
Definition i64 := IT true W64.  Definition u64 := IT false W64.
Definition i128 := IT true W128. Definition u128 := IT false W128.
Definition isize := IT true WSize. Definition usize := IT false WSize.

(** Target pointer widths. *)
Inductive ptrw := P16 | P32 | P64.
Definition pbits (p : ptrw) : Z := match p with P16 => 16 | P32 => 32 | P64 => 64 end.

Definition sbits (p : ptrw) (s : isz) : Z :=
  match s with W8 => 8 | W16 => 16 | W32 => 32 | W64 => 64 | W128 => 128 | WSize => pbits p end.
Definition bits (p : ptrw) (t : ity) : Z := sbits p (ity_size t).

(** Smallest and largest value. *)
Definition imin (p : ptrw) (t : ity) : Z := if ity_signed t then - 2 ^ (bits p t - 1) else 0.
Definition imax (p : ptrw) (t : ity) : Z :=
  if ity_signed t then 2 ^ (bits p t - 1) - 1 else 2 ^ bits p t - 1.
Definition inr (p : ptrw) (t : ity) (z : Z) : bool := (imin p t <=? z) && (z <=? imax p t).

(** Two's complement wrap-around into the type. *)
Definition wrap (p : ptrw) (t : ity) (z : Z) : Z :=
  if ity_signed t
  then (z + 2 ^ (bits p t - 1)) mod 2 ^ bits p t - 2 ^ (bits p t - 1)
  else z mod 2 ^ bits p t.

(** The unsigned bit pattern of a value, and back. *)
Definition to_bits (p : ptrw) (t : ity) (z : Z) : Z := z mod 2 ^ bits p t.
Definition of_bits (p : ptrw) (t : ity) (u : Z) : Z := wrap p t u.

(** Overflow checks on ([Checked], the debug profile) or off ([Wrapping]). *)
Inductive mode := Checked | Wrapping.

(** Result of evaluating: a value, a panic, or outside the language / ill typed. *)
Inductive res (A : Type) := Ok (a : A) | Panic | Stuck.
Arguments Ok {A} a. Arguments Panic {A}. Arguments Stuck {A}.

Definition rbind {A B} (r : res A) (f : A -> res B) : res B :=
  match r with Ok a => f a | Panic => Panic | Stuck => Stuck end.
Declare Scope res_scope.
Delimit Scope res_scope with res.
Notation "'do' x <- r ; k" := (rbind r (fun x => k)) (at level 200, x name, r at level 100, k at level 200).

(** The exact result [z], or what happens on overflow in mode [m]. *)
Definition arith (m : mode) (p : ptrw) (t : ity) (z : Z) : res Z :=
  if inr p t z then Ok z else match m with Checked => Panic | Wrapping => Ok (wrap p t z) end.

(** Binary integer operators (both operands of type [t], except that a shift
    amount may have any integer type and is passed as its value). *)
Inductive iop := OAdd | OSub | OMul | ODiv | ORem | OAnd | OOr | OXor | OShl | OShr.

Definition int_op (m : mode) (p : ptrw) (t : ity) (o : iop) (a b : Z) : res Z :=
  match o with
  | OAdd => arith m p t (a + b)
  | OSub => arith m p t (a - b)
  | OMul => arith m p t (a * b)
  | ODiv => if b =? 0 then Panic else if inr p t (Z.quot a b) then Ok (Z.quot a b) else Panic
  | ORem => if b =? 0 then Panic else if inr p t (Z.quot a b) then Ok (Z.rem a b) else Panic
  | OAnd => Ok (Z.land a b)
  | OOr => Ok (Z.lor a b)
  | OXor => Ok (Z.lxor a b)
  | OShl => if (0 <=? b) && (b <? bits p t) then Ok (wrap p t (a * 2 ^ b))
            else match m with Checked => Panic | Wrapping => Ok (wrap p t (a * 2 ^ (b mod bits p t))) end
  | OShr => if (0 <=? b) && (b <? bits p t) then Ok (a / 2 ^ b)
            else match m with Checked => Panic | Wrapping => Ok (a / 2 ^ (b mod bits p t)) end
  end.

(** Unary minus (signed types only) and bitwise complement. *)
Definition int_neg (m : mode) (p : ptrw) (t : ity) (a : Z) : res Z :=
  if ity_signed t then arith m p t (- a) else Stuck.
Definition int_not (p : ptrw) (t : ity) (a : Z) : Z :=
  if ity_signed t then - a - 1 else 2 ^ bits p t - 1 - a.

(** Comparison operators. *)
Inductive cop := CLt | CLe | CGt | CGe | CEq | CNe.
Definition cmp_op (c : cop) (a b : Z) : bool :=
  match c with
  | CLt => a <? b | CLe => a <=? b | CGt => b <? a | CGe => b <=? a
  | CEq => a =? b | CNe => negb (a =? b)
  end.

(** The same operators read off a three-way (possibly undefined) comparison:
    [None] is the unordered outcome (NaN).  Rust: [PartialOrd]/[PartialEq]. *)
Definition cmp_of (c : cop) (o : option comparison) : bool :=
  match c, o with
  | CNe, None => true
  | _, None => false
  | CLt, Some Lt => true | CLe, Some Lt => true | CLe, Some Eq => true
  | CGt, Some Gt => true | CGe, Some Gt => true | CGe, Some Eq => true
  | CEq, Some Eq => true | CNe, Some Lt => true | CNe, Some Gt => true
  | _, _ => false
  end.

Definition ity_eqb (a b : ity) : bool :=
  match a, b with
  | IT s1 z1, IT s2 z2 => Bool.eqb s1 s2 &&
      match z1, z2 with
      | W8, W8 | W16, W16 | W32, W32 | W64, W64 | W128, W128 | WSize, WSize => true
      | _, _ => false
      end
  end.
Definition ity_eq_dec (a b : ity) : {a = b} + {a <> b}.
Proof. decide equality; decide equality. Defined.
