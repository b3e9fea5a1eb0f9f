(** Specification vocabulary for the cast lints. *)
From Verif Require Export LintSpec.
Open Scope Z_scope.

(** `e as to` has the mathematical value of [e] (whenever [e] evaluates to an integer). *)
Definition cast_keeps (m : mode) (p : ptrw) (rho : env) (e : expr) (to : ity) : Prop :=
  forall t z, eval m p rho e = Ok (VI t z) -> eval m p rho (ECast e to) = Ok (VI to z).
(** `e as to` evaluates, but to another number than [e]. *)
Definition cast_loses (m : mode) (p : ptrw) (rho : env) (e : expr) (to : ity) : Prop :=
  exists t z z', eval m p rho e = Ok (VI t z) /\ eval m p rho (ECast e to) = Ok (VI to z') /\ z' <> z.

(** A fixed-size type, a pointer-sized type. *)
Definition pointer_sized (t : ity) : bool := match t with IT _ WSize => true | _ => false end.
(** A cast from a fixed-size type to a narrower [usize]/[isize]. *)
Definition narrows_to_pointer (p : ptrw) (from to : ity) : Prop :=
  pointer_sized from = false /\ pointer_sized to = true /\ bits p to < bits p from.

(** Variables, literals and associated constants. *)
Definition is_leaf (e : expr) : bool := match e with ELit _ _ | EVar _ _ | EAssoc _ _ => true | _ => false end.
(** Methods whose result never exceeds the receiver (on unsigned types). *)
Definition never_exceeds (k : meth1) : bool :=
  match k with MMin | MDivCeil | MSatSub | MRemEuclid | MWrapRemEuclid => true | _ => false end.
(** The value of [e] and of every part of it whose size matters is of an unsigned type with at most
    [n] bits, and no method is called on a computed value that may return more than its receiver. *)
Fixpoint unsigned_parts (p : ptrw) (n : Z) (e : expr) : bool :=
  match ty_of e with Some (TI t) => negb (ity_signed t) && (bits p t <=? n) | _ => false end &&
  match e with
  | ECast a _ => unsigned_parts p n a
  | EBin (BI (ODiv | ORem | OShr)) a _ => unsigned_parts p n a
  | EBin (BI OAnd) a b => unsigned_parts p n a && unsigned_parts p n b
  | EM1 k a _ => is_leaf a || (never_exceeds k && unsigned_parts p n a)
  | _ => true
  end.

(** A signed variable, literal or associated constant of at most [n] bits, shifted right and cast to
    other signed types that are not narrower, any number of times. *)
Fixpoint signed_shifts (p : ptrw) (n : Z) (e : expr) : bool :=
  match ty_of e with Some (TI t) => ity_signed t && (bits p t <=? n) | _ => false end &&
  match e with
  | ECast a t => match ty_of a with Some (TI t') => bits p t' <=? bits p t | _ => false end && signed_shifts p n a
  | EBin (BI OShr) a _ => signed_shifts p n a
  | _ => is_leaf e
  end.

(** IEEE 754 binary formats: precision (with the hidden bit) and maximal exponent. *)
Inductive ieee := IEEE (prec emax : Z).
Definition binary16 := IEEE 11 16.     Definition binary32 := IEEE 24 128.
Definition binary64 := IEEE 53 1024.   Definition binary128 := IEEE 113 16384.
(** The integer [z] is a value of the format. *)
Definition exact_in (f : ieee) (z : Z) : Prop :=
  let 'IEEE prec emax := f in
  exists m e, 0 <= e /\ Z.abs m < 2 ^ prec /\ z = m * 2 ^ e /\ Z.abs z < 2 ^ emax.

(** [n] bits are enough for [d], read as signed or as unsigned. *)
Definition enough_bits (n d : Z) : Prop := - 2 ^ n <= 2 * d /\ d < 2 ^ n.

(** Discriminants of an enum (Rust Reference, "Enumerations"): the given value, or one more than
    the previous one, starting from 0. *)
Fixpoint discriminants (next : Z) (l : list (option Z)) : list Z :=
  match l with
  | [] => []
  | v :: l => let d := match v with Some d => d | None => next end in d :: discriminants (d + 1) l
  end.
(** [d] is a value of the widest `repr` type of that signedness. *)
Definition fits_repr (signed : bool) (d : Z) : Prop :=
  if signed then - 2 ^ 127 <= d < 2 ^ 127 else 0 <= d < 2 ^ 128.

(** Finite values [m * 2^e] of an IEEE format. *)
Definition finite_value (f : ieee) (m e : Z) : Prop :=
  let 'IEEE prec emax := f in Z.abs m < 2 ^ prec /\ 3 - emax - prec <= e <= emax - prec.

(** Every `T::MIN as U` and `T::MAX as U` compared with in [e] keeps its value. *)
Fixpoint exact_bounds (p : ptrw) (e : expr) : bool :=
  match e with
  | EBin _ a b => exact_bounds p a && exact_bounds p b
  | ECast (EAssoc t AMin) u => inr p u (imin p t)
  | ECast (EAssoc t AMax) u => inr p u (imax p t)
  | _ => true
  end.
