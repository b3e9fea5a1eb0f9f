(** A small typed Rust expression language and its evaluator.

    Specification of the language fragment the value-level lints talk about.
    Blocks, parentheses, `DropTemps` and reborrows of `Copy` operands are
    transparent and therefore absent.  Expressions are pure: anything with side
    effects is outside the fragment. *)
From Coq Require Import SpecFloat.
From Verif Require Export RustInt StdSpec.
Open Scope Z_scope.

(** Values: typed integers, booleans, IEEE floats, optional integers
    (the result of [checked_*]). *)
Inductive val :=
| VI (t : ity) (z : Z)
| VB (b : bool)
| VF (f : spec_float)
| VO (t : ity) (o : option Z).

Inductive ty := TI (t : ity) | TB | TF | TO (t : ity).

(** Methods, by number of arguments. *)
Inductive meth0 :=
| MWrappingNeg | MIsPow2 | MCountOnes | MTrailingZeros | MLeadingZeros | MIlog2
| MBitWidth | MIsolateLowestOne | MAbs | MUnsignedAbs | MCountZeros
| MSignum | MIsqrt | MSatAbs | MChkAbs | MUnwrap.
Inductive meth1 :=
| MRotl | MRotr | MDivCeil | MNextMultipleOf | MAbsDiff | MRemEuclid | MIsMultipleOf
| MMidpoint | MMin | MMax | MSatAdd | MSatSub | MSatMul | MChkAdd | MChkSub | MChkMul
| MUnwrapOr | MPow | MWrapAdd | MWrapSub | MSatPow | MChkPow | MWrapPow | MWrapRemEuclid
| MIlog.
Inductive meth2 := MClamp.

(** Associated constants [T::MIN], [T::MAX], [T::BITS]. *)
Inductive assoc := AMin | AMax | ABits.

Inductive unop := UNeg | UNot.
Inductive binop := BI (o : iop) | BC (c : cop) | BAnd | BOr.

Inductive expr :=
| ELit (t : ity) (n : Z)                  (* integer literal, already typed *)
| EBool (b : bool)
| EFloat (f : spec_float)                 (* f64 literal *)
| EVar (t : ty) (x : nat)
| EAssoc (t : ity) (a : assoc)
| EUn (o : unop) (e : expr)
| EBin (o : binop) (e1 e2 : expr)
| ECast (e : expr) (t : ity)
| EM0 (m : meth0) (e : expr)
| EM1 (m : meth1) (e a : expr)
| EM2 (m : meth2) (e a b : expr)
| EIf (c a b : expr)
| EContains (incl : bool) (lo hi x : expr). (* (lo..hi).contains(&x) / (lo..=hi).contains(&x) *)

Definition env := nat -> val.

(** The literal value typed [t] is representable. *)
Definition val_wf (p : ptrw) (v : val) : bool :=
  match v with
  | VI t z => inr p t z
  | VO t (Some z) => inr p t z
  | _ => true
  end.
Definition val_ty (v : val) : ty :=
  match v with VI t _ => TI t | VB _ => TB | VF _ => TF | VO t _ => TO t end.
Definition ty_eqb (a b : ty) : bool :=
  match a, b with
  | TI x, TI y => ity_eqb x y | TB, TB => true | TF, TF => true | TO x, TO y => ity_eqb x y
  | _, _ => false
  end.

(** Comparison of two values of the same type. *)
Definition val_cmp (a b : val) : res (option comparison) :=
  match a, b with
  | VI t x, VI t' y => if ity_eqb t t' then Ok (Some (x ?= y)) else Stuck
  | VB x, VB y => Ok (Some (Z.b2z x ?= Z.b2z y))
  | VF x, VF y => Ok (SFcompare x y)
  | _, _ => Stuck
  end.

Definition unsigned_of (t : ity) : ity := IT false (ity_size t).

(** Methods without arguments.  [z] is in range of [t]. *)
Definition sem0 (m : mode) (p : ptrw) (k : meth0) (t : ity) (z : Z) : res val :=
  let w := bits p t in let u := to_bits p t z in
  match k with
  | MWrappingNeg => Ok (VI t (wrap p t (- z)))
  | MIsPow2 => if ity_signed t then Stuck else Ok (VB (is_pow2 u))
  | MCountOnes => Ok (VI u32 (ones u))
  | MCountZeros => Ok (VI u32 (w - ones u))
  | MTrailingZeros => Ok (VI u32 (ctz w u))
  | MLeadingZeros => Ok (VI u32 (clz w u))
  | MIlog2 => if z <=? 0 then Panic else Ok (VI u32 (Z.log2 z))
  | MBitWidth => if ity_signed t then Stuck else Ok (VI u32 (w - clz w u))
  | MIsolateLowestOne => Ok (VI t (of_bits p t (lowest_one u)))
  | MAbs => if ity_signed t then do r <- arith m p t (Z.abs z); Ok (VI t r) else Stuck
  | MUnsignedAbs => if ity_signed t then Ok (VI (unsigned_of t) (Z.abs z)) else Stuck
  | MSignum => if ity_signed t then Ok (VI t (Z.sgn z)) else Stuck
  | MIsqrt => if z <? 0 then Panic else Ok (VI t (Z.sqrt z))
  | MSatAbs => if ity_signed t then Ok (VI t (sat (imin p t) (imax p t) (Z.abs z))) else Stuck
  | MChkAbs => if ity_signed t then Ok (VO t (if inr p t (Z.abs z) then Some (Z.abs z) else None)) else Stuck
  | MUnwrap => Stuck
  end.

(** Integer logarithm: how often [z] can be divided by [b] before it is less than [b]. *)
Fixpoint ilog (fuel : nat) (b z : Z) : Z :=
  match fuel with O => 0 | S f => if z <? b then 0 else 1 + ilog f b (z / b) end.
Arguments ilog : simpl never.

(** Methods with one integer argument of the same type ([pow], [rotate_*] take a u32). *)
Definition sem1 (m : mode) (p : ptrw) (k : meth1) (t : ity) (z : Z) (t' : ity) (y : Z) : res val :=
  let w := bits p t in
  let same (r : res val) := if ity_eqb t t' then r else Stuck in
  let u32arg (r : res val) := if ity_eqb t' u32 then r else Stuck in
  match k with
  | MRotl => u32arg (Ok (VI t (of_bits p t (rotl w (to_bits p t z) y))))
  | MRotr => u32arg (Ok (VI t (of_bits p t (rotr w (to_bits p t z) y))))
  | MDivCeil => same (if y =? 0 then Panic else
                      if inr p t (zceil_div z y) then Ok (VI t (zceil_div z y)) else Panic)
  | MNextMultipleOf => same (if ity_signed t then Stuck else
                      if y =? 0 then Panic else do r <- arith m p t (zceil_div z y * y); Ok (VI t r))
  | MAbsDiff => same (Ok (VI (unsigned_of t) (Z.abs (z - y))))
  | MRemEuclid => same (if y =? 0 then Panic else
                      if inr p t (Z.quot z y) then Ok (VI t (zrem_euclid z y)) else Panic)
  | MIsMultipleOf => same (if ity_signed t then Stuck else
                      Ok (VB (if y =? 0 then z =? 0 else z mod y =? 0)))
  | MMidpoint => same (Ok (VI t (Z.quot (z + y) 2)))
  | MMin => same (Ok (VI t (Z.min z y)))
  | MMax => same (Ok (VI t (Z.max z y)))
  | MSatAdd => same (Ok (VI t (sat (imin p t) (imax p t) (z + y))))
  | MSatSub => same (Ok (VI t (sat (imin p t) (imax p t) (z - y))))
  | MSatMul => same (Ok (VI t (sat (imin p t) (imax p t) (z * y))))
  | MChkAdd => same (Ok (VO t (if inr p t (z + y) then Some (z + y) else None)))
  | MChkSub => same (Ok (VO t (if inr p t (z - y) then Some (z - y) else None)))
  | MChkMul => same (Ok (VO t (if inr p t (z * y) then Some (z * y) else None)))
  | MWrapAdd => same (Ok (VI t (wrap p t (z + y))))
  | MWrapSub => same (Ok (VI t (wrap p t (z - y))))
  | MPow => u32arg (do r <- arith m p t (z ^ y); Ok (VI t r))
  | MSatPow => u32arg (Ok (VI t (sat (imin p t) (imax p t) (z ^ y))))
  | MChkPow => u32arg (Ok (VO t (if inr p t (z ^ y) then Some (z ^ y) else None)))
  | MWrapPow => u32arg (Ok (VI t (wrap p t (z ^ y))))
  | MWrapRemEuclid => same (if y =? 0 then Panic else Ok (VI t (zrem_euclid z y)))
  | MIlog => same (if (z <=? 0) || (y <? 2) then Panic else Ok (VI u32 (ilog 128 y z)))
  | MUnwrapOr => Stuck
  end.

(** Floating point (f64): IEEE arithmetic as in Coq's [SpecFloat]; `%` is left out of the fragment.
    [min]/[max] return the other argument for a NaN (the choice between the two zeros is
    unspecified in Rust; here the first argument wins); [clamp] is the loop of the documentation. *)
Definition float_op (o : iop) (x y : spec_float) : option spec_float :=
  match o with
  | OAdd => Some (SFadd 53 1024 x y) | OSub => Some (SFsub 53 1024 x y)
  | OMul => Some (SFmul 53 1024 x y) | ODiv => Some (SFdiv 53 1024 x y)
  | _ => None
  end.
Definition is_nan (x : spec_float) : bool := match x with S754_nan => true | _ => false end.
Definition fmin (x y : spec_float) : spec_float :=
  if is_nan x then y else if is_nan y then x else if SFltb y x then y else x.
Definition fmax (x y : spec_float) : spec_float :=
  if is_nan x then y else if is_nan y then x else if SFltb x y then y else x.
Definition fclamp (lo hi x : spec_float) : spec_float :=
  let x := if SFltb x lo then lo else x in if SFltb hi x then hi else x.

(** Evaluation.  A variable yields its environment value provided that value has
    the variable's type and is representable, so every environment is usable. *)
Fixpoint eval (m : mode) (p : ptrw) (rho : env) (e : expr) : res val :=
  match e with
  | ELit t n => if inr p t n && (0 <=? n) then Ok (VI t n) else Stuck
  | EBool b => Ok (VB b)
  | EFloat f => Ok (VF f)
  | EVar t x => if ty_eqb (val_ty (rho x)) t && val_wf p (rho x) then Ok (rho x) else Stuck
  | EAssoc t AMin => Ok (VI t (imin p t))
  | EAssoc t AMax => Ok (VI t (imax p t))
  | EAssoc t ABits => Ok (VI u32 (bits p t))
  | EUn UNeg (ELit t n) =>                     (* `-128i8` is a legal literal *)
      if ity_signed t && inr p t (- n) && (0 <=? n) then Ok (VI t (- n)) else Stuck
  | EUn o e =>
      do v <- eval m p rho e;
      match o, v with
      | UNeg, VI t z => do r <- int_neg m p t z; Ok (VI t r)
      | UNeg, VF f => Ok (VF (SFopp f))
      | UNot, VI t z => Ok (VI t (int_not p t z))
      | UNot, VB b => Ok (VB (negb b))
      | _, _ => Stuck
      end
  | EBin BAnd a b =>
      do va <- eval m p rho a;
      match va with
      | VB false => Ok (VB false)
      | VB true => do vb <- eval m p rho b; match vb with VB x => Ok (VB x) | _ => Stuck end
      | _ => Stuck
      end
  | EBin BOr a b =>
      do va <- eval m p rho a;
      match va with
      | VB true => Ok (VB true)
      | VB false => do vb <- eval m p rho b; match vb with VB x => Ok (VB x) | _ => Stuck end
      | _ => Stuck
      end
  | EBin (BC c) a b =>
      do va <- eval m p rho a; do vb <- eval m p rho b;
      do o <- val_cmp va vb; Ok (VB (cmp_of c o))
  | EBin (BI o) a b =>
      do va <- eval m p rho a; do vb <- eval m p rho b;
      match va, vb with
      | VI t x, VI t' y =>
          match o with
          | OShl | OShr => do r <- int_op m p t o x y; Ok (VI t r)
          | _ => if ity_eqb t t' then do r <- int_op m p t o x y; Ok (VI t r) else Stuck
          end
      | VB x, VB y =>
          match o with
          | OAnd => Ok (VB (x && y)) | OOr => Ok (VB (x || y)) | OXor => Ok (VB (xorb x y))
          | _ => Stuck
          end
      | VF x, VF y => match float_op o x y with Some f => Ok (VF f) | None => Stuck end
      | _, _ => Stuck
      end
  | ECast e t =>
      do v <- eval m p rho e;
      match v with
      | VI _ z => Ok (VI t (wrap p t z))
      | VB b => Ok (VI t (Z.b2z b))
      | _ => Stuck
      end
  | EM0 k e =>
      do v <- eval m p rho e;
      match v, k with
      | VI t z, _ => sem0 m p k t z
      | VO t o, MUnwrap => match o with Some z => Ok (VI t z) | None => Panic end
      | _, _ => Stuck
      end
  | EM1 k e a =>
      do v <- eval m p rho e; do va <- eval m p rho a;
      match k, v, va with
      | MUnwrapOr, VO t o, VI t' d =>
          if ity_eqb t t' then Ok (VI t (match o with Some z => z | None => d end)) else Stuck
      | _, VI t z, VI t' y => sem1 m p k t z t' y
      | MMin, VF x, VF y => Ok (VF (fmin x y))
      | MMax, VF x, VF y => Ok (VF (fmax x y))
      | _, _, _ => Stuck
      end
  | EM2 MClamp e a b =>
      do v <- eval m p rho e; do va <- eval m p rho a; do vb <- eval m p rho b;
      match v, va, vb with
      | VI t z, VI ta lo, VI tb hi =>
          if ity_eqb t ta && ity_eqb t tb then
            if hi <? lo then Panic else Ok (VI t (sat lo hi z))
          else Stuck
      | VF x, VF lo, VF hi => if SFleb lo hi then Ok (VF (fclamp lo hi x)) else Panic
      | _, _, _ => Stuck
      end
  | EIf c a b =>
      do vc <- eval m p rho c;
      match vc with
      | VB true => eval m p rho a
      | VB false => eval m p rho b
      | _ => Stuck
      end
  | EContains incl lo hi x =>
      do vl <- eval m p rho lo; do vh <- eval m p rho hi; do vx <- eval m p rho x;
      do o1 <- val_cmp vl vx; do o2 <- val_cmp vx vh;
      Ok (VB (cmp_of CLe o1 && cmp_of (if incl then CLe else CLt) o2))
  end.

(** Static type of an expression (what [TypeckResults::expr_ty] answers). *)
Fixpoint ty_of (e : expr) : option ty :=
  match e with
  | ELit t _ => Some (TI t)
  | EBool _ => Some TB
  | EFloat _ => Some TF
  | EVar t _ => Some t
  | EAssoc t ABits => Some (TI u32)
  | EAssoc t _ => Some (TI t)
  | EUn _ e => ty_of e
  | EBin (BI _) a _ => ty_of a
  | EBin _ _ _ => Some TB
  | ECast _ t => Some (TI t)
  | EM0 k e =>
      match k with
      | MWrappingNeg | MAbs | MIsolateLowestOne | MSignum | MIsqrt | MSatAbs => ty_of e
      | MChkAbs => match ty_of e with Some (TI t) => Some (TO t) | _ => None end
      | MUnwrap => match ty_of e with Some (TO t) => Some (TI t) | _ => None end
      | MIsPow2 => Some TB
      | MUnsignedAbs => match ty_of e with Some (TI t) => Some (TI (unsigned_of t)) | _ => None end
      | _ => Some (TI u32)
      end
  | EM1 k e _ =>
      match k with
      | MIsMultipleOf => Some TB
      | MIlog => Some (TI u32)
      | MAbsDiff => match ty_of e with Some (TI t) => Some (TI (unsigned_of t)) | _ => None end
      | MChkAdd | MChkSub | MChkMul | MChkPow => match ty_of e with Some (TI t) => Some (TO t) | _ => None end
      | MUnwrapOr => match ty_of e with Some (TO t) => Some (TI t) | _ => None end
      | _ => ty_of e
      end
  | EM2 _ e _ _ => ty_of e
  | EIf _ a b =>
      match ty_of a, ty_of b with
      | Some x, Some y => if ty_eqb x y then Some x else None
      | _, _ => None
      end
  | EContains _ _ _ _ => Some TB
  end.

(** Syntactic equality: the model of [SpanlessEq]/[eq_expr_value] on pure
    expressions (/repo/clippy_utils/src/hir_utils.rs). *)
Definition expr_eq_dec (a b : expr) : {a = b} + {a <> b}.
Proof.
  decide equality; try apply Z.eq_dec; try apply Bool.bool_dec; try apply Nat.eq_dec;
    try apply ity_eq_dec; decide equality; try apply ity_eq_dec; try apply Z.eq_dec;
    try apply Pos.eq_dec; decide equality.
Defined.
Definition expr_eqb (a b : expr) : bool := if expr_eq_dec a b then true else false.
