(** Model of the shared constant evaluator, /repo/clippy_utils/src/consts.rs,
    and of the bit-pattern helpers in /repo/clippy_utils/src/lib.rs. *)
From Coq Require Import SpecFloat.
From Verif Require Export RustExpr.
Open Scope Z_scope.

(** Host arithmetic: [i128] and [u128] wrap-around. *)
Definition u128w (z : Z) : Z := z mod 2 ^ 128.
Definition i128w (z : Z) : Z := (z + 2 ^ 127) mod 2 ^ 128 - 2 ^ 127.
Definition in_i128 (z : Z) : bool := (- 2 ^ 127 <=? z) && (z <? 2 ^ 127).
Definition in_u128 (z : Z) : bool := (0 <=? z) && (z <? 2 ^ 128).

(** /repo/clippy_utils/src/lib.rs:1655-1658 [sext]: [((u as i128) << amt) >> amt],
    the second shift being arithmetic. [p] is the target pointer width. *)
Definition sext (p : ptrw) (t : ity) (u : Z) : Z :=
  let amt := 128 - bits p t in (i128w (i128w u * 2 ^ amt)) / 2 ^ amt.
(** /repo/clippy_utils/src/lib.rs:1662-1665 [unsext]. *)
Definition unsext (p : ptrw) (t : ity) (s : Z) : Z :=
  let amt := 128 - bits p t in (u128w (u128w s * 2 ^ amt)) / 2 ^ amt.
(** /repo/clippy_utils/src/lib.rs:1668-1672 [clip]. *)
Definition clip (p : ptrw) (t : ity) (u : Z) : Z :=
  let amt := 128 - bits p t in (u128w (u * 2 ^ amt)) / 2 ^ amt.

(** /repo/clippy_utils/src/consts.rs:34-68 [Constant], restricted to the integer, boolean
    and f64 constants the expression language can produce ([CInt] is a bit pattern; compound
    constants are in StructConst.v). *)
Inductive constant := CInt (u : Z) | CBool (b : bool) | CF64 (f : spec_float).

(** consts.rs:75-78 [ensure_fits] with the host bounds of consts.rs:80-125: [usize]/[isize]
    bounds are those of the machine Clippy runs on ([h]), not of the target. *)
Definition ensure_fits (h : ptrw) (t : ity) (z : Z) : option Z := if inr h t z then Some z else None.

(** [checked_*] operations on [i128] ([sg = true]) and [u128]. *)
Definition fits128 (sg : bool) (z : Z) : option Z :=
  if (if sg then in_i128 z else in_u128 z) then Some z else None.

Definition obind {A B} (o : option A) (f : A -> option B) : option B :=
  match o with Some a => f a | None => None end.

(** consts.rs:988-1028: signed arm of [binop]; [l], [r] are bit patterns. *)
Definition binop_signed (h p : ptrw) (t : ity) (o : binop) (l r : Z) : option constant :=
  let tmin := imin h t in let hb := bits h t in
  let l := sext p t l in let r := sext p t r in
  let zext n := CInt (unsext p t n) in
  let divrem_panics := (l =? tmin) && (r =? -1) in
  match o with
  | BI OAdd => option_map zext (obind (fits128 true (l + r)) (ensure_fits h t))
  | BI OSub => option_map zext (obind (fits128 true (l - r)) (ensure_fits h t))
  | BI OMul => option_map zext (obind (fits128 true (l * r)) (ensure_fits h t))
  | BI ODiv => if divrem_panics then None else if r =? 0 then None
               else option_map zext (fits128 true (Z.quot l r))
  | BI ORem => if divrem_panics then None else if r =? 0 then None
               else if in_i128 (Z.quot l r) then Some (zext (Z.rem l r)) else None
  | BI OShr => if (r <? hb) && (0 <=? r) then Some (zext (l / 2 ^ r)) else None
  | BI OShl => if (r <? hb) && (0 <=? r) then Some (zext (i128w (l * 2 ^ r))) else None
  | BI OXor => Some (zext (Z.lxor l r))
  | BI OOr => Some (zext (Z.lor l r))
  | BI OAnd => Some (zext (Z.land l r))
  | BC c => Some (CBool (cmp_op c l r))
  | _ => None
  end.

(** consts.rs:1029-1056: unsigned arm. *)
Definition binop_unsigned (h : ptrw) (t : ity) (o : binop) (l r : Z) : option constant :=
  let hb := bits h t in let mask := 2 ^ hb - 1 in
  match o with
  | BI OAdd => option_map CInt (obind (fits128 false (l + r)) (ensure_fits h t))
  | BI OSub => option_map CInt (obind (fits128 false (l - r)) (ensure_fits h t))
  | BI OMul => option_map CInt (obind (fits128 false (l * r)) (ensure_fits h t))
  | BI ODiv => if r =? 0 then None else Some (CInt (l / r))
  | BI ORem => if r =? 0 then None else Some (CInt (l mod r))
  | BI OShr => if r <? hb then Some (CInt (Z.land (l / 2 ^ r) mask)) else None
  | BI OShl => if r <? hb then Some (CInt (Z.land (u128w (l * 2 ^ r)) mask)) else None
  | BI OXor => Some (CInt (Z.lxor l r))
  | BI OOr => Some (CInt (Z.lor l r))
  | BI OAnd => Some (CInt (Z.land l r))
  | BC c => Some (CBool (cmp_op c l r))
  | _ => None
  end.

(** consts.rs:1071-1084: the f64 arm; `%` gives [None] (simplification, see [float_op]). *)
Definition binop_f64 (o : binop) (l r : spec_float) : option constant :=
  match o with
  | BI o => option_map CF64 (float_op o l r)
  | BC c => Some (CBool (cmp_of c (SFcompare l r)))
  | _ => None
  end.
(** consts.rs:983-1100 [binop].  [tl] is the static type of the left operand. *)
Definition const_binop (h p : ptrw) (o : binop) (tl : option ty) (l : constant) (r : option constant) : option constant :=
  match l, r with
  | CInt l, Some (CInt r) =>
      match tl with
      | Some (TI t) => if ity_signed t then binop_signed h p t o l r else binop_unsigned h t o l r
      | _ => None
      end
  | CF64 l, Some (CF64 r) => binop_f64 o l r
  | l, r =>
      match o, l, r with
      | BAnd, CBool false, _ => Some (CBool false)
      | BOr, CBool true, _ => Some (CBool true)
      | BAnd, CBool true, Some r => Some r
      | BOr, CBool false, Some r => Some r
      | BI OXor, CBool l, Some (CBool r) => Some (CBool (xorb l r))
      | BI OAnd, CBool l, Some (CBool r) => Some (CBool (l && r))
      | BI OOr, CBool l, Some (CBool r) => Some (CBool (l || r))
      | _, _, _ => None
      end
  end.

(** consts.rs:724-738 [constant_not]; [!value] on u128 is [2^128 - 1 - value]. *)
Definition constant_not (p : ptrw) (c : constant) (t : option ty) : option constant :=
  match c with
  | CBool b => Some (CBool (negb b))
  | CInt v =>
      let v := 2 ^ 128 - 1 - v in
      match t with
      | Some (TI t) => Some (CInt (if ity_signed t then unsext p t (i128w v) else clip p t v))
      | _ => None
      end
  | CF64 _ => None
  end.

(** consts.rs:740-762 [constant_negate]. *)
Definition constant_negate (h p : ptrw) (c : constant) (t : option ty) : option constant :=
  match c with
  | CInt v =>
      match t with
      | Some (TI t) =>
          if ity_signed t then
            let v := sext p t v in
            if v =? imin h t then None
            else option_map (fun n => CInt (unsext p t n)) (fits128 true (- v))
          else None
      | _ => None
      end
  | CF64 f => Some (CF64 (SFopp f))
  | _ => None
  end.

(** consts.rs:622-691 [expr] on the expression language.  Casts, method calls, variables and
    ranges fall in the final [_ => None] arm.  Associated constants go through [fetch_path]
    (consts.rs:772-905) and [mir_to_const] (consts.rs:1103-1108), which yields the target bit
    pattern. *)
Fixpoint ceval (h p : ptrw) (e : expr) : option constant :=
  match e with
  | ELit _ n => Some (CInt n)
  | EBool b => Some (CBool b)
  | EFloat f => Some (CF64 f)
  | EAssoc t AMin => Some (CInt (to_bits p t (imin p t)))
  | EAssoc t AMax => Some (CInt (to_bits p t (imax p t)))
  | EAssoc t ABits => Some (CInt (bits p t))
  | EUn o e' =>
      obind (ceval h p e') (fun c =>
        match o with
        | UNot => constant_not p c (ty_of e)
        | UNeg => constant_negate h p c (ty_of e)
        end)
  | EBin o a b => obind (ceval h p a) (fun l => const_binop h p o (ty_of a) l (ceval h p b))
  | EIf c a b =>
      match ceval h p c with
      | Some (CBool true) => ceval h p a
      | Some (CBool false) => ceval h p b
      | _ => None
      end
  | _ => None
  end.

(** consts.rs:846-883: only some paths keep the evaluation local to the expression
    ([usize::MAX], [isize::MIN], ... do not). *)
Fixpoint all_local (e : expr) : bool :=
  match e with
  | EAssoc (IT s WSize) a => match s, a with false, AMin => true | _, _ => false end
  | EUn _ e => all_local e
  | EBin _ a b => all_local a && all_local b
  | EIf c a b => all_local c && all_local a && all_local b
  | _ => true
  end.
(** consts.rs:575-580 [eval_local].  Simplification: a non-local path anywhere in the expression
    makes the result non-local (the code ignores branches it does not visit). *)
Definition eval_local (h p : ptrw) (e : expr) : option constant :=
  if all_local e then ceval h p e else None.
(** consts.rs:1168-1174 [integer_const]. *)
Definition integer_const (h p : ptrw) (e : expr) : option Z :=
  match eval_local h p e with Some (CInt u) => Some u | _ => None end.

(** consts.rs:459-463 [FullInt]; consts.rs:483-498 its order. *)
Inductive fullint := FS (z : Z) | FU (z : Z).
Definition cmp_s_u (s u : Z) : comparison := if s <? 0 then Lt else (s ?= u).
Definition fullint_cmp (a b : fullint) : comparison :=
  match a, b with
  | FS s, FS o => s ?= o
  | FU s, FU o => s ?= o
  | FS s, FU o => cmp_s_u s o
  | FU s, FS o => CompOpp (cmp_s_u o s)
  end.
(** consts.rs:267-277 [int_value]. *)
Definition int_value (p : ptrw) (c : constant) (t : option ty) : option fullint :=
  match c, t with
  | CInt u, Some (TI t) => Some (if ity_signed t then FS (sext p t u) else FU u)
  | _, _ => None
  end.
(** consts.rs:501-517 [eval_int]; [val.0.cast_signed().wrapping_neg()]. *)
Definition eval_int (h p : ptrw) (e : expr) : option fullint :=
  match e with
  | ELit _ n => Some (FU n)
  | EUn UNeg (ELit _ n) => Some (FS (i128w (- i128w n)))
  | _ => obind (ceval h p e) (fun c => int_value p c (ty_of e))
  end.
(** consts.rs:588-593 [eval_full_int]. *)
Definition eval_full_int (h p : ptrw) (e : expr) : option fullint :=
  obind (eval_local h p e) (fun c => int_value p c (ty_of e)).

(** consts.rs:213-220: integer, f64 and boolean arms of [partial_cmp]. *)
Definition const_partial_cmp (p : ptrw) (t : ty) (l r : constant) : option comparison :=
  match l, r with
  | CInt l, CInt r =>
      match t with
      | TI t => Some (if ity_signed t then (sext p t l ?= sext p t r) else (l ?= r))
      | _ => None (* bug!("Not an int type") *)
      end
  | CF64 l, CF64 r => SFcompare l r
  | CBool l, CBool r => Some (Z.b2z l ?= Z.b2z r)
  | _, _ => None
  end.
