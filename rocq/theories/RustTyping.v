(** Static typing of the expression language (what rustc accepts), including
    the deny-by-default `overflowing_literals` check.  Specification. *)
From Verif Require Export RustExpr.
Open Scope Z_scope.

Fixpoint tyck (p : ptrw) (e : expr) : option ty :=
  match e with
  | ELit t n => if inr p t n && (0 <=? n) then Some (TI t) else None
  | EBool _ => Some TB
  | EFloat _ => Some TF
  | EVar t _ => Some t
  | EAssoc _ _ => ty_of e
  | EUn UNeg (ELit t n) => if ity_signed t && inr p t (- n) && (0 <=? n) then Some (TI t) else None
  | EUn o a =>
      match o, tyck p a with
      | UNeg, Some (TI t) => if ity_signed t then Some (TI t) else None
      | UNeg, Some TF => Some TF
      | UNot, Some (TI t) => Some (TI t)
      | UNot, Some TB => Some TB
      | _, _ => None
      end
  | EBin (BI o) a b =>
      match tyck p a, tyck p b with
      | Some (TI t), Some (TI t') =>
          match o with OShl | OShr => Some (TI t) | _ => if ity_eqb t t' then Some (TI t) else None end
      | Some TB, Some TB => match o with OAnd | OOr | OXor => Some TB | _ => None end
      | Some TF, Some TF => match o with OAdd | OSub | OMul | ODiv => Some TF | _ => None end
      | _, _ => None
      end
  | EBin (BC _) a b =>
      match tyck p a, tyck p b with
      | Some (TI t), Some (TI t') => if ity_eqb t t' then Some TB else None
      | Some TB, Some TB => Some TB
      | Some TF, Some TF => Some TB
      | _, _ => None
      end
  | EBin _ a b => match tyck p a, tyck p b with Some TB, Some TB => Some TB | _, _ => None end
  | ECast a t => match tyck p a with Some (TI _) | Some TB => Some (TI t) | _ => None end
  | EM0 k a =>
      match tyck p a, k with
      | Some (TO t), MUnwrap => Some (TI t)
      | Some (TI t), MUnwrap => None
      | Some (TI t), (MIsPow2 | MBitWidth) => if ity_signed t then None else ty_of e
      | Some (TI t), (MAbs | MUnsignedAbs | MSignum | MSatAbs | MChkAbs) => if ity_signed t then ty_of e else None
      | Some (TI t), _ => ty_of e
      | _, _ => None
      end
  | EM1 k a b =>
      match k, tyck p a, tyck p b with
      | MUnwrapOr, Some (TO t), Some (TI t') => if ity_eqb t t' then Some (TI t) else None
      | MUnwrapOr, _, _ => None
      | (MRotl | MRotr | MPow | MSatPow | MChkPow | MWrapPow), Some (TI t), Some (TI t') => if ity_eqb t' u32 then ty_of e else None
      | (MIsMultipleOf | MNextMultipleOf), Some (TI t), Some (TI t') => if ity_eqb t t' && negb (ity_signed t) then ty_of e else None
      | _, Some (TI t), Some (TI t') => if ity_eqb t t' then ty_of e else None
      | (MMin | MMax), Some TF, Some TF => Some TF
      | _, _, _ => None
      end
  | EM2 _ a b c =>
      match tyck p a, tyck p b, tyck p c with
      | Some (TI t), Some (TI t1), Some (TI t2) => if ity_eqb t t1 && ity_eqb t t2 then Some (TI t) else None
      | Some TF, Some TF, Some TF => Some TF
      | _, _, _ => None
      end
  | EIf c a b =>
      match tyck p c, tyck p a, tyck p b with
      | Some TB, Some x, Some y => if ty_eqb x y then Some x else None
      | _, _, _ => None
      end
  | EContains _ a b c =>
      match tyck p a, tyck p b, tyck p c with
      | Some x, Some y, Some z => if ty_eqb x y && ty_eqb x z then Some TB else None
      | _, _, _ => None
      end
  end.

(** Every shift of a signed value uses an amount whose type is not wider than the shifted type. *)
Fixpoint narrow_shifts (p : ptrw) (e : expr) : bool :=
  match e with
  | EUn _ a => narrow_shifts p a
  | EBin o a b =>
      narrow_shifts p a && narrow_shifts p b &&
      match o, ty_of a, ty_of b with
      | BI (OShl | OShr), Some (TI t), Some (TI t') => negb (ity_signed t) || (bits p t' <=? bits p t)
      | _, _, _ => true
      end
  | EIf c a b => narrow_shifts p c && narrow_shifts p a && narrow_shifts p b
  | _ => true
  end.
