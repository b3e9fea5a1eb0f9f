(** Model of the logarithm lints, /repo/clippy_lints/src/manual_ilog2.rs and bit_width.rs. *)
From Verif Require Export RustExpr.
Open Scope Z_scope.

(** [UintTy::bit_width] of rustc: [None] for [usize]. *)
Definition uint_bit_width (t : ity) : option Z :=
  match ity_size t with WSize => None | _ => Some (bits P64 t) end.

(** manual_ilog2.rs:52-97 [check_expr]: `BIT_WIDTH - 1 - n.leading_zeros()` on an unsigned fixed-size
    type, written with a literal, and `n.ilog(2)`.  The receiver's adjustments are not modelled. *)
Definition manual_ilog2 (e : expr) : option expr :=
  match e with
  | EBin (BI OSub) (ELit _ val) (EM0 MLeadingZeros recv) =>
      match ty_of recv with
      | Some (TI t) =>
          if ity_signed t then None
          else match uint_bit_width t with
               | Some bit_width => if val =? bit_width - 1 then Some (EM0 MIlog2 recv) else None
               | None => None
               end
      | _ => None
      end
  | EM1 MIlog recv (ELit _ 2) =>
      match ty_of recv with Some (TI _) => Some (EM0 MIlog2 recv) | _ => None end
  | _ => None
  end.

(** bit_width.rs:77-84 [suggestion] for [IntKind::Int] and [IntKind::Uint].  `cast_unsigned` is the
    `as` cast to the unsigned type of the same size; [NonZero] types are not in the language. *)
Definition bit_width_suggestion (t : ity) (recv : expr) : expr :=
  if ity_signed t then EM0 MBitWidth (ECast recv (unsigned_of t)) else EM0 MBitWidth recv.

(** Outcome: the suggestion of `manual_bit_width`, or of `mismatched_bit_width_type`. *)
Inductive bit_width_report := ManualBitWidth (sugg : expr) | MismatchedType (sugg : expr).
(** bit_width.rs:98-126 [check_expr] and 128-143 [get_int_kind]. *)
Definition bit_width_check (e : expr) : option bit_width_report :=
  match e with
  | EBin (BI OSub) (EAssoc left_ty ABits) (EM0 MLeadingZeros recv) =>
      match ty_of recv with
      | Some (TI right_ty) =>
          if ity_eqb left_ty right_ty then Some (ManualBitWidth (bit_width_suggestion right_ty recv))
          else Some (MismatchedType (bit_width_suggestion right_ty recv))
      | _ => None
      end
  | _ => None
  end.
