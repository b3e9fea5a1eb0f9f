(** Models of the comparison and bit-mask lints in /repo/clippy_lints/src/operators and of
    /repo/clippy_utils/src/comparisons.rs.  Macro-context checks are dropped. *)
From Verif Require Export ConstModel ArithModel.
Open Scope Z_scope.

(** ** bit_mask.rs *)

(** bit_mask.rs:133-137 [CmpOp], 186-190 [CmpOpKind]. *)
Inductive cmp_kind := KEq | KLt | KGt.
Record cmpop := CmpOp { ck_kind : cmp_kind; ck_negate : bool }.
(** bit_mask.rs:139-167 [CmpOp::from_bin_op]. *)
Definition cmpop_from (c : cop) : cmpop :=
  match c with
  | CEq => CmpOp KEq false | CLt => CmpOp KLt false | CLe => CmpOp KGt true
  | CNe => CmpOp KEq true | CGe => CmpOp KLt true | CGt => CmpOp KGt false
  end.
(** bit_mask.rs:169-174, 191-199 [swap_operands]. *)
Definition cmpop_swap (o : cmpop) : cmpop :=
  CmpOp (match ck_kind o with KEq => KEq | KLt => KGt | KGt => KLt end) (ck_negate o).
(** bit_mask.rs:176-182 [matches_ordering]. *)
Definition matches_ordering (o : cmpop) (ord : comparison) : bool :=
  let res := match ck_kind o, ord with KLt, Lt | KEq, Eq | KGt, Gt => true | _, _ => false end in
  if ck_negate o then negb res else res.

(** bit_mask.rs:207-215 [BitOp::from_bin_op]. *)
Inductive bitop := BtXor | BtAnd | BtOr.
Definition bitop_from (o : binop) : option bitop :=
  match o with
  | BI OXor => Some BtXor | BI OAnd => Some BtAnd | BI OOr => Some BtOr | _ => None
  end.

(** The diagnostic: the comparison always yields [b] (bad_bit_mask), or the mask is useless
    (ineffective_bit_mask). *)
Inductive mask_verdict := MAlways (b : bool) | MIneffective.

(** Host [u128] bit functions. [u128::MAX.wrapping_shl(n)]: the amount is reduced modulo 128. *)
Definition max_wrapping_shl (n : Z) : Z := u128w ((2 ^ 128 - 1) * 2 ^ (n mod 128)).
(** [u128::MAX.unbounded_shl(n)]: zero from 128 on. *)
Definition max_unbounded_shl (n : Z) : Z := if n <? 128 then u128w ((2 ^ 128 - 1) * 2 ^ n) else 0.
(** [u128::trailing_ones]. *)
Definition trailing_ones128 (u : Z) : Z := ctz 128 (2 ^ 128 - 1 - u).

(** bit_mask.rs:61-109: the decision table; [sg] tells whether the masked operand is signed. *)
Definition mask_table (o : cmpop) (b : bitop) (sg : bool) (op_val cmp_val : Z) : option mask_verdict :=
  match b, op_val =? 0 with
  | BtAnd, true => Some (MAlways (matches_ordering o (0 ?= cmp_val)))
  | _, _ =>
      match ck_kind o with
      | KEq =>
          match b with
          | BtAnd => if negb (Z.land op_val cmp_val =? cmp_val) then Some (MAlways (ck_negate o)) else None
          | BtOr => if negb (Z.lor op_val cmp_val =? cmp_val) then Some (MAlways (ck_negate o)) else None
          | BtXor => None
          end
      | KLt =>
          if sg then None else
          let ineffective := Z.land (max_wrapping_shl (ctz 128 cmp_val)) op_val =? 0 in
          match b with
          | BtAnd => if op_val <? cmp_val then Some (MAlways (negb (ck_negate o))) else None
          | BtOr => if cmp_val <=? op_val then Some (MAlways (ck_negate o))
                    else if ineffective then Some MIneffective else None
          | BtXor => if (op_val =? 0) && (cmp_val =? 0) then Some (MAlways (ck_negate o))
                     else if ineffective then Some MIneffective else None
          end
      | KGt =>
          if sg then None else
          let ineffective := Z.land (max_unbounded_shl (trailing_ones128 cmp_val)) op_val =? 0 in
          match b with
          | BtAnd => if op_val <=? cmp_val then Some (MAlways (negb (ck_negate o))) else None
          | BtOr => if cmp_val <? op_val then Some (MAlways (ck_negate o))
                    else if ineffective then Some MIneffective else None
          | BtXor => if ineffective then Some MIneffective else None
          end
      end
  end.

(** bit_mask.rs:31-44: the closure of the first [try_maybe_swap] (120-131). *)
Definition mask_operand (p : ptrw) (l r : expr) : option (bitop * expr * expr * Z) :=
  match l with
  | EBin o bl br =>
      match bitop_from o, is_int (ty_of r), ceval p p r with
      | Some b, true, Some (CInt cmp_val) => Some (b, bl, br, cmp_val)
      | _, _, _ => None
      end
  | _ => None
  end.
(** bit_mask.rs:54-59: the mask is the right operand if that is constant, else the left one; the
    second component is the operand that remains.  A constant that is not an integer ends the
    search, as in [try_maybe_swap]. *)
Definition mask_value (p : ptrw) (bl br : expr) : option (Z * expr) :=
  match ceval p p br with
  | Some c => match c with CInt u => Some (u, bl) | _ => None end
  | None => match ceval p p bl with Some (CInt u) => Some (u, br) | _ => None end
  end.
(** bit_mask.rs:13-118 [check].  Besides the verdict the model returns the comparison with the
    reported mask taken away, which the note of the diagnostic talks about. *)
Definition bit_mask (p : ptrw) (e : expr) : option (mask_verdict * expr) :=
  match e with
  | EBin (BC c) l r =>
      let go (o : cmpop) (rest : expr -> expr) (q : bitop * expr * expr * Z) :=
        let '(b, bl, br, cmp_val) := q in
        match ty_of bl, is_int (ty_of br), mask_value p bl br with
        | Some (TI t), true, Some (op_val, x) =>
            option_map (fun v => (v, rest x)) (mask_table o b (ity_signed t) op_val cmp_val)
        | _, _, _ => None
        end in
      match mask_operand p l r with
      | Some q => go (cmpop_from c) (fun x => EBin (BC c) x r) q
      | None => match mask_operand p r l with
                | Some q => go (cmpop_swap (cmpop_from c)) (fun x => EBin (BC c) l x) q
                | None => None
                end
      end
  | _ => None
  end.

(** ** verbose_bit_mask.rs:11-45 [check]; [threshold] is the configuration value. *)
Definition verbose_bit_mask (threshold : Z) (e : expr) : option expr :=
  match e with
  | EBin (BC CEq) (EBin (BI OAnd) x (ELit _ n)) (ELit _ z) =>
      if (z =? 0) && (clz 128 n =? 128 - ones n) && (threshold <? n)
      then Some (EBin (BC CGe) (EM0 MTrailingZeros x) (ELit u32 (ones n)))
      else None
  | _ => None
  end.

(** ** clippy_utils/src/comparisons.rs *)

(** comparisons.rs:9-18 [Rel]; 22-36 [normalize_comparison]. *)
Inductive rel := RLt | RLe | REq | RNe.
Definition normalize_comparison (c : cop) (l r : expr) : rel * expr * expr :=
  match c with
  | CLt => (RLt, l, r) | CLe => (RLe, l, r)
  | CGt => (RLt, r, l) | CGe => (RLe, r, l)
  | CEq => (REq, r, l) | CNe => (RNe, r, l)
  end.

(** ** absurd_extreme_comparisons.rs *)

(** absurd_extreme_comparisons.rs:49-63. *)
Inductive extreme := XMin | XMax.
Inductive absurd := AlwaysFalse | AlwaysTrue | InequalityImpossible.
(** absurd_extreme_comparisons.rs:121-141 [detect_extreme_expr]; [i128::MIN >> n] is an
    arithmetic shift. *)
Definition detect_extreme (p : ptrw) (e : expr) : option extreme :=
  match ty_of e, ceval p p e with
  | Some TB, Some (CBool false) => Some XMin
  | Some TB, Some (CBool true) => Some XMax
  | Some (TI t), Some (CInt i) =>
      if ity_signed t then
        if i =? unsext p t (- 2 ^ 127 / 2 ^ (128 - bits p t)) then Some XMin
        else if i =? unsext p t ((2 ^ 127 - 1) / 2 ^ (128 - bits p t)) then Some XMax else None
      else if i =? 0 then Some XMin
      else if i =? clip p t (2 ^ 128 - 1) then Some XMax else None
  | _, _ => None
  end.
(** absurd_extreme_comparisons.rs:65-74. *)
Definition is_size_ty (t : option ty) : bool := match t with Some (TI (IT _ WSize)) => true | _ => false end.
Definition cast_between_fixed_and_target (e : expr) : bool :=
  match e with ECast a _ => negb (Bool.eqb (is_size_ty (ty_of a)) (is_size_ty (ty_of e))) | _ => false end.
(** absurd_extreme_comparisons.rs:76-119 [detect_absurd_comparison]. *)
Definition oty_eqb (a b : option ty) : bool :=
  match a, b with Some x, Some y => ty_eqb x y | None, None => true | _, _ => false end.
Definition absurd_comparison (p : ptrw) (e : expr) : option absurd :=
  match e with
  | EBin (BC c) l r =>
      if negb (oty_eqb (ty_of l) (ty_of r)) then None
      else if cast_between_fixed_and_target l || cast_between_fixed_and_target r then None
      else
        let '(rel, nl, nr) := normalize_comparison c l r in
        match rel with
        | RLt =>
            match detect_extreme p nl, detect_extreme p nr with
            | Some XMax, _ => Some AlwaysFalse
            | _, Some XMin => Some AlwaysFalse
            | _, _ => None
            end
        | RLe =>
            match detect_extreme p nl, detect_extreme p nr with
            | Some XMin, _ => Some AlwaysTrue
            | Some XMax, _ => Some InequalityImpossible
            | _, Some XMin => Some InequalityImpossible
            | _, Some XMax => Some AlwaysTrue
            | _, _ => None
            end
        | _ => None
        end
  | _ => None
  end.

(** ** invalid_upcast_comparisons.rs *)

(** invalid_upcast_comparisons.rs:35-65 [numeric_cast_precast_bounds].  The bounds of
    `isize`/`usize` are those of the machine Clippy runs on ([h]), the sizes those of the target. *)
Definition precast_bounds (h p : ptrw) (e : expr) : option (fullint * fullint) :=
  match e with
  | ECast a t =>
      match ty_of a with
      | Some (TI s) =>
          if bits p s =? bits p t then None
          else Some (if ity_signed s then (FS (imin h s), FS (imax h s)) else (FU (imin h s), FU (imax h s)))
      | _ => None
      end
  | _ => None
  end.
Definition fi_lt (a b : fullint) : bool := match fullint_cmp a b with Lt => true | _ => false end.
Definition fi_le (a b : fullint) : bool := match fullint_cmp a b with Gt => false | _ => true end.
(** invalid_upcast_comparisons.rs:67-106 [upcast_comparison_bounds_err]: the claimed truth value. *)
Definition upcast_err (h p : ptrw) (r : rel) (bounds : option (fullint * fullint)) (rhs : expr) (invert : bool) : option bool :=
  match bounds, eval_full_int h p rhs with
  | Some (lb, ub), Some v =>
      match r with
      | REq => if fi_lt v lb || fi_lt ub v then Some false else None
      | RNe => if fi_lt v lb || fi_lt ub v then Some true else None
      | RLt =>
          if (invert && fi_lt v lb) || (negb invert && fi_lt ub v) then Some true
          else if (negb invert && fi_le v lb) || (invert && fi_le ub v) then Some false else None
      | RLe =>
          if (invert && fi_le v lb) || (negb invert && fi_le ub v) then Some true
          else if (negb invert && fi_lt v lb) || (invert && fi_lt ub v) then Some false else None
      end
  | _, _ => None
  end.
(** invalid_upcast_comparisons.rs:16-33 [check]: each reported truth value. *)
Definition invalid_upcast (h p : ptrw) (e : expr) : list bool :=
  match e with
  | EBin (BC c) l r =>
      let '(rel, nl, nr) := normalize_comparison c l r in
      let report o := match o with Some b => [b] | None => [] end in
      report (upcast_err h p rel (precast_bounds h p nl) nr false) ++
      report (upcast_err h p rel (precast_bounds h p nr) nl true)
  | _ => []
  end.

(** ** identity_op.rs *)

(** identity_op.rs:203-220 [is_redundant_op]; [k] is 0, 1 or -1. *)
Definition is_redundant_op (p : ptrw) (e : expr) (k : Z) : bool :=
  match eval_local p p e, ty_of e with
  | Some (CInt v), Some (TI t) =>
      let check := if ity_signed t then unsext p t (-1) else clip p t (2 ^ 128 - 1) in
      if k =? 0 then v =? 0 else if k =? -1 then v =? check else v =? 1
  | _, _ => false
  end.
(** identity_op.rs:166-189 [is_allowed] (the associated-function guard only silences the lint). *)
Definition identity_allowed (p : ptrw) (o : iop) (l r : expr) : bool :=
  is_int (ty_of l) && is_int (ty_of r) &&
  negb (match o with OShl => true | _ => false end &&
        match integer_const p p r with Some v => v =? 0 | None => false end &&
        match integer_const p p l with Some v => v =? 1 | None => false end).
(** [i128::abs] without overflow checks (the released compiler): [i128::MIN.abs() = i128::MIN]. *)
Definition abs128 (z : Z) : Z := i128w (Z.abs z).
(** identity_op.rs:191-201 [check_remainder]. *)
Definition redundant_rem (p : ptrw) (l r : expr) : bool :=
  match eval_full_int p p l, eval_full_int p p r with
  | Some (FS lv), Some (FS rv) => abs128 lv <? abs128 rv
  | Some (FU lv), Some (FU rv) => lv <? rv
  | _, _ => false
  end.
(** identity_op.rs:14-84 [check]: the operand offered as the replacement. *)
Definition identity_op (p : ptrw) (e : expr) : option expr :=
  match e with
  | EBin (BI o) l r =>
      if negb (identity_allowed p o l r) then None
      else match o with
      | OAdd | OOr | OXor =>
          if is_redundant_op p l 0 then Some r else if is_redundant_op p r 0 then Some l else None
      | OShl | OShr | OSub => if is_redundant_op p r 0 then Some l else None
      | OMul => if is_redundant_op p l 1 then Some r else if is_redundant_op p r 1 then Some l else None
      | ODiv => if is_redundant_op p r 1 then Some l else None
      | OAnd => if is_redundant_op p l (-1) then Some r else if is_redundant_op p r (-1) then Some l else None
      | ORem => if redundant_rem p l r then Some l else None
      end
  | _ => None
  end.

(** ** erasing_op.rs:11-55: "this operation will always return zero". *)
Definition erasing_side (p : ptrw) (op other parent : expr) : bool :=
  match eval_local p p op with
  | Some (CInt u) => (u =? 0) && oty_eqb (ty_of other) (ty_of parent)
  | _ => false
  end.
Definition erasing_op (p : ptrw) (e : expr) : bool :=
  match e with
  | EBin (BI (OMul | OAnd)) l r => erasing_side p l r e || erasing_side p r l e
  | EBin (BI ODiv) l r => erasing_side p l r e
  | _ => false
  end.

(** ** const_comparisons.rs *)

(** const_comparisons.rs:167-206 [CmpOp], [reverse], [direction], [try_from]. *)
Definition ord_reverse (c : cop) : cop :=
  match c with CLt => CGt | CLe => CGe | CGe => CLe | CGt => CLt | c => c end.
Definition is_ord (c : cop) : bool := match c with CEq | CNe => false | _ => true end.
Definition lesser (c : cop) : bool := match c with CLt | CLe => true | _ => false end.
(** const_comparisons.rs:20-38 [comparison_to_const]. *)
Definition comparison_to_const (p : ptrw) (e : expr) : option (cop * expr * constant * option ty) :=
  match e with
  | EBin (BC c) l r =>
      if is_ord c then
        match ceval p p l, ceval p p r with
        | Some _, Some _ => None
        | _, Some k => Some (c, l, k, ty_of r)
        | Some k, _ => Some (ord_reverse c, r, k, ty_of l)
        | _, _ => None
        end
      else None
  | _ => None
  end.
(** const_comparisons.rs:133-150 [left_side_is_useless]. *)
Definition left_side_is_useless (c : cop) (ord : comparison) : bool :=
  match ord with
  | Eq => match c with CLe | CGe => true | _ => false end
  | Lt => negb (lesser c)
  | Gt => lesser c
  end.
(** const_comparisons.rs:152-159 [comparison_is_possible]. *)
Definition comparison_is_possible (left_lesser : bool) (ord : comparison) : bool :=
  match left_lesser, ord with
  | true, Gt => true | false, Lt => true | _, _ => false
  end.
Inductive const_cmp := LeftUseless | RightUseless | Impossible.
Definition inclusive (c : cop) : bool := match c with CLe | CGe => true | _ => false end.
(** const_comparisons.rs:40-131 [check]. *)
Definition const_comparisons (p : ptrw) (e : expr) : option const_cmp :=
  match e with
  | EBin BAnd lc rc =>
      match comparison_to_const p lc, comparison_to_const p rc with
      | Some (lop, le, lk, lt), Some (rop, re, rk, rt) =>
          match lt with
          | Some t =>
              if oty_eqb lt rt && expr_eqb le re then
                match const_partial_cmp p t lk rk with
                | Some ord =>
                    if inclusive lop && inclusive rop && match ord with Eq => true | _ => false end then None
                    else if Bool.eqb (lesser lop) (lesser rop) then
                      Some (if left_side_is_useless lop ord then LeftUseless else RightUseless)
                    else if negb (comparison_is_possible (lesser lop) ord) then Some Impossible else None
                | None => None
                end
              else None
          | None => None
          end
      | _, _ => None
      end
  | _ => None
  end.

(** ** double_comparison.rs:11-72 [check]. *)
Definition double_table (o : binop) (a b : cop) : option cop :=
  match o, a, b with
  | BOr, CEq, CLt | BOr, CLt, CEq => Some CLe
  | BOr, CEq, CGt | BOr, CGt, CEq => Some CGe
  | BOr, CLt, CGt | BOr, CGt, CLt => Some CNe
  | BAnd, CLe, CGe | BAnd, CGe, CLe => Some CEq
  | BAnd, CNe, CGe | BAnd, CGe, CNe => Some CGt
  | BAnd, CNe, CLe | BAnd, CLe, CNe => Some CLt
  | _, _, _ => None
  end.
Definition double_comparison (e : expr) : option expr :=
  match e with
  | EBin o (EBin (BC a) l1 r1) (EBin (BC b) l2 r2) =>
      if expr_eqb l1 l2 && expr_eqb r1 r2
      then option_map (fun c => EBin (BC c) l1 r1) (double_table o a b) else None
  | _ => None
  end.

(** ** int_plus_one.rs (an early pass: it sees the syntax only, so floats, casts and user types
    would match too; here operands are the expressions of the fragment). *)

(** int_plus_one.rs:65-80 [is_one], [is_neg_one]. *)
Definition lit_one (e : expr) : bool := match e with ELit _ n => n =? 1 | _ => false end.
Definition lit_neg_one (e : expr) : bool := match e with EUn UNeg e => lit_one e | _ => false end.
(** int_plus_one.rs:83-97 [as_x_plus_one]. *)
Definition as_x_plus_one (e : expr) : option expr :=
  match e with
  | EBin (BI OAdd) l r => if lit_one r then Some l else if lit_one l then Some r else None
  | _ => None
  end.
(** int_plus_one.rs:99-110 [as_x_minus_one]. *)
Definition as_x_minus_one (e : expr) : option expr :=
  match e with
  | EBin (BI OSub) l r => if lit_one r then Some l else None
  | EBin (BI OAdd) l r => if lit_neg_one l then Some r else None
  | _ => None
  end.
(** int_plus_one.rs:112-127 [check_binop], 129-167 [emit_warning] and [check_expr]. *)
Definition int_plus_one (e : expr) : option expr :=
  match e with
  | EBin (BC CGe) l r =>
      match as_x_minus_one l with
      | Some l' => Some (EBin (BC CGt) l' r)
      | None => option_map (fun r' => EBin (BC CGt) l r') (as_x_plus_one r)
      end
  | EBin (BC CLe) l r =>
      match as_x_plus_one l with
      | Some l' => Some (EBin (BC CLt) l' r)
      | None => option_map (fun r' => EBin (BC CLt) l r') (as_x_minus_one r)
      end
  | _ => None
  end.
