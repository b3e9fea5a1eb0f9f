(** Models of lints that replace an arithmetic idiom by a method call. *)
From Verif Require Export ConstModel.
Open Scope Z_scope.

(** /repo/clippy_utils/src/lib.rs:1352-1359 [is_integer_literal]. *)
Definition is_int_lit (e : expr) (n : Z) : bool := match e with ELit _ k => k =? n | _ => false end.
Definition is_uint (t : option ty) : bool := match t with Some (TI t) => negb (ity_signed t) | _ => false end.
Definition is_sint (t : option ty) : bool := match t with Some (TI t) => ity_signed t | _ => false end.
Definition is_int (t : option ty) : bool := match t with Some (TI t) => true | _ => false end.
Definition is_local (e : expr) : bool := match e with EVar _ _ => true | _ => false end.

Definition orelse {A} (a b : option A) : option A := match a with Some _ => a | None => b end.

(** ** /repo/clippy_lints/src/operators/manual_div_ceil.rs *)

(** manual_div_ceil.rs:104-118 [differ_by_one]. *)
Fixpoint differ_by_one (small large : expr) {struct small} : bool :=
  match small, large with
  | ELit _ s, ELit _ l => (l =? s + 1) && (s + 1 <? 2 ^ 128)
  | EUn UNeg a, EUn UNeg b =>
      (* [differ_by_one(large_inner, small_inner)]; written out so the recursion is structural *)
      (fix flip (a b : expr) {struct a} : bool :=
         match a, b with
         | ELit _ l, ELit _ s => (l =? s + 1) && (s + 1 <? 2 ^ 128)
         | EUn UNeg a', EUn UNeg b' => differ_by_one a' b'
         | _, _ => false
         end) a b
  | _, _ => false
  end.

(** manual_div_ceil.rs:124-130; [feat] is the unstable feature `int_roundings`. *)
Definition check_int_ty_and_feature (feat : bool) (t : option ty) : bool := is_uint t || (is_sint t && feat).

(** manual_div_ceil.rs:141-197 [build_suggestion]. *)
Definition div_ceil_sugg (x y : expr) : expr := EM1 MDivCeil x y.

(** manual_div_ceil.rs:27-36: `(x + (y - 1)) / y`. *)
Definition div_ceil_shape1 (o : binop) (l r rhs : expr) : option expr :=
  match o, r with
  | BI OAdd, EBin (BI OSub) sl sr => if is_int_lit sr 1 && expr_eqb sl rhs then Some (div_ceil_sugg l rhs) else None
  | _, _ => None
  end.
(** manual_div_ceil.rs:38-47: `((y - 1) + x) / y`. *)
Definition div_ceil_shape2 (o : binop) (l r rhs : expr) : option expr :=
  match o, l with
  | BI OAdd, EBin (BI OSub) sl sr => if is_int_lit sr 1 && expr_eqb sl rhs then Some (div_ceil_sugg r rhs) else None
  | _, _ => None
  end.
(** manual_div_ceil.rs:49-57: `(x + y - 1) / y`. *)
Definition div_ceil_shape3 (o : binop) (l r rhs : expr) : list expr :=
  match o, l with
  | BI OSub, EBin (BI OAdd) al ar => if is_int_lit r 1 && expr_eqb ar rhs then [div_ceil_sugg al rhs] else []
  | _, _ => []
  end.
(** manual_div_ceil.rs:59-67: `(x + (Y - 1)) / Y` and `((Y - 1) + x) / Y` for literals. *)
Definition div_ceil_shape4 (o : binop) (l r rhs : expr) : list expr :=
  match o with
  | BI OAdd => (if differ_by_one r rhs then [div_ceil_sugg l rhs] else []) ++
               (if differ_by_one l rhs then [div_ceil_sugg r rhs] else [])
  | _ => []
  end.
(** manual_div_ceil.rs:69-75. *)
Definition div_ceil_shape5 (o : binop) (l r rhs : expr) : list expr :=
  match o, rhs with
  | BI OSub, EUn UNeg ab => if differ_by_one ab r then [div_ceil_sugg l rhs] else []
  | _, _ => []
  end.
(** manual_div_ceil.rs:16-100 [check]: the list of suggestions emitted (the first two shapes
    return, the others do not).  The function-call form of [next_multiple_of] (lines 85-96) is
    the same expression in the model. *)
Definition manual_div_ceil (feat : bool) (e : expr) : list expr :=
  match e with
  | EBin (BI ODiv) lhs rhs =>
      if check_int_ty_and_feature feat (ty_of lhs) && check_int_ty_and_feature feat (ty_of rhs) then
        match lhs with
        | EBin o l r =>
            match div_ceil_shape1 o l r rhs, div_ceil_shape2 o l r rhs with
            | Some s, _ => [s]
            | None, Some s => [s]
            | None, None => div_ceil_shape3 o l r rhs ++ div_ceil_shape4 o l r rhs ++ div_ceil_shape5 o l r rhs
            end
        | EM1 MNextMultipleOf x a => if is_int (ty_of x) && expr_eqb a rhs then [div_ceil_sugg x rhs] else []
        | _ => []
        end
      else []
  | _ => []
  end.

(** ** /repo/clippy_lints/src/manual_is_power_of_two.rs *)

(** manual_is_power_of_two.rs:97-108 [count_ones_receiver]. *)
Definition count_ones_receiver (e : expr) : option expr :=
  match e with EM0 MCountOnes r => if is_uint (ty_of r) then Some r else None | _ => None end.
(** manual_is_power_of_two.rs:111-126 [is_one_less]. *)
Definition is_one_less (greater smaller : expr) : option expr :=
  match smaller with
  | EBin (BI OSub) l r => if expr_eqb greater l && is_int_lit r 1 && is_uint (ty_of greater) then Some greater else None
  | _ => None
  end.
(** manual_is_power_of_two.rs:129-132 [is_and_minus_one]. *)
Definition is_and_minus_one (e : expr) : option expr :=
  match e with EBin (BI OAnd) l r => orelse (is_one_less l r) (is_one_less r l) | _ => None end.
(** manual_is_power_of_two.rs:70-92 [check_expr]. *)
Definition manual_is_power_of_two (e : expr) : option expr :=
  let guard (b : bool) (o : option expr) := if b then o else None in
  match e with
  | EBin (BC CEq) l r =>
      option_map (EM0 MIsPow2)
        (orelse (guard (is_int_lit r 1) (count_ones_receiver l))
        (orelse (guard (is_int_lit l 1) (count_ones_receiver r))
        (orelse (guard (is_int_lit r 0) (is_and_minus_one l))
                (guard (is_int_lit l 0) (is_and_minus_one r)))))
  | _ => None
  end.

(** ** /repo/clippy_lints/src/manual_abs_diff.rs *)

(** manual_abs_diff.rs:117-148 [is_sub_expr]; the recursive call (line 132) is made with an
    unsigned type and therefore reaches the plain-subtraction test. *)
Definition is_plain_sub (e a b : expr) : bool :=
  match e with EBin (BI OSub) x y => expr_eqb x a && expr_eqb y b | _ => false end.
Definition is_sub_expr (e a b : expr) (t : ity) : bool :=
  if ity_signed t then
    match e with ECast e' ct => ity_eqb ct (unsigned_of t) && is_plain_sub e' a b | _ => false end
  else is_plain_sub e a b.
(** manual_abs_diff.rs:57-95 with [are_ty_eligible] (100-109) for integers; references and
    [Duration] are not modelled.  [unsuf] is [is_unsuffixed_numeral_lit] (150-152): the model
    has no suffixes, so it is any predicate. *)
Definition manual_abs_diff (unsuf : expr -> bool) (e : expr) : option expr :=
  match e with
  | EIf (EBin (BC c) r l) th el =>
      match (match c with CGt | CGe => Some (r, l) | CLt | CLe => Some (l, r) | _ => None end) with
      | Some (a, b) =>
          match ty_of a, ty_of b with
          | Some (TI ta), Some (TI tb) =>
              if ity_eqb ta tb && is_sub_expr th a b ta && is_sub_expr el b a ta then
                Some (if unsuf a && negb (unsuf b) then EM1 MAbsDiff b a else EM1 MAbsDiff a b)
              else None
          | _, _ => None
          end
      | None => None
      end
  | _ => None
  end.

(** ** /repo/clippy_lints/src/manual_rem_euclid.rs *)

(** manual_rem_euclid.rs:117-127. *)
Definition unsigned_int_constant (h p : ptrw) (e : expr) : option Z :=
  match eval_full_int h p e with
  | Some (FS s) => if 0 <=? s then Some s else None
  | Some (FU u) => Some u
  | None => None
  end.
(** manual_rem_euclid.rs:106-115. *)
Definition either_unsigned_int_constant (h p : ptrw) (l r : expr) : option (Z * expr) :=
  match unsigned_int_constant h p l with
  | Some c => Some (c, r)
  | None => match unsigned_int_constant h p r with Some c => Some (c, l) | None => None end
  end.
(** manual_rem_euclid.rs:51-101 [check_expr]; the constant is printed in decimal as an argument
    whose type is that of the receiver. *)
Definition manual_rem_euclid (h p : ptrw) (e : expr) : option expr :=
  match e with
  | EBin (BI ORem) (EBin (BI OAdd) al ar) rr =>
      match unsigned_int_constant h p rr, either_unsigned_int_constant h p al ar with
      | Some c1, Some (c2, EBin (BI ORem) x r2) =>
          match x, unsigned_int_constant h p r2 with
          | EVar (TI t) _, Some c3 =>
              if (c1 =? c2) && (c2 =? c3) then Some (EM1 MRemEuclid x (ELit t c1)) else None
          | _, _ => None
          end
      | _, _ => None
      end
  | _ => None
  end.

(** ** /repo/clippy_lints/src/operators/manual_is_multiple_of.rs *)

(** /repo/clippy_utils/src/consts.rs:1183-1185. *)
Definition is_zero_const (h p : ptrw) (e : expr) : bool :=
  match integer_const h p e with Some 0 => true | _ => false end.
Definition is_binary (e : expr) : bool := match e with EBin _ _ _ => true | _ => false end.
(** manual_is_multiple_of.rs:58-80 [uint_compare_to_zero]. *)
Definition uint_compare_to_zero (h p : ptrw) (c : cop) (l r : expr) : option expr :=
  let operand :=
    if is_binary l && match c with CEq | CNe | CGt => true | _ => false end && is_zero_const h p r then Some l
    else if is_binary r && match c with CEq | CNe | CLt => true | _ => false end && is_zero_const h p l then Some r
    else None in
  match operand with Some o => if is_uint (ty_of o) then Some o else None | None => None end.
(** manual_is_multiple_of.rs:14-55 [check]. *)
Definition manual_is_multiple_of (h p : ptrw) (e : expr) : option expr :=
  match e with
  | EBin (BC c) l r =>
      match uint_compare_to_zero h p c l r with
      | Some (EBin (BI ORem) x y) =>
          if is_uint (ty_of x) && is_uint (ty_of y) then
            let s := EM1 MIsMultipleOf x y in
            Some (match c with CEq => s | _ => EUn UNot s end)
          else None
      | _ => None
      end
  | _ => None
  end.

(** ** /repo/clippy_lints/src/operators/manual_isolate_lowest_one.rs *)

(** manual_isolate_lowest_one.rs:128-132 [is_same_local_path]. *)
Definition same_local (a b : expr) : bool := is_local a && expr_eqb a b.
(** lines 75-78 and 107-115. *)
Definition matching_wrapping_neg (base negated : expr) : option expr :=
  match negated with EM0 MWrappingNeg r => if same_local base r then Some base else None | _ => None end.
(** lines 80-88. *)
Definition matching_neg (base negated : expr) : option expr :=
  match negated with EUn UNeg r => if same_local base r then Some base else None | _ => None end.
(** lines 15-53 [check]; the [NonZero] arms are not modelled. *)
Definition manual_isolate_lowest_one (e : expr) : option expr :=
  match e with
  | EBin (BI OAnd) l r =>
      match orelse (matching_wrapping_neg l r) (matching_wrapping_neg r l) with
      | Some b =>
          if is_int (ty_of b) then Some (EM0 MIsolateLowestOne b)
          else None (* both later arms need [negated] to have another shape *)
      | None =>
          match orelse (matching_neg l r) (matching_neg r l) with
          | Some b => if is_sint (ty_of b) then Some (EM0 MIsolateLowestOne b) else None
          | None => None
          end
      end
  | _ => None
  end.

(** ** /repo/clippy_lints/src/operators/manual_midpoint.rs (integer arms) *)
Definition add_operands (e : expr) : option (expr * expr) :=
  match e with EBin (BI OAdd) l r => Some (l, r) | _ => None end.
(** manual_midpoint.rs:13-60 [check]. *)
Definition manual_midpoint (e : expr) : option expr :=
  let sel :=
    match e with
    | EBin (BI ODiv) l r => if is_int_lit r 2 then Some (l, false) else None
    | EBin (BI OShr) l r => if is_int_lit r 1 then Some (l, true) else None
    | _ => None
    end in
  match sel with
  | Some (s, req_uint) =>
      match add_operands s with
      | Some (a, b) =>
          match add_operands a, add_operands b, ty_of a, ty_of b with
          | None, None, Some (TI ta), Some (TI tb) =>
              if ity_eqb ta tb && (negb req_uint || negb (ity_signed ta)) && negb (is_int_lit a 1) && negb (is_int_lit b 1)
              then Some (EM1 MMidpoint a b) else None
          | _, _, _, _ => None
          end
      | None => None
      end
  | None => None
  end.
