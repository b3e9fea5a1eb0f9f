(** Model of the integer cast lints, /repo/clippy_lints/src/casts/*.rs. *)
From Verif Require Export ConstModel.
Open Scope Z_scope.

(** utils.rs:6-13 [int_ty_to_nbits] on integer types. *)
Definition int_ty_to_nbits (p : ptrw) (t : ity) : Z := bits p t.
(** /repo/clippy_utils/src/ty/mod.rs:457-459 [is_isize_or_usize]. *)
Definition is_isize_or_usize (t : ity) : bool := match ity_size t with WSize => true | _ => false end.

(** ** cast_possible_truncation.rs *)

(** cast_possible_truncation.rs:17-23 [constant_int]. *)
Definition constant_int (p : ptrw) (e : expr) : option Z :=
  match ceval p p e with Some (CInt c) => Some c | _ => None end.
(** [128 - c.leading_zeros()] of a u128. *)
Definition nbits_u128 (c : Z) : Z := if c =? 0 then 0 else Z.log2 c + 1.
(** cast_possible_truncation.rs:25-27 [get_constant_bits]. *)
Definition get_constant_bits (p : ptrw) (e : expr) : option Z := option_map nbits_u128 (constant_int p e).
(** [o.unwrap_or(u64::MAX).min(n)]. *)
Definition min_bits (o : option Z) (n : Z) : Z := match o with Some b => Z.min b n | None => n end.
(** [saturating_sub] on u64. *)
Definition sat_sub (a b : Z) : Z := Z.max 0 (a - b).
(** [u64::try_from(s).unwrap_or_default()]. *)
Definition as_u64_or_0 (s : Z) : Z := if s <? 2 ^ 64 then s else 0.

(** cast_possible_truncation.rs:29-85 [apply_reductions].  Blocks are transparent here; local
    variables are opaque (the code looks through immutable `let` bindings with [expr_or_init]). *)
Fixpoint apply_reductions (p : ptrw) (nbits : Z) (e : expr) (signed : bool) : Z :=
  match e with
  | ECast inner _ => apply_reductions p nbits inner signed
  | EBin (BI o) lhs rhs =>
      match o with
      | ODiv => sat_sub (apply_reductions p nbits lhs signed)
                  (if signed then 0
                   else match get_constant_bits p rhs with Some b => sat_sub b 1 | None => 0 end)
      | ORem => min_bits (get_constant_bits p rhs) (apply_reductions p nbits lhs signed)
      | OAnd => min_bits (get_constant_bits p rhs)
                  (min_bits (get_constant_bits p lhs)
                     (Z.min (apply_reductions p nbits rhs signed) (apply_reductions p nbits lhs signed)))
      | OShr => sat_sub (apply_reductions p nbits lhs signed)
                  (match constant_int p rhs with Some s => as_u64_or_0 s | None => 0 end)
      | _ => nbits
      end
  | EM1 k lhs rhs =>
      if signed then nbits
      else
        let max_bits := match k with MMin => get_constant_bits p rhs | _ => None end in
        min_bits max_bits (apply_reductions p nbits lhs signed)
  | EM2 MClamp _ lo hi =>
      match get_constant_bits p lo, get_constant_bits p hi with
      | Some lo_bits, Some hi_bits => Z.max lo_bits hi_bits
      | _, _ => nbits
      end
  | EM0 k _ => match k with MSignum => 0 | _ => nbits end
  | _ => nbits
  end.

(** cast_possible_truncation.rs:104-117: [should_lint], given the reduced number of bits. *)
Definition truncates (p : ptrw) (from to : ity) (from_nbits : Z) : bool :=
  let to_nbits := int_ty_to_nbits p to in
  match is_isize_or_usize from, is_isize_or_usize to with
  | true, true | false, false => to_nbits <? from_nbits
  | true, false => to_nbits <=? 32
  | false, true => from_nbits =? 64
  end.
(** cast_possible_truncation.rs:87-124 [check] on an integer-to-integer cast. *)
Definition cast_possible_truncation (p : ptrw) (e : expr) (from to : ity) : bool :=
  truncates p from to (apply_reductions p (int_ty_to_nbits p from) e (ity_signed from)).

(** ** cast_possible_wrap.rs *)

(** cast_possible_wrap.rs:14-20 [EmitState]. *)
Inductive emit_state := NoLint | LintAlways | LintOnPtrSize (n : Z).
(** cast_possible_wrap.rs:11-12 [ALLOWED_POINTER_SIZES]. *)
Definition allowed_pointer_sizes : list Z := [16; 32; 64].
(** cast_possible_wrap.rs:29-82 [check] up to the message. *)
Definition wrap_state (p : ptrw) (from to : ity) : emit_state :=
  let from_nbits := int_ty_to_nbits p from in
  let to_nbits := int_ty_to_nbits p to in
  if ity_signed from || negb (ity_signed to) then NoLint
  else match is_isize_or_usize from, is_isize_or_usize to with
       | true, true => LintAlways
       | true, false => if existsb (Z.eqb to_nbits) allowed_pointer_sizes then LintOnPtrSize to_nbits else NoLint
       | false, true => if existsb (Z.eqb from_nbits) allowed_pointer_sizes then LintOnPtrSize from_nbits else NoLint
       | false, false => if from_nbits =? to_nbits then LintAlways else NoLint
       end.
(** cast_possible_wrap.rs:84-90. *)
Definition cast_possible_wrap (p : ptrw) (from to : ity) : bool :=
  match wrap_state p from to with NoLint => false | _ => true end.

(** ** cast_sign_loss.rs *)

(** cast_sign_loss.rs:138-143 [Sign]. *)
Inductive sign := ZeroOrPositive | Negative | Uncertain.

(** cast_sign_loss.rs:108-121 [get_const_signed_int_eval]; the type passed in is always the type of
    the expression. *)
Definition get_const_signed_int_eval (p : ptrw) (e : expr) : option Z :=
  match ceval p p e, ty_of e with
  | Some (CInt n), Some (TI t) => if ity_signed t then Some (sext p t n) else None
  | _, _ => None
  end.
(** cast_sign_loss.rs:123-136 [get_const_unsigned_int_eval]. *)
Definition get_const_unsigned_int_eval (p : ptrw) (e : expr) : option Z :=
  match ceval p p e, ty_of e with
  | Some (CInt n), Some (TI t) => if ity_signed t then None else Some n
  | _, _ => None
  end.

(** cast_sign_loss.rs:23-31 [METHODS_RET_POSITIVE] (the listed methods the language has). *)
Definition ret_positive0 (k : meth0) : bool := match k with MChkAbs | MSatAbs | MIsqrt => true | _ => false end.
Definition ret_positive1 (k : meth1) : bool := match k with MRemEuclid | MWrapRemEuclid => true | _ => false end.
(** cast_sign_loss.rs:37 [METHODS_POW]. *)
Definition is_pow (k : meth1) : bool := match k with MPow | MSatPow | MChkPow => true | _ => false end.

(** cast_sign_loss.rs:195-211: the match in [pow_call_result_sign]. *)
Definition pow_sign (base : sign) (exponent : option Z) : sign :=
  match base, option_map (fun v => v mod 2 =? 0) exponent with
  | ZeroOrPositive, _ | _, Some true => ZeroOrPositive
  | Negative, Some false => Negative
  | (Negative | Uncertain), None | Uncertain, Some false => Uncertain
  end.

(** cast_sign_loss.rs:145-177 [expr_sign] and 189-212 [pow_call_result_sign].  The only method of
    [METHODS_UNWRAP] in the language is [unwrap]; under it the code looks at the name of the inner
    method but at the (empty) argument list of [unwrap], so an inner [pow] is not recognised. *)
Fixpoint expr_sign (p : ptrw) (e : expr) : sign :=
  match get_const_signed_int_eval p e with
  | Some v => if 0 <=? v then ZeroOrPositive else Negative
  | None =>
      match get_const_unsigned_int_eval p e with
      | Some _ => ZeroOrPositive
      | None =>
          match e with
          | EM1 k base arg =>
              if is_pow k then pow_sign (expr_sign p base) (get_const_unsigned_int_eval p arg)
              else if ret_positive1 k then ZeroOrPositive else Uncertain
          | EM0 MUnwrap inner =>
              match inner with
              | EM0 k _ => if ret_positive0 k then ZeroOrPositive else Uncertain
              | EM1 k _ _ => if ret_positive1 k then ZeroOrPositive else Uncertain
              | _ => Uncertain
              end
          | EM0 k _ => if ret_positive0 k then ZeroOrPositive else Uncertain
          | _ => Uncertain
          end
      end
  end.

(** cast_sign_loss.rs:290-329 [exprs_with_muldiv_binop_peeled]. *)
Fixpoint muldiv_peeled (e : expr) : list expr :=
  match e with
  | EBin (BI (OMul | ODiv)) a b => muldiv_peeled a ++ muldiv_peeled b
  | EBin (BI (ORem | OShr)) lhs _ => [lhs]
  | _ => [e]
  end.
(** cast_sign_loss.rs:339-365 [exprs_with_add_binop_peeled]. *)
Fixpoint add_peeled (e : expr) : list expr :=
  match e with
  | EBin (BI OAdd) a b => add_peeled a ++ add_peeled b
  | _ => [e]
  end.

(** The loop of [expr_muldiv_sign] and [expr_add_sign]: counts of negative and non-negative
    expressions, [None] at the first uncertain one. *)
Fixpoint count_signs (p : ptrw) (l : list expr) : option (nat * nat) :=
  match l with
  | [] => Some (0, 0)%nat
  | e :: l =>
      match expr_sign p e with
      | Uncertain => None
      | Negative => option_map (fun '(n, q) => (S n, q)) (count_signs p l)
      | ZeroOrPositive => option_map (fun '(n, q) => (n, S q)) (count_signs p l)
      end
  end.
(** cast_sign_loss.rs:218-243 [expr_muldiv_sign]. *)
Definition expr_muldiv_sign (p : ptrw) (e : expr) : sign :=
  match count_signs p (muldiv_peeled e) with
  | None => Uncertain
  | Some (n, _) => if Nat.odd n then Negative else ZeroOrPositive
  end.
(** cast_sign_loss.rs:249-278 [expr_add_sign]. *)
Definition expr_add_sign (p : ptrw) (e : expr) : sign :=
  match count_signs p (add_peeled e) with
  | None => Uncertain
  | Some (n, q) => if Nat.eqb n 0 then ZeroOrPositive else if Nat.eqb q 0 then Negative else Uncertain
  end.
Definition is_zop (s : sign) : bool := match s with ZeroOrPositive => true | _ => false end.
(** cast_sign_loss.rs:79-106 [should_lint] on an integer-to-integer cast. *)
Definition cast_sign_loss (p : ptrw) (e : expr) (from to : ity) : bool :=
  if negb (ity_signed from) || ity_signed to then false
  else negb (is_zop (expr_sign p e) || is_zop (expr_muldiv_sign p e) || is_zop (expr_add_sign p e)).

(** mod.rs:920-926: none of the three integer lints fires on `e as to`. *)
Definition cast_silent (p : ptrw) (e : expr) (to : ity) : bool :=
  match ty_of e with
  | Some (TI from) =>
      negb (cast_possible_truncation p e from to || cast_possible_wrap p from to || cast_sign_loss p e from to)
  | _ => false
  end.

(** ** cast_abs_to_unsigned.rs *)

(** [bit_width] of a primitive integer type: [None] for the pointer-sized ones. *)
Definition bit_width (t : ity) : option Z :=
  match ity_size t with W8 => Some 8 | W16 => Some 16 | W32 => Some 32 | W64 => Some 64 | W128 => Some 128 | WSize => None end.
Definition oz_eqb (a b : option Z) : bool :=
  match a, b with Some x, Some y => x =? y | None, None => true | _, _ => false end.
(** cast_abs_to_unsigned.rs:12-44 [check]: the expression after applying the suggestion. *)
Definition cast_abs_to_unsigned (e : expr) : option expr :=
  match e with
  | ECast (EM0 MAbs recv) to =>
      match ty_of recv with
      | Some (TI from) =>
          if ity_signed from && negb (ity_signed to) then
            Some (if oz_eqb (bit_width from) (bit_width to) then EM0 MUnsignedAbs recv
                  else ECast (EM0 MUnsignedAbs recv) to)
          else None
      | _ => None
      end
  | _ => None
  end.

(** ** cast_lossless.rs and cast_precision_loss.rs *)

Inductive fty := F16 | F32 | F64 | F128.
(** Numeric (and bool) types of a cast. *)
Inductive nty := NI (t : ity) | NF (f : fty) | NB.

(** cast_lossless.rs:79-110 [should_lint]. *)
Definition cast_lossless (p : ptrw) (from to : nty) : bool :=
  match from, to with
  | NI from, NI to =>
      negb (is_isize_or_usize from) && negb (is_isize_or_usize to)
        && (int_ty_to_nbits p from <? int_ty_to_nbits p to)
        && negb (ity_signed from && negb (ity_signed to))
  | NI from, NF f =>
      let to_nbits := match f with F32 => 32 | _ => 64 end in
      negb (is_isize_or_usize from) && (int_ty_to_nbits p from <? to_nbits)
  | NB, NI _ => true
  | NF F32, NF F64 => true
  | _, _ => false
  end.

(** cast_precision_loss.rs:9-24 [check]. *)
Definition cast_precision_loss (p : ptrw) (from : ity) (f : fty) : bool :=
  match f with
  | F32 => is_isize_or_usize from || (32 <=? int_ty_to_nbits p from)
  | F64 => is_isize_or_usize from || (64 <=? int_ty_to_nbits p from)
  | _ => false
  end.

(** ** Enum casts *)

(** /repo/clippy_utils/src/ty/mod.rs:921-924 [EnumValue]. *)
Inductive enum_value := EUnsigned (x : Z) | ESigned (x : Z).
(** rustc's [VariantDiscr]; [None] for an explicit discriminant that cannot be read. *)
Inductive variant_discr := Explicit (v : option enum_value) | Relative (x : Z).

(** utils.rs:15-22 [enum_value_nbits]. *)
Definition enum_value_nbits (v : enum_value) : Z :=
  match v with
  | EUnsigned x => nbits_u128 x
  | ESigned x => if x <? 0 then nbits_u128 (- (x + 1)) + 1 else nbits_u128 x
  end.

(** utils.rs:26-47: one step of the fold; the state is [(explicit, start, end)]. *)
Definition enum_step (st : Z * Z * Z) (d : variant_discr) : Z * Z * Z :=
  let '(explicit, start, fin) := st in
  match d with
  | Relative x =>
      if in_i128 (explicit + x) then (explicit, start, Z.max fin (explicit + x))
      else (explicit, - 2 ^ 127, fin)
  | Explicit (Some (ESigned x)) => (x, Z.min start x, Z.max fin x)
  | Explicit (Some (EUnsigned x)) =>
      if in_i128 x then (x, start, Z.max fin x) else (explicit, - 2 ^ 127, fin)
  | Explicit None => (explicit, start, fin)
  end.
(** utils.rs:24-61 [enum_ty_to_nbits]. *)
Definition enum_ty_to_nbits (l : list variant_discr) : Z :=
  let '(_, start, fin) := fold_left enum_step l (0, 0, - 2 ^ 127) in
  if fin <? start then 0
  else
    let neg_bits := if start <? 0 then nbits_u128 (- (start + 1)) + 1 else 0 in
    let pos_bits := if 0 <? fin then nbits_u128 fin else 0 in
    Z.max neg_bits pos_bits.

(** How the compiler stores the discriminants of an enum whose `repr` type is signed or not, from the
    given values: [VariantDiscr::Explicit], evaluated, or [VariantDiscr::Relative] with the distance to
    the last variant that has a given value (to the first variant if there is none). *)
Definition ev (signed : bool) (d : Z) : enum_value := if signed then ESigned d else EUnsigned d.
Fixpoint stored (signed : bool) (k : Z) (l : list (option Z)) : list variant_discr :=
  match l with
  | [] => []
  | Some d :: l => Explicit (Some (ev signed d)) :: stored signed 1 l
  | None :: l => Relative k :: stored signed (k + 1) l
  end.

(** ty/mod.rs:925-933: adding to an [EnumValue]. *)
Definition enum_add (v : enum_value) (n : Z) : enum_value :=
  match v with EUnsigned x => EUnsigned (x + n) | ESigned x => ESigned (x + n) end.
(** ty/mod.rs:948-958 [get_discriminant_value]; [None] is a panic of an [unwrap] or an index. *)
Definition get_discriminant_value (l : list variant_discr) (i : nat) : option enum_value :=
  match nth_error l i with
  | Some (Explicit v) => v
  | Some (Relative x) =>
      match nth_error l (i - Z.to_nat x) with
      | Some (Explicit v) => option_map (fun v => enum_add v x) v
      | Some (Relative _) => Some (EUnsigned x)
      | None => None
      end
  | None => None
  end.

(** cast_possible_truncation.rs:126-149: whether the cast of an enum is reported.  [from_nbits]
    comes from the variant ([enum_value_nbits]) or the type ([enum_ty_to_nbits]); [ptr_repr]: no
    `repr` integer or a pointer-sized one. *)
Definition enum_truncates (p : ptrw) (ptr_repr : bool) (from_nbits : Z) (to : ity) : bool :=
  match ptr_repr, is_isize_or_usize to with
  | _, false => int_ty_to_nbits p to <? from_nbits
  | false, true => 32 <? from_nbits
  | true, true => false
  end.

(** ** checked_conversions.rs *)

(** /repo/clippy_lints/src/checked_conversions.rs:303-316 [UINTS], [SINTS], [INTS]: no 128-bit types. *)
Definition in_ints (t : ity) : bool := match ity_size t with W128 => false | _ => true end.
(** checked_conversions.rs:106-112 [ConversionType]. *)
Inductive conv_type := SignedToUnsigned | SignedToSigned | FromUnsigned.
Definition conv_type_eqb (a b : conv_type) : bool :=
  match a, b with
  | SignedToUnsigned, SignedToUnsigned | SignedToSigned, SignedToSigned | FromUnsigned, FromUnsigned => true
  | _, _ => false
  end.
(** checked_conversions.rs:98-104 [Conversion]: kind, expression, target type if any. *)
Record conversion := { cvt : conv_type; expr_to_cast : expr; to_type : option ity }.

(** checked_conversions.rs:223-276 [get_types_from_cast]: `to_type::MAX as from_type` (or MIN); the `from`/`max_value` spellings
    denote the same expression. *)
Definition get_types_from_cast (e : expr) (a : assoc) (signed_only : bool) : option (ity * ity) :=
  match e with
  | ECast (EAssoc to a') from =>
      if in_ints to && in_ints from && (negb signed_only || ity_signed to)
         && (match a, a' with AMin, AMin | AMax, AMax => true | _, _ => false end)
      then Some (from, to) else None
  | _ => None
  end.
(** checked_conversions.rs:177-191 [ConversionType::try_new] and 156-162 [Conversion::try_new]. *)
Definition conv_try_new (x : expr) (from to : ity) : conversion :=
  {| cvt := if negb (ity_signed from) then FromUnsigned
            else if negb (ity_signed to) then SignedToUnsigned else SignedToSigned;
     expr_to_cast := x; to_type := Some to |}.
(** checked_conversions.rs:195-201 [check_upper_bound]. *)
Definition check_upper_bound (lt gt : expr) : option conversion :=
  match get_types_from_cast gt AMax false with Some (from, to) => Some (conv_try_new lt from to) | None => None end.
(** checked_conversions.rs:204-220 [check_lower_bound]: `expr >= 0` or `expr >= to_type::MIN as from_type`. *)
Definition check_lower_bound (lt gt : expr) : option conversion :=
  match lt with
  | ELit _ 0 => Some {| cvt := SignedToUnsigned; expr_to_cast := gt; to_type := None |}
  | _ =>
      match get_types_from_cast lt AMin true with Some (from, to) => Some (conv_try_new gt from to) | None => None end
  end.
(** checked_conversions.rs:130-154 [Conversion::combine]. *)
Definition conv_combine (a b : conversion) : option conversion :=
  if conv_type_eqb (cvt a) (cvt b) && expr_eqb (expr_to_cast a) (expr_to_cast b)
     && (match to_type a, to_type b with Some l, Some r => ity_eqb l r | _, _ => true end)
  then Some (match to_type a with Some _ => a | None => b end) else None.
(** checked_conversions.rs:116-126 [read_le_ge]: the operands of `<=`, or of `>=` exchanged. *)
Definition read_le_ge (e : expr) : option (expr * expr) :=
  match e with
  | EBin (BC CLe) l r => Some (l, r)
  | EBin (BC CGe) l r => Some (r, l)
  | _ => None
  end.
(** checked_conversions.rs:72-76: the closure [upper_lower]. *)
Definition upper_lower (u l : expr * expr) : option conversion :=
  match check_upper_bound (fst u) (snd u), check_lower_bound (fst l) (snd l) with
  | Some a, Some b => conv_combine a b
  | _, _ => None
  end.
(** checked_conversions.rs:50-102 [check_expr]: `to_type::try_from(x).is_ok()` is offered for [e];
    the result is [(x, to_type)]. *)
Definition checked_conversions (e : expr) : option (expr * ity) :=
  let cv :=
    match e with
    | EBin BAnd a b =>
        match read_le_ge a, read_le_ge b with
        | Some c1, Some c2 =>
            match upper_lower c1 c2 with Some c => Some c | None => upper_lower c2 c1 end
        | _, _ => None
        end
    | _ =>
        match read_le_ge e with
        | Some (lt, gt) =>
            match check_upper_bound lt gt with
            | Some c => if conv_type_eqb (cvt c) FromUnsigned then Some c else None
            | None => None
            end
        | None => None
        end
    end in
  match cv with
  | Some c => match to_type c with Some t => Some (expr_to_cast c, t) | None => None end
  | None => None
  end.
