(** Models of /repo/clippy_lints/src/implicit_saturating_sub.rs, implicit_saturating_add.rs and
    methods/manual_saturating_arithmetic.rs. *)
From Verif Require Export RustStmt ConstModel ArithModel.
Open Scope Z_scope.

(** implicit_saturating_sub.rs:396-415 [subtracts_one]; the target is a local variable. *)
Definition subtracts_one (s : stmt) : option (ty * nat) :=
  match s with
  | SAssignOp OSub t x v => if is_int_lit v 1 then Some (t, x) else None
  | SAssign t x (EBin (BI OSub) l r) => if expr_eqb l (EVar t x) && is_int_lit r 1 then Some (t, x) else None
  | _ => None
  end.
(** implicit_saturating_sub.rs:350-392: the other side is a zero literal of a type that is not
    signed, or `T::MIN` (also written `T::min_value()`). *)
Definition is_lower_end (cond_left e : expr) : bool :=
  match e with
  | ELit _ n => (n =? 0) && match ty_of cond_left with Some (TI t) => negb (ity_signed t) | _ => true end
  | EAssoc _ AMin => true
  | _ => false
  end.
Definition is_int_ty (t : option ty) : bool := match t with Some (TI _) => true | _ => false end.
(** implicit_saturating_sub.rs:305-394 [check_with_condition] and 417-427 [print_lint_and_sugg]. *)
Definition implicit_sub_stmt (s : stmt) : option stmt :=
  match s with
  | SIf (EBin (BC c) l r) th SSkip =>
      match c with
      | CNe | CGt | CLt =>
          match subtracts_one th with
          | Some (t, x) =>
              let sugg := SAssign t x (EM1 MSatSub (EVar t x) (ELit (match t with TI i => i | _ => u32 end) 1)) in
              match (if expr_eqb l (EVar t x) then match c with CGt | CNe => Some r | _ => None end
                     else if expr_eqb r (EVar t x) then match c with CLt | CNe => Some l | _ => None end
                     else None) with
              | Some other => if is_int_ty (Some t) && is_lower_end l other then Some sugg else None
              | None => None
              end
          | None => None
          end
      | _ => None
      end
  | _ => None
  end.

Inductive sub_sugg := Whole (e : expr) | Inverted (e : expr).
(** implicit_saturating_sub.rs:203-303 [check_subtraction]: the suggestion replaces the whole
    expression ([Whole]) or the block that subtracts ([Inverted]). *)
Definition sub_or_inverted (big little sub_block zero_block : expr) : option sub_sugg :=
  if is_int_lit zero_block 0 then
    match sub_block with
    | EBin (BI OSub) a b =>
        if expr_eqb a big && expr_eqb b little then Some (Whole (EM1 MSatSub big little))
        else if expr_eqb a little && expr_eqb b big then Some (Inverted (EBin (BI OSub) big little))
        else None
    | _ => None
    end
  else None.
(** The recursive call with the operands and the blocks exchanged; [c] is kept, so the replaced
    block of an inverted check is the else block there. *)
Definition check_subtraction (c big little if_block else_block : expr) : option sub_sugg :=
  if is_int_lit if_block 0 then
    if is_int_lit else_block 0 then None
    else option_map (fun s => match s with Whole e => Whole e | Inverted e => Inverted (EIf c if_block e) end)
           (sub_or_inverted little big else_block if_block)
  else option_map (fun s => match s with Whole e => Whole e | Inverted e => Inverted (EIf c e else_block) end)
         (sub_or_inverted big little if_block else_block).
(** implicit_saturating_sub.rs:98-201 [check_expr], [check_manual_check], [check_gt].
    [Whole]: implicit_saturating_sub, [Inverted]: inverted_saturating_sub. *)
Definition manual_sub_check (e : expr) : option sub_sugg :=
  match e with
  | EIf (EBin (BC c) l r) a b =>
      if match ty_of l with Some (TI t) => negb (ity_signed t) | Some TF => true | _ => false end then
        match c with
        | CGt | CGe => check_subtraction (EBin (BC c) l r) l r a b
        | CLt | CLe => check_subtraction (EBin (BC c) l r) r l a b
        | _ => None
        end
      else None
  | _ => None
  end.

(** implicit_saturating_add.rs:99-116 [get_int_max]: `isize::MAX`/`usize::MAX` are those of the
    machine clippy runs on, [h]. *)
Definition get_int_max (h : ptrw) (t : ty) : option Z := match t with TI i => Some (imax h i) | _ => None end.
(** implicit_saturating_add.rs:132-142 [invert_op]. *)
Definition sat_invert_op (c : cop) : option cop :=
  match c with CLt => Some CGt | CLe => Some CGe | CNe => Some CNe | CGe => Some CLe | CGt => Some CLt | CEq => None end.
(** implicit_saturating_add.rs:118-130 [get_const]. *)
Definition sat_get_const (h p : ptrw) (e : expr) : option (Z * cop * expr) :=
  match e with
  | EBin (BC c) l r =>
      match eval_local h p r with
      | Some (CInt u) => Some (u, c, l)
      | _ => match eval_local h p l with
             | Some (CInt u) => option_map (fun c' => (u, c', r)) (sat_invert_op c)
             | _ => None
             end
      end
  | _ => None
  end.
(** implicit_saturating_add.rs:43-96 [check_expr]; the target is a local variable. *)
Definition implicit_add_stmt (h p : ptrw) (s : stmt) : option stmt :=
  match s with
  | SIf c (SAssignOp OAdd t x v) SSkip =>
      match sat_get_const h p c with
      | Some (u, op, l) =>
          match op with
          | CNe | CLt =>
              if match get_int_max h t with Some k => u =? k | None => false end && expr_eqb l (EVar t x) && is_int_lit v 1
              then Some (SAssign t x (EM1 MSatAdd (EVar t x) (ELit (match t with TI i => i | _ => u32 end) 1))) else None
          | _ => None
          end
      | None => None
      end
  | _ => None
  end.

(** manual_saturating_arithmetic.rs:134-138 [MinMax]. *)
Inductive minmax := MmMin | MmMax.
(** manual_saturating_arithmetic.rs:140-205 [is_min_or_max].  `T::max_value()` is the node of
    `T::MAX`; the code does not look at what `T` is in the call form, here it is a primitive type. *)
Definition mm_check_lit (p : ptrw) (t : ity) (e : expr) (check_min : bool) : option minmax :=
  let minval := if ity_signed t then 2 ^ (bits p t - 1) else 0 in
  match e with
  | ELit _ v => if v =? imax p t then Some MmMax else if check_min && (v =? minval) then Some MmMin else None
  | _ => None
  end.
Definition is_min_or_max (p : ptrw) (e : expr) : option minmax :=
  match e with
  | EAssoc _ AMax => Some MmMax
  | EAssoc _ AMin => Some MmMin
  | _ =>
      match ty_of e with
      | Some (TI t) =>
          match mm_check_lit p t e (negb (ity_signed t)) with
          | Some r => Some r
          | None => match e with EUn UNeg v => if ity_signed t then mm_check_lit p t v true else None | _ => None end
          end
      | _ => None
      end
  end.
(** manual_saturating_arithmetic.rs:207-223 [Sign], [lit_sign]: [true] is [Neg]. *)
Definition lit_sign (e : expr) : option bool :=
  match e with EUn UNeg (ELit _ _) => Some true | ELit _ _ => Some false | _ => None end.
(** manual_saturating_arithmetic.rs:107-132 [CheckedArith]. *)
Inductive checked_arith := CaAdd | CaSub | CaMul.
Definition ca_new (k : meth1) : option checked_arith :=
  match k with MChkAdd => Some CaAdd | MChkSub => Some CaSub | MChkMul => Some CaMul | _ => None end.
Definition as_saturating (a : checked_arith) : meth1 := match a with CaAdd => MSatAdd | CaSub => MSatSub | CaMul => MSatMul end.
(** manual_saturating_arithmetic.rs:60-105 [check]. *)
Definition sat_arith_check (t : ity) (l r : expr) (mm : minmax) (a : checked_arith) : option expr :=
  let ok :=
    if ity_signed t then
      match lit_sign r with
      | Some neg => match a, neg, mm with
                    | CaAdd, false, MmMax | CaAdd, true, MmMin | CaSub, true, MmMax | CaSub, false, MmMin => true
                    | _, _, _ => false
                    end
      | None => false
      end
    else match mm, a with MmMax, (CaAdd | CaMul) | MmMin, CaSub => true | _, _ => false end in
  if ok then Some (EM1 (as_saturating a) l r) else None.
(** manual_saturating_arithmetic.rs:14-36 [check_unwrap_or]. *)
Definition sat_unwrap_or (p : ptrw) (e : expr) : option expr :=
  match e with
  | EM1 MUnwrapOr (EM1 k l r) d =>
      match ty_of l, is_min_or_max p d, ca_new k with
      | Some (TI t), Some mm, Some a => sat_arith_check t l r mm a
      | _, _, _ => None
      end
  | _ => None
  end.
(** manual_saturating_arithmetic.rs:38-57 [check_sub_unwrap_or_default], for
    `l.checked_sub(r).unwrap_or_default()`. *)
Definition sat_sub_unwrap_or_default (l r : expr) : option expr :=
  match ty_of l with
  | Some (TI t) => if ity_signed t then None else sat_arith_check t l r MmMin CaSub
  | _ => None
  end.
