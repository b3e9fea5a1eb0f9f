(** Model of two analyses of whether an operation can panic:
    /repo/clippy_lints/src/operators/arithmetic_side_effects.rs and
    /repo/clippy_utils/src/eager_or_lazy.rs. *)
From Verif Require Export RustExpr ConstModel.
Open Scope Z_scope.

(** *** arithmetic_side_effects *)

(** /repo/clippy_utils/src/lib.rs:2265-2273 [peel_hir_expr_unary]: strips every unary operator. *)
Fixpoint peel_unary (e : expr) : expr := match e with EUn _ e => peel_unary e | _ => e end.

(** arithmetic_side_effects.rs:422-433 [literal_integer]: the number of a literal behind any unary
    operators, else the bit pattern of a constant. *)
Definition literal_integer (h p : ptrw) (e : expr) : option Z :=
  match peel_unary e with
  | ELit _ n => Some n
  | _ => match ceval h p e with Some (CInt n) => Some n | _ => None end
  end.

(** arithmetic_side_effects.rs:435-445 [max_int_num]; `usize::MAX` is the host's. *)
Definition max_int_num (h : ptrw) (t : ty) : option Z :=
  match t with TI (IT false s) => Some (imax h (IT false s)) | _ => None end.

(** arithmetic_side_effects.rs:329-337 [find_original_primitive_ty].  The `T::from(arg)` form is left out:
    the language has no associated function calls (for integers it is the cast restricted to wider types). *)
Definition find_original (e : expr) : option ty := match e with ECast a _ => ty_of a | _ => None end.

(** arithmetic_side_effects.rs:388-416 [is_safe_due_to_smaller_source_type]. *)
Definition is_safe_due_to_smaller_source_type (h p : ptrw) (o : iop) (e0 e1 : expr) : bool :=
  match literal_integer h p e0, obind (find_original e1) (max_int_num h) with
  | Some num0, Some num1 =>
      match (match o with
             | OAdd => fits128 false (num0 + num1)
             | OMul => fits128 false (num0 * num1)
             | _ => None end) with
      | Some rslt =>
          match ty_of e0 with
          | Some (TI (IT false W16)) => inr h u16 rslt
          | Some (TI (IT false W32)) => inr h u32 rslt
          | Some (TI (IT false W64)) => inr h u64 rslt
          | Some (TI (IT false W128)) => true
          | Some (TI (IT false WSize)) => inr h usize rslt
          | _ => false
          end
      | None => false
      end
  | _, _ => false
  end.

Definition is_int_ty (t : option ty) : bool := match t with Some (TI _) => true | _ => false end.
Definition is_float_ty (t : option ty) : bool := match t with Some TF => true | _ => false end.
Definition known {A} (o : option A) : bool := match o with Some _ => true | None => false end.

(** arithmetic_side_effects.rs:127-214 [manage_bin_ops] with the default configuration, on operands that are not
    references.  [e] is the whole operation.  Simplification: [expr_or_init] is the identity (an immutable local
    is not followed to its initialiser); `NonZero` and `Wrapping` operands are outside the language. *)
Definition manage_bin_ops (h p : ptrw) (e : expr) (o : iop) (l r : expr) : bool :=
  if known (eval_local h p e) then false else
  match o with
  | OAnd | OOr | OXor => false
  | _ =>
      if is_float_ty (ty_of l) && is_float_ty (ty_of r) then false else
      if is_safe_due_to_smaller_source_type h p o l r || is_safe_due_to_smaller_source_type h p o r l then false else
      if is_int_ty (ty_of l) && is_int_ty (ty_of r) then
        match o with
        | OShl | OShr => false
        | _ =>
            match literal_integer h p l, literal_integer h p r with
            | None, Some n =>
                match o with
                | ODiv | ORem => n =? 0
                | OAdd | OSub => negb (n =? 0)
                | OMul => negb ((n =? 0) || (n =? 1))
                | _ => true
                end
            | Some n, None =>
                match o with
                | OAdd | OSub => negb (n =? 0)
                | OMul => negb ((n =? 0) || (n =? 1))
                | _ => true
                end
            | Some _, Some _ => false
            | None, None => true
            end
        end
      else true
  end.

(** arithmetic_side_effects.rs:251-273 [manage_unary_ops]. *)
Definition manage_unary_ops (h p : ptrw) (o : unop) (a : expr) : bool :=
  match o with
  | UNot => false
  | UNeg => if known (ceval h p a) then false
            else if is_float_ty (ty_of a) then false
            else negb (known (literal_integer h p a))
  end.

(** arithmetic_side_effects.rs:218-249 [manage_method_call]; of the methods named at lines 59-64 the
    language has `wrapping_rem_euclid`. *)
Definition manage_method_call (h p : ptrw) (k : meth1) (recv arg : expr) : bool :=
  if known (eval_local h p recv) then false
  else if negb (is_int_ty (ty_of recv)) then false
  else match k with
       | MWrapRemEuclid => match literal_integer h p arg with None => true | Some n => n =? 0 end
       | _ => false
       end.

(** arithmetic_side_effects.rs:283-305 [check_expr]: is this operation itself reported?  (While an enclosing
    operation is being reported, the inner ones are skipped, 275-279.) *)
Definition arithmetic_side_effects (h p : ptrw) (e : expr) : bool :=
  match e with
  | EBin (BI o) l r => manage_bin_ops h p e o l r
  | EUn o a => manage_unary_ops h p o a
  | EM1 k recv arg => manage_method_call h p k recv arg
  | _ => false
  end.

(** *** eager_or_lazy *)

(** eager_or_lazy.rs:26-37 [EagernessSuggestion], in increasing order. *)
Inductive eagerness := Eager | NoChange | Lazy | ForceNoChange.
Definition rank (e : eagerness) : nat := match e with Eager => 0 | NoChange => 1 | Lazy => 2 | ForceNoChange => 3 end.
(** eager_or_lazy.rs:38-48: `|` is the maximum. *)
Definition bitor (a b : eagerness) : eagerness := if Nat.leb (rank a) (rank b) then b else a.

(** The integer methods of the language are stable `const fn`s; the ones of `Ord` and of ranges are not. *)
Definition is_const_method1 (k : meth1) : bool := match k with MMin | MMax => false | _ => true end.
(** /repo/clippy_utils/src/visitors.rs:327-414 [is_const_evaluatable]. *)
Fixpoint is_const_evaluatable (e : expr) : bool :=
  match e with
  | EVar _ _ => false
  | EUn _ a | ECast a _ | EM0 _ a => is_const_evaluatable a
  | EBin _ a b => is_const_evaluatable a && is_const_evaluatable b
  | EM1 k a b => is_const_method1 k && is_const_evaluatable a && is_const_evaluatable b
  | EM2 _ _ _ _ | EContains _ _ _ _ => false
  | EIf c a b => is_const_evaluatable c && is_const_evaluatable a && is_const_evaluatable b
  | _ => true
  end.

(** What [is_primitive] answers for the types of the language. *)
Definition is_primitive (t : option ty) : bool := match t with Some (TI _ | TB | TF) => true | _ => false end.

(** eager_or_lazy.rs:124-309 [visit_expr]: the visitor with its accumulator.  Methods of the language are inherent
    methods of integers (or of `Option`, `Ord` and ranges with more than one input), none of which is called `len`,
    `is_empty` or `as_*`: [fn_eagerness] (lines 51-101) answers [Lazy] for all of them. *)
Fixpoint visit_eager (h p : ptrw) (st : eagerness) (e : expr) : eagerness :=
  match st with
  | ForceNoChange => ForceNoChange
  | _ =>
      match e with
      | ELit _ _ | EBool _ | EFloat _ | EVar _ _ | EAssoc _ _ => st
      | EUn o a =>
          let st1 :=
            if (match o with UNeg => negb (known (ceval h p a)) | UNot => false end) then bitor st NoChange
            else match ty_of a with Some (TI _ | TB) => st | _ => Lazy end in
          visit_eager h p st1 a
      | EBin o a b =>
          let st1 :=
            if (match o with BI (OShl | OShr) => negb (known (ceval h p b)) | _ => false end) then bitor st NoChange
            else if (match o with
                     | BI (ODiv | ORem) =>
                         match ceval h p a, obind (ceval h p b) (fun c => int_value p c (ty_of b)) with
                         | _, None => true
                         | None, Some (FS z) => z =? -1
                         | _, _ => false
                         end
                     | _ => false end) then bitor st NoChange
            else if (match o with
                     | BI (OAdd | OSub | OMul) =>
                         negb (is_float_ty (ty_of e)) && (negb (known (ceval h p a)) || negb (known (ceval h p b)))
                     | _ => false end) then bitor st NoChange
            else if is_primitive (ty_of a) && is_primitive (ty_of b) then st
            else Lazy in
          visit_eager h p (visit_eager h p st1 a) b
      | ECast a _ => visit_eager h p st a
      | EM0 _ a =>
          if is_const_evaluatable e then bitor st NoChange else visit_eager h p (bitor st Lazy) a
      | EM1 _ a b =>
          if is_const_evaluatable e then bitor st NoChange else visit_eager h p (visit_eager h p (bitor st Lazy) a) b
      | EM2 _ a b c =>
          if is_const_evaluatable e then bitor st NoChange
          else visit_eager h p (visit_eager h p (visit_eager h p (bitor st Lazy) a) b) c
      | EIf c a b => visit_eager h p (visit_eager h p (visit_eager h p st c) a) b
      | EContains _ lo hi x =>
          if is_const_evaluatable e then bitor st NoChange
          else visit_eager h p (visit_eager h p (visit_eager h p (bitor st Lazy) lo) hi) x
      end
  end.
(** eager_or_lazy.rs:115-318 [expr_eagerness], 321-323 [switch_to_eager_eval], 326-328 [switch_to_lazy_eval]. *)
Definition expr_eagerness (h p : ptrw) (e : expr) : eagerness := visit_eager h p Eager e.
Definition switch_to_eager_eval (h p : ptrw) (e : expr) : bool :=
  match expr_eagerness h p e with Eager => true | _ => false end.
Definition switch_to_lazy_eval (h p : ptrw) (e : expr) : bool :=
  match expr_eagerness h p e with Lazy => true | _ => false end.
