(** Specification vocabulary for operations that panic. *)
From Verif Require Export RustExpr RustTyping ConstModel.
Open Scope Z_scope.

(** Immediate operands. *)
Definition operands (e : expr) : list expr :=
  match e with EUn _ a => [a] | EBin _ a b => [a; b] | EM1 _ a b => [a; b] | _ => [] end.
(** The operation itself panics: its operands have values, and it has none. *)
Definition fails_here (p : ptrw) (rho : env) (e : expr) : Prop :=
  eval Checked p rho e = Panic /\ Forall (fun a => exists v, eval Checked p rho a = Ok v) (operands e).

(** The integer literal behind some number of unary operators. *)
Fixpoint literal_behind (e : expr) : option Z :=
  match e with ELit _ n => Some n | EUn _ a => literal_behind a | _ => None end.
(** The operators in front of the literal change its value: `-1`, `!0`. *)
Definition misread (p : ptrw) (rho : env) (e : expr) : Prop :=
  exists n t z, literal_behind e = Some n /\ eval Checked p rho e = Ok (VI t z) /\ z <> n.
(** A constant, or a literal behind operators. *)
Definition fixed (p : ptrw) (e : expr) : Prop := literal_behind e <> None \/ ceval p p e <> None.

(** The operations arithmetic_side_effects does not judge by their value: shifts; divisions by -1, or by a zero written
    with operators on a literal; `0 - x`; sums, differences and products with a literal whose operators change it; operations on two
    constants that cannot be folded; the negation of a constant; a method call on a constant. *)
Definition blind_spot (p : ptrw) (rho : env) (e : expr) : Prop :=
  match e with
  | EBin (BI (OShl | OShr)) _ _ => True
  | EBin (BI o) l r =>
      (fixed p l /\ fixed p r /\ ceval p p e = None) \/
      match o with
      | ODiv | ORem => (exists t, eval Checked p rho r = Ok (VI t (-1))) \/ (misread p rho r /\ exists t, eval Checked p rho r = Ok (VI t 0))
      | OSub => (exists t, eval Checked p rho l = Ok (VI t 0)) \/ misread p rho l \/ misread p rho r
      | _ => misread p rho l \/ misread p rho r
      end
  | EUn _ a => fixed p a /\ exists t, eval Checked p rho a = Ok (VI t (imin p t))
  | EM1 _ recv arg => fixed p recv \/ misread p rho arg
  | _ => False
  end.

(** The operations the analysis is about: integer and float operators, negation, and `wrapping_rem_euclid`. *)
Definition judged (e : expr) : bool :=
  match e with EBin (BI _) _ _ | EUn _ _ | EM1 MWrapRemEuclid _ _ => true | _ => false end.

(** A variable or a literal. *)
Definition simple (e : expr) : bool := match e with EVar _ _ | ELit _ _ => true | _ => false end.

(** [v] is the only value [a] can have. *)
Definition constant_value (p : ptrw) (a : expr) (v : val) : Prop :=
  (exists rho, eval Checked p rho a = Ok v) /\ (forall rho v', eval Checked p rho a = Ok v' -> v' = v).
(** What the deny-by-default lints `arithmetic_overflow` and `unconditional_panic` of the compiler reject: an operation on
    constants that panics, a shift by a constant that is too large, a division by a constant zero. *)
Definition rejected (p : ptrw) (e : expr) : Prop :=
  match e with
  | EUn UNeg a => exists t, constant_value p a (VI t (imin p t))
  | EBin (BI o) a b =>
      (exists t x y, constant_value p a (VI t x) /\ constant_value p b (VI t y) /\ int_op Checked p t o x y = Panic) \/
      (exists t t' y, ty_of a = Some (TI t) /\ constant_value p b (VI t' y) /\
         match o with OShl | OShr => ~ (0 <= y < bits p t) | ODiv | ORem => y = 0 | _ => False end)
  | _ => False
  end.
(** No part of the expression is rejected. *)
Fixpoint accepted (p : ptrw) (e : expr) : Prop :=
  ~ rejected p e /\
  match e with
  | EUn _ a | ECast a _ | EM0 _ a => accepted p a
  | EBin _ a b | EM1 _ a b => accepted p a /\ accepted p b
  | EM2 _ a b c | EIf a b c | EContains _ a b c => accepted p a /\ accepted p b /\ accepted p c
  | _ => True
  end.

(** The environment gives every variable of the expression a value of its type. *)
Fixpoint gives (p : ptrw) (rho : env) (e : expr) : Prop :=
  match e with
  | EVar t x => val_ty (rho x) = t /\ val_wf p (rho x) = true
  | EUn _ a | ECast a _ | EM0 _ a => gives p rho a
  | EBin _ a b | EM1 _ a b => gives p rho a /\ gives p rho b
  | EM2 _ a b c | EIf a b c | EContains _ a b c => gives p rho a /\ gives p rho b /\ gives p rho c
  | _ => True
  end.

(** `recv.unwrap_or_else(|| d)`: the default is evaluated only for `None`. *)
Definition unwrap_or_else (m : mode) (p : ptrw) (rho : env) (recv d : expr) : res val :=
  do v <- eval m p rho recv;
  match v with
  | VO t (Some z) => Ok (VI t z)
  | VO t None => do w <- eval m p rho d; match w with VI t' z => if ity_eqb t t' then Ok (VI t z) else Stuck | _ => Stuck end
  | _ => Stuck
  end.
(** `c.then(|| d)` and `c.then_some(d)`, with `None` written [Ok None]. *)
Definition then_lazily (m : mode) (p : ptrw) (rho : env) (c d : expr) : res (option val) :=
  do v <- eval m p rho c;
  match v with VB true => do w <- eval m p rho d; Ok (Some w) | VB false => Ok None | _ => Stuck end.
Definition then_some (m : mode) (p : ptrw) (rho : env) (c d : expr) : res (option val) :=
  do v <- eval m p rho c; do w <- eval m p rho d;
  match v with VB true => Ok (Some w) | VB false => Ok None | _ => Stuck end.

(** Two operands that share no variable. *)
Definition apart (a b : expr) : Prop := match a, b with EVar _ x, EVar _ y => x <> y | _, _ => True end.
(** `MAX - x` for an unsigned type. *)
Definition from_the_top (p : ptrw) (e : expr) : Prop :=
  match e with EBin (BI OSub) (ELit t n) _ => ity_signed t = false /\ n = imax p t | _ => False end.
(** An operator whose operands are variables or literals. *)
Definition simple_operation (e : expr) : Prop :=
  match e with
  | EBin (BI _) a b => simple a = true /\ simple b = true /\ apart a b
  | EUn UNeg (EVar _ _) => True
  | _ => False
  end.
