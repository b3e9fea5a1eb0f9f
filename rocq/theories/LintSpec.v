(** Small specification vocabulary shared by the lint theorems. *)
From Verif Require Export RustExpr RustTyping.
Open Scope Z_scope.

(** [offered] may replace [e]: whenever [e] evaluates to a value, so does [offered], to the same value. *)
Definition preserves (m : mode) (p : ptrw) (rho : env) (e offered : expr) : Prop :=
  forall v, eval m p rho e = Ok v -> eval m p rho offered = Ok v.

(** Not of the form `a ^ b`. *)
Definition no_xor (e : expr) : Prop := match e with EBin (BI OXor) _ _ => False | _ => True end.

(** Neither shift amount of `(x << a) op (y >> b)` is an exclusive-or. *)
Definition amounts_no_xor (e : expr) : Prop :=
  match e with EBin _ (EBin _ _ a) (EBin _ _ b) => no_xor a /\ no_xor b | _ => True end.
(** The outermost operator is `+`. *)
Definition is_sum (e : expr) : bool := match e with EBin (BI OAdd) _ _ => true | _ => false end.

(** An environment that gives every variable the value [z] of type [t]. *)
Definition all_vars (t : ity) (z : Z) : env := fun _ => VI t z.
(** Two variables with their own values. *)
Definition two_vars (t : ity) (x : Z) (t' : ity) (y : Z) : env := fun n => match n with O => VI t x | _ => VI t' y end.

(** [unmasked e e' left]: the comparison [e'] is [e] with one operand of a binary operation on its
    left ([left = true]) or right side taken away. *)
Inductive unmasked : expr -> expr -> bool -> Prop :=
| um_ll c o x k r : unmasked (EBin (BC c) (EBin (BI o) x k) r) (EBin (BC c) x r) true
| um_lr c o x k r : unmasked (EBin (BC c) (EBin (BI o) k x) r) (EBin (BC c) x r) true
| um_rl c o x k l : unmasked (EBin (BC c) l (EBin (BI o) x k)) (EBin (BC c) l x) false
| um_rr c o x k l : unmasked (EBin (BC c) l (EBin (BI o) k x)) (EBin (BC c) l x) false.

(** Comparison asking whether the left ([left = true]) or right side exceeds the other, or the
    negation of that question. *)
Definition asks_exceeds (e : expr) (left : bool) : bool :=
  match e, left with
  | EBin (BC (CGt | CLe)) _ _, true => true
  | EBin (BC (CLt | CGe)) _ _, false => true
  | _, _ => false
  end.
(** `==` or `!=`. *)
Definition is_equality (e : expr) : bool :=
  match e with EBin (BC (CEq | CNe)) _ _ => true | _ => false end.
(** Both sides of the comparison [e] are non-negative integers. *)
Definition sides_nonneg (m : mode) (p : ptrw) (rho : env) (e : expr) : Prop :=
  match e with
  | EBin (BC _) l r => exists t x y, eval m p rho l = Ok (VI t x) /\ eval m p rho r = Ok (VI t y) /\ 0 <= x /\ 0 <= y
  | _ => False
  end.
(** Both sides have an unsigned type. *)
Definition sides_unsigned (e : expr) : bool :=
  match e with
  | EBin (BC _) l r => match ty_of l, ty_of r with
                       | Some (TI t), Some (TI t') => negb (ity_signed t) && negb (ity_signed t')
                       | _, _ => false end
  | _ => false
  end.

(** Every integer-to-integer cast that is a side of the comparison [e] preserves all values. *)
Definition cast_widens (p : ptrw) (e : expr) : Prop :=
  match e with
  | ECast a t => match ty_of a with Some (TI s) => imin p t <= imin p s /\ imax p s <= imax p t | _ => True end
  | _ => True
  end.
Definition sides_widen (p : ptrw) (e : expr) : Prop :=
  match e with EBin (BC _) l r => cast_widens p l /\ cast_widens p r | _ => True end.

(** The comparison [c] has [v] on one side. *)
Definition compares_var (c v : expr) : Prop := exists k o, c = EBin (BC k) v o \/ c = EBin (BC k) o v.
