(** A small statement language over [RustExpr]: assignments to local variables, compound
    assignments, `if`, sequencing.  Specification (the reference semantics of the lints that
    rewrite statements). *)
From Coq Require Import SpecFloat.
From Verif Require Export RustExpr.
Open Scope Z_scope.

Inductive stmt :=
| SSkip
| SAssign (t : ty) (x : nat) (e : expr)              (* x = e; *)
| SAssignOp (o : iop) (t : ty) (x : nat) (e : expr)  (* x op= e; *)
| SIf (c : expr) (a b : stmt)
| SSeq (a b : stmt).

Definition upd (rho : env) (x : nat) (v : val) : env := fun y => if Nat.eqb y x then v else rho y.

Fixpoint exec (m : mode) (p : ptrw) (rho : env) (s : stmt) : res env :=
  match s with
  | SSkip => Ok rho
  | SAssign t x e => do v <- eval m p rho e; if ty_eqb (val_ty v) t then Ok (upd rho x v) else Stuck
  | SAssignOp o t x e =>
      do v <- eval m p rho (EBin (BI o) (EVar t x) e); if ty_eqb (val_ty v) t then Ok (upd rho x v) else Stuck
  | SIf c a b =>
      do vc <- eval m p rho c;
      match vc with VB true => exec m p rho a | VB false => exec m p rho b | _ => Stuck end
  | SSeq a b => do rho' <- exec m p rho a; exec m p rho' b
  end.

(** Equal values, or floats that compare equal (the two zeros). *)
Definition num_eq (v w : val) : Prop :=
  v = w \/ match v, w with VF f, VF g => SFcompare f g = Some Eq | _, _ => False end.

(** [offered] may replace [s]: if [s] runs to the end so does [offered], and every variable
    ends up with the same value. *)
Definition spreserves (m : mode) (p : ptrw) (rho : env) (s offered : stmt) : Prop :=
  forall r, exec m p rho s = Ok r -> exists r', exec m p rho offered = Ok r' /\ forall x, r x = r' x.

(** The same up to the sign of zero. *)
Definition spreserves_num (m : mode) (p : ptrw) (rho : env) (s offered : stmt) : Prop :=
  forall r, exec m p rho s = Ok r -> exists r', exec m p rho offered = Ok r' /\ forall x, num_eq (r x) (r' x).
Definition preserves_num (m : mode) (p : ptrw) (rho : env) (e offered : expr) : Prop :=
  forall v, eval m p rho e = Ok v -> exists v', eval m p rho offered = Ok v' /\ num_eq v v'.

(** Typing: assigned values have the variable's type, conditions are boolean. *)
Fixpoint styck (tyck : expr -> option ty) (s : stmt) : bool :=
  match s with
  | SSkip => true
  | SAssign t _ e => match tyck e with Some t' => ty_eqb t t' | None => false end
  | SAssignOp o t x e => match tyck (EBin (BI o) (EVar t x) e) with Some t' => ty_eqb t t' | None => false end
  | SIf c a b => match tyck c with Some TB => styck tyck a && styck tyck b | _ => false end
  | SSeq a b => styck tyck a && styck tyck b
  end.
