(** What compound constants stand for, and how Rust compares such values. *)
From Coq Require Import SpecFloat.
From Verif Require Export StructConst.
Open Scope Z_scope.

Inductive rval := RInt (z : Z) | RBool (b : bool) | RChar (c : Z) | RFloat (f : spec_float) | RStr (s : list Z) | RSeq (l : list rval) | RTup (l : list rval) | RRef (v : rval).

(** Lexicographic order, the shorter first. *)
Definition lex {A} (cmp : A -> A -> option comparison) : list A -> list A -> option comparison :=
  fix go l r :=
    match l, r with
    | [], [] => Some Eq | [], _ => Some Lt | _, [] => Some Gt
    | x :: l, y :: r => match cmp x y with Some Eq => go l r | o => o end
    end.
Fixpoint rust_cmp (a b : rval) : option comparison :=
  match a, b with
  | RInt x, RInt y | RChar x, RChar y => Some (x ?= y)
  | RBool x, RBool y => Some (Z.b2z x ?= Z.b2z y)
  | RFloat x, RFloat y => SFcompare x y
  | RStr x, RStr y => lex (fun x y => Some (x ?= y)) x y
  | RSeq l, RSeq r | RTup l, RTup r => lex rust_cmp l r
  | RRef x, RRef y => rust_cmp x y
  | _, _ => None
  end.

Definition omap {A B} (f : A -> option B) : list A -> option (list B) :=
  fix go l := match l with [] => Some [] | x :: l => match f x, go l with Some y, Some r => Some (y :: r) | _, _ => None end end.
Definition omap2 {A B C} (f : A -> B -> option C) : list A -> list B -> option (list C) :=
  fix go l r := match l, r with
                | [], [] => Some []
                | x :: l, y :: r => match f x y, go l r with Some z, Some m => Some (z :: m) | _, _ => None end
                | _, _ => None
                end.
(** The value of type [t] a constant stands for. *)
Fixpoint denote (p : ptrw) (c : sconst) (t : sty) : option rval :=
  match c, t with
  | SInt u, TyInt t => if to_bits p t (of_bits p t u) =? u then Some (RInt (of_bits p t u)) else None
  | SBool b, TyBool => Some (RBool b)
  | SChar c, TyChar => Some (RChar c)
  | SF64 f, TyF64 => Some (RFloat f)
  | SStr s, TyStr => Some (RStr s)
  | SVec l, (TyArray e | TySlice e) => option_map RSeq (omap (fun c => denote p c e) l)
  | SRepeat c n, TyArray e => option_map (fun v => RSeq (repeat v n)) (denote p c e)
  | STuple l, TyTuple ts => option_map RTup (omap2 (denote p) l ts)
  | SRef c, TyRef t => option_map RRef (denote p c t)
  | _, _ => None
  end.

Definition all {A} (P : A -> Prop) : list A -> Prop := fix go l := match l with [] => True | x :: l => P x /\ go l end.
(** No empty repetition `[x; 0]`. *)
Fixpoint no_empty_repeat (c : sconst) : Prop :=
  match c with
  | SVec l | STuple l => all no_empty_repeat l
  | SRepeat c n => (0 < n)%nat /\ no_empty_repeat c
  | SRef c => no_empty_repeat c
  | _ => True
  end.
Definition all2 {A B} (P : A -> B -> Prop) : list A -> list B -> Prop :=
  fix go l r := match l, r with x :: l, y :: r => P x y /\ go l r | _, _ => True end.
(** Both written the same way: list with list, repetition with repetition. *)
Fixpoint alike (a b : sconst) : Prop :=
  match a, b with
  | SVec l, SVec r | STuple l, STuple r => all2 alike l r
  | SRepeat c _, SRepeat d _ => alike c d
  | SRef c, SRef d => alike c d
  | SVec _, SRepeat _ _ | SRepeat _ _, SVec _ => False
  | _, _ => True
  end.
(** No NaN, and nothing that is never equal. *)
Fixpoint self_equal (c : sconst) : Prop :=
  match c with
  | SF64 f => f <> S754_nan
  | SVec l | STuple l => all self_equal l
  | SRepeat c _ | SRef c => self_equal c
  | SOther _ => False
  | _ => True
  end.
