(** Model of compound constants in /repo/clippy_utils/src/consts.rs: equality, hashing, ordering, extreme values. *)
From Coq Require Import SpecFloat.
From Verif Require Export ConstModel.
Open Scope Z_scope.

(** consts.rs:33-68 [Constant]; f64 stands for all float widths, [SOther] for [Adt], [RawPtr] and [Err] (and f16, f128, which are compared by
    no arm), numbered.  Strings are their bytes. *)
Inductive sconst :=
| SStr (s : list Z) | SBinary (s : list Z) | SChar (c : Z) | SInt (u : Z) | SF64 (f : spec_float) | SBool (b : bool)
| SVec (l : list sconst) | SRepeat (c : sconst) (n : nat) | STuple (l : list sconst) | SRef (c : sconst) | SOther (n : Z).
(** The types [partial_cmp] looks at; [TyStr] is `&str`. *)
Inductive sty := TyInt (t : ity) | TyBool | TyChar | TyF64 | TyStr | TyArray (e : sty) | TySlice (e : sty) | TyTuple (l : list sty) | TyRef (t : sty) | TyOther.

Definition list_eqb {A} (eqb : A -> A -> bool) : list A -> list A -> bool :=
  fix go l r := match l, r with [], [] => true | x :: l, y :: r => eqb x y && go l r | _, _ => false end.
(** [to_bits] of floats that are not NaN are equal exactly when the floats are the same. *)
Definition is_nan (f : spec_float) : bool := match f with S754_nan => true | _ => false end.
Definition same_bits (f g : spec_float) : bool :=
  match f, g with
  | S754_zero a, S754_zero b | S754_infinity a, S754_infinity b => Bool.eqb a b
  | S754_nan, S754_nan => true
  | S754_finite a m e, S754_finite b n d => Bool.eqb a b && Pos.eqb m n && Z.eqb e d
  | _, _ => false
  end.
(** consts.rs:127-150 [PartialEq]. *)
Fixpoint ceq (a b : sconst) : bool :=
  match a, b with
  | SStr l, SStr r | SBinary l, SBinary r => list_eqb Z.eqb l r
  | SChar l, SChar r | SInt l, SInt r => l =? r
  | SF64 l, SF64 r => same_bits l r && negb (is_nan l)
  | SBool l, SBool r => Bool.eqb l r
  | SVec l, SVec r | STuple l, STuple r => list_eqb ceq l r
  | SRepeat l n, SRepeat r m => Nat.eqb n m && ceq l r
  | SRef l, SRef r => ceq l r
  | _, _ => false
  end.

(** consts.rs:152-206 [Hash]: the words given to the hasher; [fbits] is [to_bits]. *)
Fixpoint hash (fbits : spec_float -> Z) (c : sconst) : list Z :=
  match c with
  | SOther n => [0; n]
  | SStr s => 1 :: s ++ [255]
  | SBinary s => 2 :: Z.of_nat (length s) :: s
  | SChar c => [3; c]
  | SInt i => [4; i]
  | SF64 f => [7; fbits f]
  | SBool b => [9; Z.b2z b]
  | SVec l => 10 :: Z.of_nat (length l) :: flat_map (hash fbits) l
  | SRepeat c n => 11 :: hash fbits c ++ [Z.of_nat n]
  | STuple l => 12 :: Z.of_nat (length l) :: flat_map (hash fbits) l
  | SRef c => 14 :: hash fbits c
  end.

(** [Ord] of byte strings. *)
Fixpoint bytes_cmp (l r : list Z) : comparison :=
  match l, r with
  | [], [] => Eq | [], _ => Lt | _, [] => Gt
  | x :: l, y :: r => match x ?= y with Eq => bytes_cmp l r | o => o end
  end.
(** Iterators: the first comparison that is not "equal", else [last]. *)
Definition find_diff {A} (cmp : A -> A -> option (option comparison)) (last : option (option comparison)) :
  list A -> list A -> option (option comparison) :=
  fix go l r :=
    match l, r with
    | x :: l, y :: r => match cmp x y with Some (Some Eq) => go l r | o => o end
    | _, _ => last
    end.
Definition find_diff3 {A B} (cmp : A -> A -> B -> option (option comparison)) (last : option (option comparison)) :
  list A -> list A -> list B -> option (option comparison) :=
  fix go l r ts :=
    match l, r, ts with
    | x :: l, y :: r, t :: ts => match cmp x y t with Some (Some Eq) => go l r ts | o => o end
    | _, _, _ => last
    end.
(** consts.rs:209-264 [partial_cmp]; [None] is the [bug!], [Some None] no answer. *)
Fixpoint pcmp (p : ptrw) (a b : sconst) (t : sty) : option (option comparison) :=
  match a, b with
  | SStr l, SStr r => Some (Some (bytes_cmp l r))
  | SChar l, SChar r => Some (Some (l ?= r))
  | SInt l, SInt r =>
      match t with
      | TyInt t => Some (Some (if ity_signed t then (sext p t l ?= sext p t r) else (l ?= r)))
      | _ => None
      end
  | SF64 l, SF64 r => Some (SFcompare l r)
  | SBool l, SBool r => Some (Some (Z.b2z l ?= Z.b2z r))
  | STuple l, STuple r =>
      if Nat.eqb (length l) (length r) then
        match t with
        | TyTuple ts => if Nat.eqb (length ts) (length l) then find_diff3 (pcmp p) (Some (Some (Nat.compare (length l) (length r)))) l r ts else Some None
        | _ => Some None
        end
      else Some None
  | SVec l, SVec r =>
      match t with
      | TyArray e | TySlice e => find_diff (fun x y => pcmp p x y e) (Some (Some (Nat.compare (length l) (length r)))) l r
      | _ => Some None
      end
  | SRepeat x n, SRepeat y m =>
      match t with
      | TyArray e => match pcmp p x y e with Some (Some Eq) => Some (Some (Nat.compare n m)) | o => o end
      | _ => Some None
      end
  | SRef x, SRef y => match t with TyRef t => pcmp p x y t | _ => Some None end
  | _, _ => Some None
  end.

(** consts.rs:280-285 [peel_refs]. *)
Fixpoint peel_refs (c : sconst) : sconst := match c with SRef c => peel_refs c | c => c end.

(** consts.rs:297-340 [new_numeric_min], [new_numeric_max], 341-396 [is_numeric_min], [is_numeric_max], on integers ([normalize] gives the
    type of the target's pointer width) and characters. *)
Definition numeric_min (p : ptrw) (t : sty) : option sconst :=
  match t with TyInt t => Some (SInt (if ity_signed t then u128w (imin p t) else 0)) | TyChar => Some (SChar 0) | TyF64 => Some (SF64 (S754_infinity true)) | _ => None end.
Definition numeric_max (p : ptrw) (t : sty) : option sconst :=
  match t with TyInt t => Some (SInt (u128w (imax p t))) | TyChar => Some (SChar 1114111) | TyF64 => Some (SF64 (S754_infinity false)) | _ => None end.
Definition is_numeric_min (p : ptrw) (c : sconst) (t : sty) : bool :=
  match c, t with
  | SInt x, TyInt t => if ity_signed t then i128w x =? imin p t else x =? 0
  | SChar c, TyChar => c =? 0
  | SF64 f, TyF64 => same_bits f (S754_infinity true)
  | _, _ => false
  end.
Definition is_numeric_max (p : ptrw) (c : sconst) (t : sty) : bool :=
  match c, t with
  | SInt x, TyInt t => if ity_signed t then i128w x =? imax p t else x =? imax p t
  | SChar c, TyChar => c =? 1114111
  | SF64 f, TyF64 => same_bits f (S754_infinity false)
  | _, _ => false
  end.
