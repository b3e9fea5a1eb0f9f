(* Model of /repo/clippy_lints/src/slow_vector_initialization.rs, for two statements that follow each other: only the statement after the
   one with the allocation is looked at (316-330).  Blocks within the first statement are not modelled. *)
From Coq Require Import List Bool PeanoNat.
Import ListNotations.
From Verif Require Import SviSpec.

Definition size_eq_dec : forall a b : size, {a = b} + {a <> b}.
Proof. decide equality; apply Nat.eq_dec. Defined.
(* SpanlessEq, which allows side effects here *)
Definition eq_expr (a b : size) : bool := if size_eq_dec a b then true else false.
Inductive initialized := Initialized (z : size) | Uninitialized.
(* 142-161 as_vec_initializer *)
Definition as_vec_initializer (a : alloc) : option initialized :=
  match a with ACap z => Some (Initialized z) | ANew => Some Uninitialized | AZeros _ => None end.
Definition is_capacity (z : size) : bool := match z with ZCap _ => true | _ => false end.
(* 268-279, 289-296: the size that is suggested, where the sizes match *)
Definition matching (i : initialized) (len : size) : option size :=
  match i with Initialized z => if eq_expr len z || is_capacity len then Some z else None | Uninitialized => Some len end.
(* 247-312 search_slow_extend_filling, search_slow_resize_filling *)
Definition search_slow (v : ident) (i : initialized) (t : stm) : option size :=
  match t with
  | SExtend w e len => if Nat.eqb w v && Nat.eqb e 0 then matching i len else None
  | SResize w len fill => if Nat.eqb w v && Nat.eqb fill 0 then matching i len else None
  | _ => None
  end.
(* 101-133 check_expr, check_stmt and 315-352 the visitor: an allocation anywhere in the first statement is found.  The suggestion (197-227)
   has vec![0; len] for the allocation, and is without the second statement. *)
Fixpoint suggested (a b : stm) : option stm :=
  match a with
  | SInit v al =>
      match as_vec_initializer al with
      | Some i => match search_slow v i b with Some z => Some (SInit v (AZeros z)) | None => None end
      | None => None
      end
  | SMatch x c d =>
      match suggested c b with
      | Some c' => Some (SMatch x c' d)
      | None => match suggested d b with Some d' => Some (SMatch x c d') | None => None end
      end
  | _ => None
  end.
