(* Model of /repo/clippy_lints/src/set_contains_or_insert.rs.  What the set and the key are compared by (SpanlessEq) is that they are the
   same place and the same variable; that the set is a HashSet or a BTreeSet (104-109) is not modelled. *)
From Coq Require Import List Bool PeanoNat.
Import ListNotations.
From Verif Require Import SciSpec.

(* ControlFlow<Option<OpExpr>> *)
Inductive flow := Continue | Break (found : option nat).
Definition and_then (f g : flow) : flow := match f with Continue => g | Break o => Break o end.
(* 115-123 is_set_mutated: an expression of type &mut set, of the same set.  The receiver of an insert of another key is one as well. *)
Definition is_set_mutated (r r' : place) : bool := place_eqb r r'.
(* 125-145 find_insert_calls: the first insert or change, in the order of the source *)
Fixpoint visit (r : place) (k : ident) (t : tm) : flow :=
  match t with
  | TInsert n r' k' =>
      if place_eqb r r' && Nat.eqb k k' then Break (Some n) else if is_set_mutated r r' then Break None else Continue
  | TChange _ r' => if is_set_mutated r r' then Break None else Continue
  | TOwner _ _ | TAssign _ _ | TOther _ => Continue
  | TSeq a b => and_then (visit r k a) (visit r k b)
  | TIf a b c => and_then (visit r k a) (and_then (visit r k b) (visit r k c))
  | TLoop a | TClosure a => visit r k a
  end.
(* 54-72, 80-113 check_expr, try_parse_op_call: the insert that is reported, of if r.contains(k) { t } or if !r.contains(k) { t } *)
Definition reported (r : place) (k : ident) (t : tm) : option nat := match visit r k t with Break o => o | Continue => None end.
