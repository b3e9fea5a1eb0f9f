(* Model of /repo/clippy_lints/src/infinite_iter.rs.  rev and unzip, and comparisons of iterators (255-257), which are never reported as
   infinite but as possibly so, are not modelled. *)
From Coq Require Import List Bool PeanoNat.
Import ListNotations.
From Verif Require Import IitSpec.

(* 68-73 Finiteness *)
Inductive finiteness := Infinite | MaybeInfinite | Finite.
(* 78-85 and *)
Definition fand (a b : finiteness) : finiteness :=
  match a, b with Finite, _ | _, Finite => Finite | MaybeInfinite, _ | _, MaybeInfinite => MaybeInfinite | _, _ => Infinite end.
(* 87-94 or *)
Definition for_ (a b : finiteness) : finiteness :=
  match a, b with Infinite, _ | _, Infinite => Infinite | MaybeInfinite, _ | _, MaybeInfinite => MaybeInfinite | _, _ => Finite end.
(* 97-101 From<bool> *)
Definition from_bool (b : bool) : finiteness := if b then Infinite else Finite.
(* 105-115 Heuristic *)
Inductive heuristic := Always | First | Any | All.
Definition method_eqb (a b : method) : bool :=
  match a, b with
  | Zip, Zip | Chain, Chain | Cycle, Cycle | Map, Map | By_ref, By_ref | Cloned, Cloned | Inspect, Inspect | Enumerate, Enumerate | Peekable, Peekable | Fuse, Fuse
  | Skip, Skip | Skip_while, Skip_while | Filter, Filter | Filter_map, Filter_map | Flat_map, Flat_map | Take_while, Take_while | Scan, Scan | Take, Take => true
  | _, _ => false
  end.
(* 124-144 HEURISTICS *)
Definition heuristics : list (method * nat * heuristic * finiteness) :=
  [ (Zip, 1, All, Infinite); (Chain, 1, Any, Infinite); (Cycle, 0, Always, Infinite); (Map, 1, First, Infinite); (By_ref, 0, First, Infinite);
    (Cloned, 0, First, Infinite); (Inspect, 0, First, Infinite); (Enumerate, 0, First, Infinite); (Peekable, 1, First, Infinite);
    (Fuse, 0, First, Infinite); (Skip, 1, First, Infinite); (Skip_while, 0, First, Infinite); (Filter, 1, First, Infinite);
    (Filter_map, 1, First, Infinite); (Flat_map, 1, First, Infinite); (Take_while, 1, First, MaybeInfinite); (Scan, 2, First, MaybeInfinite) ].
(* 149-158: the entry for a method with so many arguments *)
Fixpoint lookup (m : method) (n : nat) (l : list (method * nat * heuristic * finiteness)) : option (heuristic * finiteness) :=
  match l with
  | [] => None
  | (m', n', h, cap) :: l => if method_eqb m m' && Nat.eqb n n' then Some (h, cap) else lookup m n l
  end.
(* 146-184 is_infinite; 160-166, closures of flat_map, is not reached, since the table has flat_map *)
Fixpoint is_infinite (e : expr) : finiteness :=
  match e with
  | EMethod m r arg _ =>
      match lookup m (arity m) heuristics with
      | Some (h, cap) =>
          fand (match h with
                | Always => Infinite
                | First => is_infinite r
                | Any => for_ (is_infinite r) (match arg with Some a => is_infinite a | None => Finite end)
                | All => fand (is_infinite r) (match arg with Some a => is_infinite a | None => Finite end)
                end) cap
      | None => Finite
      end
  | EBlock (Some e) => is_infinite e
  | EBlock None => Finite
  | ERef e => is_infinite e
  | ERepeat _ => from_bool true
  | ERange _ last => from_bool (match last with None => true | Some _ => false end)
  | EOther _ => Finite
  end.
(* 214-262 complete_infinite_iter, with 186-212 COMPLETING_METHODS and POSSIBLY_COMPLETING_METHODS *)
Definition complete_infinite_iter (c : consumer) (e : expr) : finiteness :=
  match c with
  | CAll | CSum _ => is_infinite e
  | CFind _ => fand MaybeInfinite (is_infinite e)
  | CLast double_ended => if double_ended then Finite else is_infinite e
  | CCollect into _ => if into then is_infinite e else Finite
  end.
