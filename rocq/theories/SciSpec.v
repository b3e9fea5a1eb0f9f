(* Sets that are asked whether they contain a key before it is inserted (/repo/clippy_lints/src/set_contains_or_insert.rs).  Does not depend on SciModel.v. *)
From Coq Require Import List Bool PeanoNat.
Import ListNotations.

Notation ident := nat (only parsing).
(* A place: a variable and fields of it *)
Definition place := list ident.
Inductive tm :=
| TInsert (n : nat) (r : place) (k : ident)       (* r.insert(k), at a place n in the source *)
| TChange (m : nat) (r : place)                   (* any use of &mut r, where r is a set *)
| TOwner (m : nat) (r : place)                    (* any use of &mut r, where r is a struct *)
| TAssign (k : ident) (v : nat)                   (* k = v *)
| TOther (m : nat)                                (* anything that does not change sets or keys *)
| TSeq (a b : tm)
| TIf (a b c : tm)
| TLoop (a : tm)                                  (* a loop that stops at any time *)
| TClosure (a : tm).                              (* a closure, which is called any number of times *)
Record store := { sets : place -> nat -> bool; keys : ident -> nat }.
Definition place_eqb (a b : place) : bool := if list_eq_dec Nat.eq_dec a b then true else false.
Fixpoint prefix (a b : place) : bool := match a, b with [], _ => true | x :: a, y :: b => Nat.eqb x y && prefix a b | _, [] => false end.
Definition inserted (s : store) (r : place) (v : nat) : store :=
  {| sets := fun r' w => if place_eqb r r' then Nat.eqb v w || sets s r' w else sets s r' w; keys := keys s |}.
Definition assigned (s : store) (k : ident) (v : nat) : store :=
  {| sets := sets s; keys := fun k' => if Nat.eqb k k' then v else keys s k' |}.
Section Run.
Variable change : nat -> (nat -> bool) -> nat -> bool.
(* What runs, and what each insert found: the place in the source, and whether the key was new *)
Inductive run : tm -> store -> list (nat * bool) -> store -> Prop :=
| RInsert n r k s : run (TInsert n r k) s [(n, negb (sets s r (keys s k)))] (inserted s r (keys s k))
| RChange m r s : run (TChange m r) s [] {| sets := fun r' => if place_eqb r r' then change m (sets s r') else sets s r'; keys := keys s |}
| ROwner m r s : run (TOwner m r) s [] {| sets := fun r' => if prefix r r' then change m (sets s r') else sets s r'; keys := keys s |}
| RAssign k v s : run (TAssign k v) s [] (assigned s k v)
| ROther m s : run (TOther m) s [] s
| RSeq a b s t u l l' : run a s l t -> run b t l' u -> run (TSeq a b) s (l ++ l') u
| RThen a b c s t u l l' : run a s l t -> run b t l' u -> run (TIf a b c) s (l ++ l') u
| RElse a b c s t u l l' : run a s l t -> run c t l' u -> run (TIf a b c) s (l ++ l') u
| RLoop0 a s : run (TLoop a) s [] s
| RLoop a s t u l l' : run a s l t -> run (TLoop a) t l' u -> run (TLoop a) s (l ++ l') u
| RClosure0 a s : run (TClosure a) s [] s
| RClosure a s t u l l' : run a s l t -> run (TClosure a) t l' u -> run (TClosure a) s (l ++ l') u.
End Run.
(* How often a place in the source is there: no more than once *)
Fixpoint times (n : nat) (t : tm) : nat :=
  match t with
  | TInsert n' _ _ => if Nat.eqb n n' then 1 else 0
  | TSeq a b => times n a + times n b
  | TIf a b c => times n a + times n b + times n c
  | TLoop a | TClosure a => times n a
  | _ => 0
  end.
(* What is at a place in the source is not run again; the key is not assigned; no struct that holds the set is borrowed *)
Fixpoint once (n : nat) (t : tm) : bool :=
  match t with
  | TLoop a | TClosure a => Nat.eqb (times n a) 0
  | TSeq a b => once n a && once n b
  | TIf a b c => once n a && once n b && once n c
  | _ => true
  end.
Fixpoint no_assign (k : ident) (t : tm) : bool :=
  match t with
  | TAssign k' _ => negb (Nat.eqb k k')
  | TLoop a | TClosure a => no_assign k a
  | TSeq a b => no_assign k a && no_assign k b
  | TIf a b c => no_assign k a && no_assign k b && no_assign k c
  | _ => true
  end.
Fixpoint no_owner (r : place) (t : tm) : bool :=
  match t with
  | TOwner _ r' => negb (prefix r' r)
  | TLoop a | TClosure a => no_owner r a
  | TSeq a b => no_owner r a && no_owner r b
  | TIf a b c => no_owner r a && no_owner r b && no_owner r c
  | _ => true
  end.
