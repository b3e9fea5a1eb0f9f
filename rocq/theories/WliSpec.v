(* Loops that call next of an iterator, and for loops (/repo/clippy_lints/src/loops/while_let_on_iterator.rs).  Does not depend on WliModel.v. *)
From Coq Require Import List Bool PeanoNat.
Import ListNotations.

Notation name := nat (only parsing).
Notation field := nat (only parsing).
(* Expressions that name a place *)
Inductive pexpr :=
| PVar (x : name)
| PField (p : pexpr) (f : field)
| PIndex (p : pexpr) (i : name)            (* p[i], where i is a variable *)
| PDeref (overloaded : bool) (p : pexpr)   (* *p, explicit or implied *)
| PRef (p : pexpr).                        (* &mut p *)
Inductive stmt :=
| SSkip
| SSeq (a b : stmt)
| SUse (f : nat) (p : pexpr)               (* f(p), which may change what is at the place *)
| SCall (f : nat)
| SSet (i : name) (f : nat)                (* i = f() for a number i *)
| SIf (c : nat) (a b : stmt)
| SLoop (b : stmt)
| SBreak
| SReturn
| SLet (x : name) (f : nat) (rest : stmt)  (* let mut x = f(); rest *)
| SOnce (b : stmt)                         (* a closure that is called at most once, where it is written, and does not return early *)
| SWhile (id : nat) (y : name) (p : pexpr) (b : stmt)             (* while let Some(y) = p.next() { b } *)
| SFor (by_ref : bool) (y : name) (p : pexpr) (b : stmt).         (* for y in p { b }, for y in p.by_ref() { b } *)

(* A place: a variable, and fields and indices from there *)
Inductive step := Fld (f : field) | Idx (n : nat).
Definition place : Type := name * list step.
Fixpoint resolve (ints : name -> nat) (p : pexpr) : place :=
  match p with
  | PVar x => (x, [])
  | PField p f => (fst (resolve ints p), snd (resolve ints p) ++ [Fld f])
  | PIndex p i => (fst (resolve ints p), snd (resolve ints p) ++ [Idx (ints i)])
  | PDeref _ p | PRef p => resolve ints p
  end.
Definition prefix (a b : list step) : Prop := exists r, b = a ++ r.
(* One place is within the other *)
Definition related (p q : place) : Prop := fst p = fst q /\ (prefix (snd p) (snd q) \/ prefix (snd q) (snd p)).
Lemma step_dec (a b : step) : {a = b} + {a <> b}.
Proof. decide equality; apply Nat.eq_dec. Defined.
Fixpoint prefixb (a b : list step) : bool :=
  match a, b with [], _ => true | _, [] => false | x :: a, y :: b => if step_dec x y then prefixb a b else false end.
Definition relatedb (p q : place) : bool := Nat.eqb (fst p) (fst q) && (prefixb (snd p) (snd q) || prefixb (snd q) (snd p)).
Definition place_eqb (p q : place) : bool := Nat.eqb (fst p) (fst q) && (if list_eq_dec step_dec (snd p) (snd q) then true else false).
Fixpoint below (a b : list step) : option (list step) :=
  match a, b with [], _ => Some b | _, [] => None | x :: a, y :: b => if step_dec x y then below a b else None end.

(* The iterator at each place (the items to come), what numbers are, the places that were moved from or are borrowed, and the calls *)
Inductive event := Called (f : nat) | Used (f : nat) (p : place).
Record state := { store : place -> list nat; ints : name -> nat; gone : list place; trace : list event }.
Inductive outcome := Out | Stuck | Norm (st : state) | Brk (st : state) | Ret (st : state).
(* Stuck: the compiler rejects the program *)

Section Run.
Variable act : nat -> list event -> (list step -> list nat) -> list step -> list nat.   (* what a call does to what is at a place *)
Variable result : nat -> list event -> (list step -> list nat) -> nat.                  (* a number that it leaves in variable f *)
Variable num : nat -> list event -> nat.
Variable bool_of : nat -> list event -> bool.
Variable fresh : nat -> list event -> list step -> list nat.
Definition put (p : place) (l : list nat) (st : state) : state :=
  {| store := fun q => if place_eqb p q then l else store st q; ints := ints st; gone := gone st; trace := trace st |}.
Definition set_int (i : name) (n : nat) (st : state) : state :=
  {| store := store st; ints := fun j => if Nat.eqb j i then n else ints st j; gone := gone st; trace := trace st |}.
Definition use (f : nat) (p : place) (st : state) : state :=
  let rel := fun r => store st (fst p, snd p ++ r) in
  {| store := fun q => if Nat.eqb (fst p) (fst q) then match below (snd p) (snd q) with Some r => act f (trace st) rel r | None => store st q end else store st q;
     ints := ints st; gone := gone st; trace := Used (f + result f (trace st) rel) p :: trace st |}.
Definition call (f : nat) (st : state) : state := {| store := store st; ints := ints st; gone := gone st; trace := Called f :: trace st |}.
Definition away (l : list place) (st : state) : state := {| store := store st; ints := ints st; gone := l; trace := trace st |}.
Definition renew (x : name) (v : list step -> list nat) (st : state) : state :=
  {| store := fun q => if Nat.eqb x (fst q) then v (snd q) else store st q; ints := ints st;
     gone := filter (fun q : place => negb (Nat.eqb x (fst q))) (gone st); trace := trace st |}.
Definition usable (p : place) (st : state) : bool := negb (existsb (relatedb p) (gone st)).
(* What is left when the variable goes out of scope *)
Definition leave (x : name) (o : outcome) : outcome :=
  match o with Norm st => Norm (renew x (fun _ => []) st) | Brk st => Brk (renew x (fun _ => []) st) | Ret st => Ret (renew x (fun _ => []) st) | o => o end.
(* for over an iterator that was moved out of a place or is borrowed: cur, what is left of it; back, what to do with the rest *)
Section Rounds.
Variable run : state -> outcome.
Variable y : name.
Fixpoint rounds (fuel : nat) (back : list nat -> state -> state) (cur : list nat) (st : state) : outcome :=
  match fuel with
  | O => Out
  | S fuel =>
      match cur with
      | [] => Norm (back [] st)
      | z :: cur =>
          match run (set_int y z st) with
          | Norm st => rounds fuel back cur st
          | Brk st => Norm (back cur st)
          | Ret st => Ret (back cur st)
          | o => o
          end
      end
  end.
(* while let: the iterator stays where it is, and the place is looked up each time *)
Fixpoint asking (fuel : nat) (p : pexpr) (st : state) : outcome :=
  match fuel with
  | O => Out
  | S fuel =>
      let q := resolve (ints st) p in
      if usable q st then
        match store st q with
        | [] => Norm st
        | z :: l =>
            match run (set_int y z (put q l st)) with
            | Norm st => asking fuel p st
            | Brk st => Norm st
            | o => o
            end
        end
      else Stuck
  end.
Fixpoint looping (fuel : nat) (st : state) : outcome :=
  match fuel with
  | O => Out
  | S fuel => match run st with Norm st => looping fuel st | Brk st => Norm st | o => o end
  end.
End Rounds.
Definition is_var (p : pexpr) : bool := match p with PVar _ => true | _ => false end.
Fixpoint exec (fuel : nat) (s : stmt) (st : state) : outcome :=
  match s with
  | SSkip => Norm st
  | SSeq a b => match exec fuel a st with Norm st => exec fuel b st | o => o end
  | SUse f p => let q := resolve (ints st) p in if usable q st then Norm (use f q st) else Stuck
  | SCall f => Norm (call f st)
  | SSet i f => Norm (set_int i (num f (trace st)) (call f st))
  | SIf c a b => if bool_of c (trace st) then exec fuel a st else exec fuel b st
  | SLoop b => looping (exec fuel b) fuel st
  | SBreak => Brk st
  | SReturn => Ret st
  | SLet x f rest => leave x (exec fuel rest (renew x (fresh f (trace st)) (call f st)))
  | SOnce b => exec fuel b st
  | SWhile _ y p b => asking (exec fuel b) y fuel p st
  | SFor by_ref y p b =>
      let q := resolve (ints st) p in
      if usable q st && (by_ref || is_var p) then
        if by_ref then rounds (exec fuel b) y fuel (fun l st' => put q l (away (gone st) st')) (store st q) (away (q :: gone st) st)
        else rounds (exec fuel b) y fuel (fun _ st' => st') (store st q) (away (q :: gone st) st)
      else Stuck
  end.
End Run.

(* What can be observed *)
Definition same_outcome (a b : outcome) : Prop :=
  match a, b with
  | Out, Out => True
  | Norm s, Norm t | Brk s, Brk t | Ret s, Ret t => trace s = trace t
  | _, _ => False
  end.

(* The loop with this number replaced by a for loop *)
Fixpoint replace (id : nat) (by_ref : bool) (s : stmt) : stmt :=
  match s with
  | SSeq a b => SSeq (replace id by_ref a) (replace id by_ref b)
  | SIf c a b => SIf c (replace id by_ref a) (replace id by_ref b)
  | SLoop b => SLoop (replace id by_ref b)
  | SLet x f b => SLet x f (replace id by_ref b)
  | SOnce b => SOnce (replace id by_ref b)
  | SWhile n y p b => if Nat.eqb n id then SFor by_ref y p b else SWhile n y p (replace id by_ref b)
  | _ => s
  end.

(* How often the number of a loop occurs *)
Fixpoint occurrences (id : nat) (s : stmt) : nat :=
  match s with
  | SSeq a b | SIf _ a b => occurrences id a + occurrences id b
  | SLoop b | SOnce b | SLet _ _ b | SFor _ _ _ b => occurrences id b
  | SWhile n _ _ b => (if Nat.eqb n id then 1 else 0) + occurrences id b
  | _ => 0
  end.
Fixpoint root (p : pexpr) : name := match p with PVar x => x | PField p _ | PIndex p _ | PDeref _ p | PRef p => root p end.
(* Variables are used in their scopes, in which no other declaration has their names; for loops are written as what they stand for *)
Fixpoint scoped (env : list name) (s : stmt) : Prop :=
  match s with
  | SUse _ p => In (root p) env
  | SSeq a b | SIf _ a b => scoped env a /\ scoped env b
  | SLoop b | SOnce b => scoped env b
  | SLet x _ b => ~ In x env /\ scoped (x :: env) b
  | SWhile _ _ p b => In (root p) env /\ scoped env b
  | SFor _ _ _ _ => False
  | SSkip | SCall _ | SSet _ _ | SBreak | SReturn => True
  end.
(* The numbers that are changed *)
Fixpoint sets (i : name) (s : stmt) : bool :=
  match s with
  | SSet j _ => Nat.eqb i j
  | SSeq a b | SIf _ a b => sets i a || sets i b
  | SLoop b | SOnce b | SLet _ _ b => sets i b
  | SWhile _ y _ b | SFor _ y _ b => Nat.eqb i y || sets i b
  | _ => false
  end.
Fixpoint index_of (i : name) (p : pexpr) : bool :=
  match p with PVar _ => false | PIndex p j => Nat.eqb i j || index_of i p | PField p _ | PDeref _ p | PRef p => index_of i p end.
(* The loop leaves alone what selects the iterator *)
Fixpoint steady (id : nat) (s : stmt) : Prop :=
  match s with
  | SSeq a b | SIf _ a b => steady id a /\ steady id b
  | SLoop b | SOnce b | SLet _ _ b => steady id b
  | SWhile n y p b => (n = id -> forall i, index_of i p = true -> i <> y /\ sets i b = false) /\ steady id b
  | _ => True
  end.
(* What is iterated over is not written as a dereference *)
Definition is_deref (p : pexpr) : bool := match p with PDeref _ _ => true | _ => false end.
Fixpoint not_deref (id : nat) (s : stmt) : Prop :=
  match s with
  | SSeq a b | SIf _ a b => not_deref id a /\ not_deref id b
  | SLoop b | SOnce b | SLet _ _ b => not_deref id b
  | SWhile n _ p b => (n = id -> is_deref p = false) /\ not_deref id b
  | _ => True
  end.
(* The loop is in no closure *)
Fixpoint outside_closures (id : nat) (s : stmt) : Prop :=
  match s with
  | SSeq a b | SIf _ a b => outside_closures id a /\ outside_closures id b
  | SLoop b | SLet _ _ b | SWhile _ _ _ b => outside_closures id b
  | SOnce b => occurrences id b = 0
  | _ => True
  end.
