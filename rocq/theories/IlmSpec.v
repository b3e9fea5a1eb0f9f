(* Mutexes that are locked in an if let (/repo/clippy_lints/src/if_let_mutex.rs).  Does not depend on IlmModel.v. *)
From Coq Require Import List Bool PeanoNat.
Import ListNotations.

(* Expressions, as to the mutexes they lock *)
Inductive expr :=
| EOther
| ELock (n m : nat)            (* m.lock(), at a place n in the source; the guard is a temporary *)
| EDrop (m : nat)              (* drop(g) of the guard of m, that a pattern has bound *)
| EPair (a b : expr)           (* operators, calls: a, then b *)
| ESeq (a b : expr)            (* { a; b } *)
| EIf (c a b : expr)
| EIfLet (s a b : expr).       (* if let .. = s { a } else { b } *)
Definition without (h t : list nat) : list nat := filter (fun m => negb (existsb (Nat.eqb m) t)) h.
(* run e h l h' t: with the mutexes h locked, e locks l, one after the other, and leaves h' locked, of which t are held by temporaries that
   live until the end of the statement (before the edition of 2024).  A lock of a mutex that is locked deadlocks: there is no run. *)
Inductive run : expr -> list nat -> list (nat * nat) -> list nat -> list nat -> Prop :=
| ROther h : run EOther h [] h []
| RLock n m h : ~ In m h -> run (ELock n m) h [(n, m)] (m :: h) [m]
| RDrop m h : run (EDrop m) h [] (without h [m]) []
| RPair a b h l h1 t1 l' h2 t2 : run a h l h1 t1 -> run b h1 l' h2 t2 -> run (EPair a b) h (l ++ l') h2 (t1 ++ t2)
| RSeq a b h l h1 t1 l' h2 t2 : run a h l h1 t1 -> run b (without h1 t1) l' h2 t2 -> run (ESeq a b) h (l ++ l') h2 t2
| RThen c a b h l h1 t1 l' h2 t2 : run c h l h1 t1 -> run a (without h1 t1) l' h2 t2 -> run (EIf c a b) h (l ++ l') h2 t2
| RElse c a b h l h1 t1 l' h2 t2 : run c h l h1 t1 -> run b (without h1 t1) l' h2 t2 -> run (EIf c a b) h (l ++ l') h2 t2
| RLetThen s a b h l h1 t1 l' h2 t2 : run s h l h1 t1 -> run a h1 l' h2 t2 -> run (EIfLet s a b) h (l ++ l') h2 (t1 ++ t2)
| RLetElse s a b h l h1 t1 l' h2 t2 : run s h l h1 t1 -> run b h1 l' h2 t2 -> run (EIfLet s a b) h (l ++ l') h2 (t1 ++ t2).
(* The locks in the source *)
Fixpoint locks (e : expr) : list (nat * nat) :=
  match e with
  | EOther | EDrop _ => []
  | ELock n m => [(n, m)]
  | EPair a b | ESeq a b => locks a ++ locks b
  | EIf c a b | EIfLet c a b => locks c ++ locks a ++ locks b
  end.
Fixpoint no_drop (m : nat) (e : expr) : bool :=
  match e with
  | EOther | ELock _ _ => true
  | EDrop m' => negb (Nat.eqb m m')
  | EPair a b | ESeq a b => no_drop m a && no_drop m b
  | EIf c a b | EIfLet c a b => no_drop m c && no_drop m a && no_drop m b
  end.
(* Locks m whatever branches are taken, and holds it until the end of the statement *)
Fixpoint surely (m : nat) (e : expr) : bool :=
  match e with
  | EOther | EDrop _ => false
  | ELock _ m' => Nat.eqb m m'
  | EPair a b => surely m a || surely m b
  | ESeq _ b => surely m b
  | EIf _ a b => surely m a && surely m b
  | EIfLet s a b => surely m s || surely m a && surely m b
  end.
