(* Programs that fill collections (/repo/clippy_lints/src/collection_is_never_read.rs).  Does not depend on CnrModel.v. *)
From Coq Require Import List Bool PeanoNat.
Import ListNotations.

Notation name := nat (only parsing).
Notation method := nat (only parsing).
Inductive expr :=
| EVar (x : name)
| ELit (n : nat)
| ECall (f : nat) (e : expr)                     (* f(e), an observed call *)
| EAdd (a b : expr)
| EMethod (x : name) (m : method) (e : expr)     (* x.m(e) *)
| EMethodMut (x : name) (m : method) (w : name). (* x.m(&mut w) *)
Inductive stmt :=
| SSkip
| SSeq (a b : stmt)
| SLet (x : name) (e : expr)
| SAssign (x : name) (e : expr)
| SAddAssign (x : name) (e : expr)               (* x += e *)
| SExpr (e : expr)                               (* e; *)
| SFn (dest : option name) (x : name) (m : method) (s : stmt)   (* x.m(|| s); or let y = x.m(|| s); *)
| SFn1 (x : name) (m : method) (y : name) (s : stmt)            (* x.m(|y| s); *)
| SIf (c : expr) (a b : stmt)
| SWhile (c : expr) (b : stmt).

Record state := { vars : name -> nat; trace : list (nat * nat) }.
Inductive result := Val (n : nat) (st : state) | Panic (t : list (nat * nat)).
Inductive outcome := Out | Norm (st : state) | Panicked (t : list (nat * nat)).
Section Run.
Variable fn : nat -> nat -> list (nat * nat) -> nat.     (* what calls return *)
(* The methods: what they leave, return and do to the variable they are given; do they panic; the items they call a closure with *)
Variable unit_ : method -> bool.
Variable leaves returns : method -> nat -> nat -> nat.
Variable gives : method -> nat -> nat -> nat.
Variable panics : method -> nat -> nat -> bool.
Variable items : method -> nat -> list nat.
Definition set (x : name) (n : nat) (st : state) : state := {| vars := fun y => if Nat.eqb y x then n else vars st y; trace := trace st |}.
Definition value (m : method) (c a : nat) : nat := if unit_ m then 0 else returns m c a.
Fixpoint eval (e : expr) (st : state) : result :=
  match e with
  | EVar x => Val (vars st x) st
  | ELit n => Val n st
  | ECall f e => match eval e st with Val n st => Val (fn f n (trace st)) {| vars := vars st; trace := (f, n) :: trace st |} | p => p end
  | EAdd a b => match eval a st with Val n st => match eval b st with Val m st => Val (n + m) st | p => p end | p => p end
  | EMethod x m e =>
      match eval e st with
      | Val a st => let c := vars st x in if panics m c a then Panic (trace st) else Val (value m c a) (set x (leaves m c a) st)
      | p => p
      end
  | EMethodMut x m w =>
      let c := vars st x in let a := vars st w in
      if panics m c a then Panic (trace st) else Val (value m c a) (set w (gives m c a) (set x (leaves m c a) st))
  end.
Section Loops.
Variable test : state -> result.
Variable run : state -> outcome.
Fixpoint while (fuel : nat) (st : state) : outcome :=
  match fuel with
  | O => Out
  | S fuel => match test st with Panic t => Panicked t | Val n st => if Nat.eqb n 0 then Norm st else match run st with Norm st => while fuel st | o => o end end
  end.
Fixpoint times (n : nat) (st : state) : outcome := match n with O => Norm st | S n => match run st with Norm st => times n st | o => o end end.
Fixpoint each (y : name) (l : list nat) (st : state) : outcome :=
  match l with [] => Norm st | i :: l => match run (set y i st) with Norm st => each y l st | o => o end end.
End Loops.
Fixpoint exec (fuel : nat) (s : stmt) (st : state) : outcome :=
  match s with
  | SSkip => Norm st
  | SSeq a b => match exec fuel a st with Norm st => exec fuel b st | o => o end
  | SLet x e | SAssign x e => match eval e st with Val n st => Norm (set x n st) | Panic t => Panicked t end
  | SAddAssign x e => match eval e st with Val n st => Norm (set x (vars st x + n) st) | Panic t => Panicked t end
  | SExpr e => match eval e st with Val _ st => Norm st | Panic t => Panicked t end
  | SFn d x m s =>
      let c := vars st x in
      match times (exec fuel s) (length (items m c)) st with
      | Norm st =>
          if panics m c 0 then Panicked (trace st) else
          let st := set x (leaves m c 0) st in Norm (match d with Some y => set y (value m c 0) st | None => st end)
      | o => o
      end
  | SFn1 x m y s =>
      let c := vars st x in
      match each (exec fuel s) y (items m c) st with
      | Norm st => if panics m c 0 then Panicked (trace st) else Norm (set x (leaves m c 0) st)
      | o => o
      end
  | SIf c a b => match eval c st with Val n st => if Nat.eqb n 0 then exec fuel b st else exec fuel a st | Panic t => Panicked t end
  | SWhile c b => while (eval c) (exec fuel b) fuel st
  end.
(* The same calls, and the same values of the other variables *)
Definition apart (id : name) (a b : state) : Prop := trace a = trace b /\ forall x, x <> id -> vars a x = vars b x.
Definition same (id : name) (o o' : outcome) : Prop :=
  match o, o' with Out, Out => True | Norm a, Norm b => apart id a b | Panicked t, Panicked t' => t = t' | _, _ => False end.
(* The methods called on the variable *)
Fixpoint methods_e (id : name) (e : expr) : list method :=
  match e with
  | EVar _ | ELit _ => []
  | ECall _ e => methods_e id e
  | EAdd a b => methods_e id a ++ methods_e id b
  | EMethod x m e => (if Nat.eqb x id then [m] else []) ++ methods_e id e
  | EMethodMut x m _ => if Nat.eqb x id then [m] else []
  end.
Fixpoint methods (id : name) (s : stmt) : list method :=
  match s with
  | SSkip => []
  | SSeq a b => methods id a ++ methods id b
  | SLet _ e | SAssign _ e | SAddAssign _ e | SExpr e => methods_e id e
  | SFn _ x m s | SFn1 x m _ s => (if Nat.eqb x id then [m] else []) ++ methods id s
  | SIf c a b => methods_e id c ++ methods id a ++ methods id b
  | SWhile c b => methods_e id c ++ methods id b
  end.
(* A method that tells nothing of the collection but by what it returns *)
Definition discreet (m : method) : Prop :=
  (forall c c' a, panics m c a = panics m c' a) /\ (forall c c' a, gives m c a = gives m c' a) /\ (forall c c', length (items m c) = length (items m c')).
End Run.
