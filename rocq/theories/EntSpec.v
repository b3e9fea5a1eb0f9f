(* Checks for a key that are followed by insertions, and the entries of maps (/repo/clippy_lints/src/entry.rs).  Does not depend on EntModel.v. *)
From Coq Require Import List Bool PeanoNat.
Import ListNotations.

Notation name := nat (only parsing).
Inductive key := KVar (x : name) | KCall (f : nat).                (* k, f() *)
Inductive value := VLit (n : nat) | VCall (f : nat) | VKey (x : name) | VMap (f : nat).   (* VKey: f(k); VMap: m.f() *)
Inductive stmt :=
| SSkip                                              (* {} *)
| SSeq (a b : stmt)
| SInsert (observed : bool) (k : key) (v : value)    (* m.insert(k, v); let r = m.insert(k, v); g(r) *)
| SEntry (observed : bool) (vacant : bool) (v : value)   (* e.insert(v), where e is the entry; with { e.insert(v); None } or Some(e.insert(v)), if observed *)
| SUseMap (f : nat)                                  (* m.f(), which may change the map *)
| SUseKey (x : name) (f : nat)                       (* f(&k) *)
| SSet (x : name) (f : nat)                          (* k = f() *)
| SCall (f : nat)
| SIf (c : nat) (a b : stmt)
| SWhen (c : nat) (a : stmt)                         (* if without else *)
| SLoop (b : stmt)
| SBreak
| SReturn
| SMany (f : nat) (b : stmt).                        (* f(|| b), where f calls the closure any number of times *)
Inductive check_ := Check (negated : bool) (k : key) (a : stmt) (b : option stmt).    (* if !m.contains_key(&k) { a } else { b } *)
Inductive suggestion :=
| IfLet (k : key) (vacant : bool) (a : stmt) (b : option stmt)     (* if let Vacant(e) = m.entry(k) { a } else { b } *)
| Match (k : key) (vacant occupied : stmt)
| OrInsert (k : key) (v : value)                                   (* m.entry(k).or_insert(v) *)
| OrInsertWith (k : key) (v : value)
| OrInsertBlock (k : key) (a : stmt).                              (* m.entry(k).or_insert_with(|| { a }) where the insertions in a are the values *)

(* The entry: none, at a key, gone (used up, or the map was used since), in or_insert_with, and there with the value *)
Inductive entry := NoEntry | At (k : nat) | Gone | Pending | Filled (v : nat).
Inductive event := Called (f : nat) | Used (f : nat) (r : nat) | Returned (r : option nat).
(* moved: the key, if it is not Copy and was given away *)
Record state := { map : nat -> option nat; vars : name -> nat; moved : option name; ent : entry; trace : list event }.
Inductive outcome := Out | Stuck (* the compiler rejects the program *) | Norm (st : state) | Brk (st : state) | Ret (st : state).

Section Run.
Variable copy : bool.      (* are the keys Copy? *)
Variable num : nat -> list event -> nat.
Variable times : nat -> list event -> nat.
Variable yes : nat -> list event -> bool.
Variable fn : nat -> nat -> list event -> nat.
Variable act : nat -> (nat -> option nat) -> list event -> nat -> option nat.
Variable seen : nat -> (nat -> option nat) -> list event -> nat.
Definition log (e : event) (st : state) : state := {| map := map st; vars := vars st; moved := moved st; ent := ent st; trace := e :: trace st |}.
Definition with_ent (e : entry) (st : state) : state := {| map := map st; vars := vars st; moved := moved st; ent := e; trace := trace st |}.
Definition with_map (m : nat -> option nat) (st : state) : state := {| map := m; vars := vars st; moved := moved st; ent := ent st; trace := trace st |}.
Definition with_moved (m : option name) (st : state) : state := {| map := map st; vars := vars st; moved := m; ent := ent st; trace := trace st |}.
Definition upd (m : nat -> option nat) (k v : nat) : nat -> option nat := fun j => if Nat.eqb j k then Some v else m j.
Definition filled (st : state) : bool := match ent st with Filled _ => true | _ => false end.
Definition is_moved (x : name) (st : state) : bool := match moved st with Some y => Nat.eqb y x | None => false end.
(* &k, and k *)
Definition borrow_key (k : key) (st : state) : option (nat * state) :=
  match k with KVar x => if is_moved x st then None else Some (vars st x, st) | KCall f => Some (num f (trace st), log (Called f) st) end.
Definition give_key (k : key) (st : state) : option (nat * state) :=
  match k with
  | KVar x => if is_moved x st then None else Some (vars st x, if copy then st else with_moved (Some x) st)
  | KCall f => Some (num f (trace st), log (Called f) st)
  end.
Definition run_value (v : value) (st : state) : option (nat * state) :=
  match v with
  | VLit n => Some (n, st)
  | VCall f => Some (num f (trace st), log (Called f) st)
  | VKey x => if is_moved x st then None else Some (vars st x, st)
  | VMap f => match ent st with NoEntry | Gone => Some (seen f (map st) (trace st), log (Called f) st) | _ => None end
  end.
Section Loops.
Variable run : state -> outcome.
Fixpoint looping (fuel : nat) (st : state) : outcome :=
  match fuel with O => Out | S fuel => match run st with Norm st => looping fuel st | Brk st => Norm st | o => o end end.
Fixpoint many (n : nat) (st : state) : outcome :=
  match n with O => Norm st | S n => match run st with Norm st | Ret st => many n st | Brk _ => Stuck | o => o end end.
End Loops.
Definition result (observed : bool) (r : option nat) (st : state) : state := if observed then log (Returned r) st else st.
Definition touch (e : entry) : entry := match e with NoEntry => NoEntry | _ => Gone end.
Definition borrowed (st : state) : bool := match ent st with Pending | Filled _ => true | _ => false end.
Definition run_insert (o : bool) (k : key) (v : value) (st : state) : outcome :=
  if borrowed st then Stuck else
  match give_key k st with
  | Some (kv, st) =>
      match run_value v st with
      | Some (n, st) => Norm (result o (map st kv) (with_ent (touch (ent st)) (with_map (upd (map st) kv n) st)))
      | None => Stuck
      end
  | None => Stuck
  end.
Definition run_entry (o vacant : bool) (v : value) (st : state) : outcome :=
  match ent st with
  | At k =>
      match run_value v st with
      | Some (n, st) => Norm (result o (if vacant then None else map st k) (with_ent Gone (with_map (upd (map st) k n) st)))
      | None => Stuck
      end
  | Pending => if o then Stuck else match run_value v st with Some (n, st) => Norm (with_ent (Filled n) st) | None => Stuck end
  | _ => Stuck
  end.
Definition use_map (f : nat) (st : state) : outcome :=
  if borrowed st then Stuck else
  Norm (log (Used f (seen f (map st) (trace st))) (with_ent (touch (ent st)) (with_map (act f (map st) (trace st)) st))).
Definition set_var (x : name) (f : nat) (st : state) : state :=
  {| map := map st; vars := fun y => if Nat.eqb y x then num f (trace st) else vars st y;
     moved := if is_moved x st then None else moved st; ent := ent st; trace := Called f :: trace st |}.
Fixpoint exec (fuel : nat) (s : stmt) (st : state) : outcome :=
  match s with
  | SSeq a b => match exec fuel a st with Norm st => exec fuel b st | o => o end
  | _ =>
    (* nothing follows the value of a closure *)
    if filled st then Stuck else
    match s with
    | SIf c a b => if yes c (trace st) then exec fuel a (log (Called c) st) else exec fuel b (log (Called c) st)
    | SWhen c a => if yes c (trace st) then exec fuel a (log (Called c) st) else Norm (log (Called c) st)
    | SLoop b => looping (exec fuel b) fuel st
    | SInsert o k v => run_insert o k v st
    | SEntry o vacant v => run_entry o vacant v st
    | SUseMap f => use_map f st
    | SUseKey x f => if is_moved x st then Stuck else Norm (log (Used f (fn f (vars st x) (trace st))) st)
    | SSet x f => Norm (set_var x f st)
    | SCall f => Norm (log (Called f) st)
    | SBreak => Brk st
    | SReturn => Ret st
    | SMany f b => many (exec fuel b) (times f (trace st)) (log (Called f) st)
    | _ => Norm st
    end
  end.
Definition drop_entry (o : outcome) : outcome :=
  match o with Norm st => Norm (with_ent NoEntry st) | Brk st => Brk (with_ent NoEntry st) | Ret st => Ret (with_ent NoEntry st) | o => o end.
Definition or_skip (b : option stmt) : stmt := match b with Some b => b | None => SSkip end.
Definition has (m : nat -> option nat) (k : nat) : bool := match m k with Some _ => true | None => false end.
Definition run_check (fuel : nat) (c : check_) (st : state) : outcome :=
  match c with
  | Check negated k a b =>
      match borrow_key k st with
      | Some (kv, st) => if xorb negated (has (map st) kv) then exec fuel a st else exec fuel (or_skip b) st
      | None => Stuck
      end
  end.
Definition give_value (kv n : nat) (st : state) : outcome := Norm (with_ent NoEntry (with_map (upd (map st) kv n) st)).
Definition run_suggestion (fuel : nat) (s : suggestion) (st : state) : outcome :=
  let key_of := match s with IfLet k _ _ _ | Match k _ _ | OrInsert k _ | OrInsertWith k _ | OrInsertBlock k _ => k end in
  match give_key key_of st with
  | None => Stuck
  | Some (kv, st) =>
      match s with
      | IfLet _ vacant a b =>
          if xorb vacant (has (map st) kv) then drop_entry (exec fuel a (with_ent (At kv) st)) else exec fuel (or_skip b) st
      | Match _ a b => drop_entry (exec fuel (if has (map st) kv then b else a) (with_ent (At kv) st))
      | OrInsert _ v =>
          match run_value v (with_ent Pending st) with
          | Some (n, st) => if has (map st) kv then Norm (with_ent NoEntry st) else give_value kv n st
          | None => Stuck
          end
      | OrInsertWith _ v =>
          if has (map st) kv then Norm st else
          match run_value v (with_ent Pending st) with Some (n, st) => give_value kv n st | None => Stuck end
      | OrInsertBlock _ a =>
          if has (map st) kv then Norm st else
          match exec fuel a (with_ent Pending st) with
          | Norm st => match ent st with Filled n => give_value kv n st | _ => Stuck end
          | Out => Out
          | _ => Stuck
          end
      end
  end.
(* The same end: in the map, the variables and the calls *)
Definition agree (a b : state) : Prop := map a = map b /\ vars a = vars b /\ trace a = trace b.
Definition same (o o' : outcome) : Prop :=
  match o, o' with
  | Out, Out => True
  | Norm a, Norm b | Brk a, Brk b | Ret a, Ret b => agree a b
  | _, _ => False
  end.
End Run.

(* Is the variable assigned? *)
Fixpoint assigns (x : name) (s : stmt) : bool :=
  match s with
  | SSet y _ => Nat.eqb y x
  | SSeq a b | SIf _ a b => assigns x a || assigns x b
  | SWhen _ a | SLoop a | SMany _ a => assigns x a
  | _ => false
  end.
Fixpoint inserts (s : stmt) : bool :=
  match s with
  | SInsert _ _ _ => true
  | SSeq a b | SIf _ a b => inserts a || inserts b
  | SWhen _ a | SLoop a | SMany _ a => inserts a
  | _ => false
  end.
(* Does a closure insert? *)
Fixpoint closure_inserts (s : stmt) : bool :=
  match s with
  | SMany _ a => inserts a
  | SSeq a b | SIf _ a b => closure_inserts a || closure_inserts b
  | SWhen _ a | SLoop a => closure_inserts a
  | _ => false
  end.
(* The program has no entry before *)
Fixpoint source (s : stmt) : bool :=
  match s with
  | SEntry _ _ _ => false
  | SSeq a b | SIf _ a b => source a && source b
  | SWhen _ a | SLoop a | SMany _ a => source a
  | _ => true
  end.

Fixpoint mentions (x : name) (s : stmt) : bool :=
  match s with
  | SUseKey y _ | SSet y _ => Nat.eqb x y
  | SInsert _ _ v => match v with VKey y => Nat.eqb x y | _ => false end
  | SSeq a b | SIf _ a b => mentions x a || mentions x b
  | SWhen _ a | SLoop a | SMany _ a => mentions x a
  | _ => false
  end.
