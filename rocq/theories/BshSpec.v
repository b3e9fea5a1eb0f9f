(* Branches that share code: the meaning of chains of if, of match, and of code moved out of them
   (/repo/clippy_lints/src/ifs/branches_sharing_code.rs).  Does not depend on BshModel.v. *)
From Coq Require Import List ZArith Bool PeanoNat.
Import ListNotations.
Local Open Scope Z_scope.

Definition name := nat.
Inductive expr :=
| ELit (z : Z) | EVar (x : name)
| EOp (o : nat) (a b : expr)       (* operators without effect *)
| ECall (f : nat) (a : expr)       (* f(a) *)
| EMut (f : nat) (x : name).       (* f(&mut x) *)
Inductive stmt := SLet (x : name) (e : expr) | SSet (x : name) (e : expr) | SExpr (e : expr) | SRet (e : expr).
Definition block := (list stmt * option expr)%type.

(* Variables, innermost first; what has been called, latest first. *)
Definition env := list (name * Z).
Definition trace := list (nat * Z).
Fixpoint lookup (x : name) (m : env) : Z :=
  match m with [] => 0 | (y, v) :: m => if Nat.eqb y x then v else lookup x m end.
Fixpoint assign (x : name) (v : Z) (m : env) : env :=
  match m with [] => [] | (y, w) :: m => if Nat.eqb y x then (y, v) :: m else (y, w) :: assign x v m end.
(* The last n variables: those outside of a block *)
Definition leave (n : nat) (m : env) : env := skipn (length m - n) m.

Section Run.
Variable op : nat -> Z -> Z -> Z.
(* What a call returns, and leaves in what it may change, depends on all calls so far. *)
Variable calls : nat -> Z -> trace -> Z.
Variable changes : nat -> Z -> trace -> Z.

Fixpoint eval (e : expr) (m : env) (h : trace) : Z * env * trace :=
  match e with
  | ELit z => (z, m, h)
  | EVar x => (lookup x m, m, h)
  | EOp o a b => let '(u, m, h) := eval a m h in let '(v, m, h) := eval b m h in (op o u v, m, h)
  | ECall f a => let '(u, m, h) := eval a m h in (calls f u h, m, (f, u) :: h)
  | EMut f x => let u := lookup x m in (calls f u h, assign x (changes f u h) m, (f, u) :: h)
  end.
Inductive outcome := Go (m : env) (h : trace) | Ret (v : Z) (h : trace).
Definition step (s : stmt) (m : env) (h : trace) : outcome :=
  match s with
  | SLet x e => let '(v, m, h) := eval e m h in Go ((x, v) :: m) h
  | SSet x e => let '(v, m, h) := eval e m h in Go (assign x v m) h
  | SExpr e => let '(_, m, h) := eval e m h in Go m h
  | SRet e => let '(v, m, h) := eval e m h in Ret v h
  end.
Fixpoint steps (l : list stmt) (m : env) (h : trace) : outcome :=
  match l with [] => Go m h | s :: l => match step s m h with Go m h => steps l m h | Ret v h => Ret v h end end.
(* The value of a block, and the variables outside of it afterwards; or the function returns. *)
Inductive result := Value (v : Z) (m : env) (h : trace) | Returned (v : Z) (h : trace).
Definition tail (e : option expr) (m : env) (h : trace) : Z * env * trace :=
  match e with Some e => eval e m h | None => (0, m, h) end.
Definition run_block (b : block) (m : env) (h : trace) : result :=
  match steps (fst b) m h with
  | Go m' h => let '(v, m', h) := tail (snd b) m' h in Value v (leave (length m) m') h
  | Ret v h => Returned v h
  end.
(* if c1 { b1 } else if c2 { b2 } .. else { b } *)
Fixpoint run_if (cs : list expr) (bs : list block) (m : env) (h : trace) : result :=
  match bs with
  | [] => Value 0 m h
  | b :: bs =>
      match cs with
      | [] => run_block b m h
      | c :: cs => let '(v, m, h) := eval c m h in if v =? 0 then run_if cs bs m h else run_block b m h
      end
  end.
(* match e { 0 => b0, 1 => b1, .., x => b } where each arm may bind the value *)
Fixpoint select (v : Z) (arms : list (name * block)) : option (name * block) :=
  match arms with [] => None | [a] => Some a | a :: arms => if v =? 0 then Some a else select (v - 1) arms end.
Definition run_match (e : expr) (arms : list (name * block)) (m : env) (h : trace) : result :=
  let '(v, m, h) := eval e m h in
  match select v arms with
  | None => Value 0 m h
  | Some (x, b) =>
      match run_block b ((x, v) :: m) h with Value v' m' h => Value v' (leave (length m) m') h | r => r end
  end.
(* { first; r; last; t } *)
Definition run_around (first : list stmt) (r : env -> trace -> result) (last : option (list stmt * option expr))
  (m : env) (h : trace) : result :=
  match steps first m h with
  | Ret v h => Returned v h
  | Go m1 h =>
      match r m1 h with
      | Returned v h => Returned v h
      | Value v m2 h =>
          match last with
          | None => Value v (leave (length m) m2) h
          | Some (l, t) =>
              match run_block (l, t) m2 h with Value v m3 h => Value v (leave (length m) m3) h | r => r end
          end
      end
  end.
End Run.

(* Names *)
Fixpoint names (e : expr) : list name :=
  match e with ELit _ => [] | EVar x => [x] | EOp _ a b => names a ++ names b | ECall _ a => names a | EMut _ x => [x] end.
Definition used (s : stmt) : list name :=
  match s with SLet _ e | SExpr e | SRet e => names e | SSet x e => x :: names e end.
Definition bound (l : list stmt) : list name := flat_map (fun s => match s with SLet x _ => [x] | _ => [] end) l.
Fixpoint pure (e : expr) : bool :=
  match e with ELit _ | EVar _ => true | EOp _ a b => pure a && pure b | _ => false end.
