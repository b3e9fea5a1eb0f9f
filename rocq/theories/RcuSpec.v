(* Recursive functions, their parameters and what of these can be observed
   (/repo/clippy_lints/src/only_used_in_recursion.rs).  Does not depend on RcuModel.v. *)
From Coq Require Import List ZArith Bool PeanoNat.
Import ListNotations.
Local Open Scope Z_scope.

Definition name := nat.
(* Bodies of functions; every variable has a name of its own. *)
Inductive expr :=
| ELit (z : Z) | EVar (x : name)
| EBin (o : nat) (a b : expr)           (* built-in operators; may panic *)
| ELazy (land : bool) (a b : expr)      (* a && b, a || b *)
| EUn (o : nat) (a : expr)              (* built-in unary operators, casts, fields *)
| EAssign (x : name) (a : expr) | EAssignOp (o : nat) (x : name) (a : expr)
| ECall (f : nat) (a : expr)            (* another function *)
| ERec (es : list expr)                 (* the function itself *)
| EIf (c a b : expr) | EWhen (c a : expr) | EWhile (c a : expr)
| ESeq (a b : expr)                     (* { a; b } *)
| ELet (x : name) (a b : expr)          (* { let x = a; b } *)
| ERet (a : expr).

Definition env := name -> Z.
Definition trace := list (nat * Z).
Definition upd (m : env) (x : name) (v : Z) : env := fun y => if Nat.eqb x y then v else m y.
Inductive outcome := Ok (v : Z) (m : env) (h : trace) | Return (v : Z) (h : trace) | Panic (h : trace) | Timeout.
Definition bind (r : outcome) (k : Z -> env -> trace -> outcome) : outcome := match r with Ok v m h => k v m h | r => r end.
Fixpoint bindings (ps : list name) (vs : list Z) : env :=
  match ps, vs with p :: ps, v :: vs => upd (bindings ps vs) p v | _, _ => fun _ => 0 end.

Section Run.
Variable op : nat -> Z -> Z -> option Z.
Variable un : nat -> Z -> option Z.
Variable calls : nat -> Z -> trace -> Z.   (* depends on everything called before *)
Variables (ps : list name) (body : expr).
Definition arith (r : option Z) (h : trace) (k : Z -> outcome) : outcome := match r with Some v => k v | None => Panic h end.
(* at most n steps deep *)
Fixpoint eval (n : nat) (e : expr) (m : env) (h : trace) : outcome :=
  match n with
  | O => Timeout
  | S n =>
      let evals := fix evals (es : list expr) (vs : list Z) (m : env) (h : trace) : outcome :=
        match es with
        | [] => match eval n body (bindings ps vs) h with Ok v _ h | Return v h => Ok v m h | r => r end
        | a :: es => bind (eval n a m h) (fun v m h => evals es (vs ++ [v]) m h)
        end in
      match e with
      | ELit z => Ok z m h
      | EVar x => Ok (m x) m h
      | EBin o a b => bind (eval n a m h) (fun u m h => bind (eval n b m h) (fun v m h => arith (op o u v) h (fun w => Ok w m h)))
      | ELazy w a b => bind (eval n a m h) (fun u m h => if Bool.eqb (u =? 0) w then Ok u m h else eval n b m h)
      | EUn o a => bind (eval n a m h) (fun u m h => arith (un o u) h (fun w => Ok w m h))
      | EAssign x a => bind (eval n a m h) (fun u m h => Ok 0 (upd m x u) h)
      | EAssignOp o x a => bind (eval n a m h) (fun u m h => arith (op o (m x) u) h (fun w => Ok 0 (upd m x w) h))
      | ECall f a => bind (eval n a m h) (fun u m h => Ok (calls f u h) m ((f, u) :: h))
      | ERec es => evals es [] m h
      | EIf c a b => bind (eval n c m h) (fun u m h => if u =? 0 then eval n b m h else eval n a m h)
      | EWhen c a => bind (eval n c m h) (fun u m h => if u =? 0 then Ok 0 m h else bind (eval n a m h) (fun _ m h => Ok 0 m h))
      | EWhile c a => bind (eval n c m h) (fun u m h => if u =? 0 then Ok 0 m h else bind (eval n a m h) (fun _ m h => eval n (EWhile c a) m h))
      | ESeq a b => bind (eval n a m h) (fun _ m h => eval n b m h)
      | ELet x a b => bind (eval n a m h) (fun u m h => eval n b (upd m x u) h)
      | ERet a => bind (eval n a m h) (fun u m h => Return u h)
      end
  end.
(* What a caller sees *)
Inductive seen := Done (v : Z) (h : trace) | Panicked (h : trace) | NotYet.
Definition call (n : nat) (vs : list Z) (h : trace) : seen :=
  match eval n body (bindings ps vs) h with Ok v _ h | Return v h => Done v h | Panic h => Panicked h | Timeout => NotYet end.
End Run.

(* No `a && b` or `a || b` with one of the names in a *)
Fixpoint vars (e : expr) : list name :=
  match e with
  | ELit _ => [] | EVar x => [x]
  | EUn _ a | ECall _ a | ERet a => vars a
  | EAssign x a | EAssignOp _ x a => x :: vars a
  | EBin _ a b | ELazy _ a b | EWhen a b | EWhile a b | ESeq a b => vars a ++ vars b
  | ELet x a b => x :: vars a ++ vars b
  | EIf a b c => vars a ++ vars b ++ vars c
  | ERec es => flat_map vars es
  end.
Fixpoint lazy_on (e : expr) : list name :=
  match e with
  | ELit _ | EVar _ => []
  | EUn _ a | ECall _ a | ERet a | EAssign _ a | EAssignOp _ _ a => lazy_on a
  | ELazy _ a b => vars a ++ lazy_on a ++ lazy_on b
  | EBin _ a b | EWhen a b | EWhile a b | ESeq a b | ELet _ a b => lazy_on a ++ lazy_on b
  | EIf a b c => lazy_on a ++ lazy_on b ++ lazy_on c
  | ERec es => flat_map lazy_on es
  end.
