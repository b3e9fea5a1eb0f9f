(* Vectors that are made and pushed to (/repo/clippy_lints/src/vec_init_then_push.rs).  Does not depend on VipModel.v. *)
From Coq Require Import List Bool PeanoNat.
Import ListNotations.

Notation ident := nat (only parsing).
Inductive item :=
| IVar (x : ident)
| ILit (n : nat)
| IAdd (a b : item)
| ILen (v : ident)          (* v.len() *)
| ICall.                    (* a call that counts how often it was made, and tells so *)
Inductive init := INew | IConst (n : nat) | IExpr (i : item) | IVec (l : list item).    (* Vec::new(), with_capacity(3), with_capacity(i), vec![l] *)
Inductive stm :=
| SLet (v : ident) (a : init)                   (* let mut v = a; or v = a; *)
| SMatch (x v : ident) (a : init)               (* match x { 0 => v = a, _ => () } *)
| SPush (v : ident) (i : item)                  (* v.push(i) *)
| SSet (x : ident) (i : item).                  (* x = i *)
Record store := { vecs : ident -> list nat; vars : ident -> nat; calls : nat }.
Definition upd {A} (f : ident -> A) (x : ident) (a : A) : ident -> A := fun y => if Nat.eqb x y then a else f y.
Definition with_vec (s : store) (v : ident) (l : list nat) : store := {| vecs := upd (vecs s) v l; vars := vars s; calls := calls s |}.
Fixpoint value (i : item) (s : store) : nat * store :=
  match i with
  | IVar x => (vars s x, s)
  | ILit n => (n, s)
  | IAdd a b => let (m, s) := value a s in let (n, s) := value b s in (m + n, s)
  | ILen v => (length (vecs s v), s)
  | ICall => (S (calls s), {| vecs := vecs s; vars := vars s; calls := S (calls s) |})
  end.
Fixpoint values (l : list item) (s : store) : list nat * store :=
  match l with [] => ([], s) | i :: l => let (n, s) := value i s in let (r, s) := values l s in (n :: r, s) end.
Definition made (v : ident) (a : init) (s : store) : store :=
  match a with
  | INew | IConst _ => with_vec s v []
  | IExpr i => let (_, s) := value i s in with_vec s v []
  | IVec l => let (r, s) := values l s in with_vec s v r
  end.
Definition exec1 (t : stm) (s : store) : store :=
  match t with
  | SLet v a => made v a s
  | SMatch x v a => if Nat.eqb (vars s x) 0 then made v a s else s
  | SPush v i => let (n, s) := value i s in with_vec s v (vecs s v ++ [n])
  | SSet x i => let (n, s) := value i s in {| vecs := vecs s; vars := upd (vars s) x n; calls := calls s |}
  end.
Definition exec (l : list stm) (s : store) : store := fold_left (fun s t => exec1 t s) l s.
Definition same (s t : store) : Prop := (forall v, vecs s v = vecs t v) /\ (forall x, vars s x = vars t x) /\ calls s = calls t.
(* Does not ask the vector *)
Fixpoint apart (v : ident) (i : item) : bool :=
  match i with ILen w => negb (Nat.eqb v w) | IAdd a b => apart v a && apart v b | _ => true end.
