(* C139: while let loops over iterators *)
From Coq Require Import List Bool PeanoNat.
Import ListNotations.
From Verif Require Import WliSpec WliModel WliProofs WliProofs2 WliProofs3.

(* Functions do the same where the contents of places are the same *)
Definition extensional (act : nat -> list event -> (list step -> list nat) -> list step -> list nat) (result : nat -> list event -> (list step -> list nat) -> nat) : Prop :=
  (forall f t a b, (forall r, a r = b r) -> forall r, act f t a r = act f t b r) /\
  (forall f t a b, (forall r, a r = b r) -> result f t a = result f t b).

(* for y in p.by_ref(): the compiler accepts it, and the program does the same.  Partial: where the loop leaves alone the indices in p. *)
Theorem while_let_by_ref_partial : forall act result num bool_of fresh, extensional act result ->
  forall s id env, check s id = Some true -> scoped env s -> occurrences id s <= 1 -> steady id s ->
  forall fuel st, gone st = [] ->
  same_outcome (exec act result num bool_of fresh fuel s st) (exec act result num bool_of fresh fuel (replace id true s) st).
Proof. intros act result num bool_of fresh [H1 H2]. exact (while_let_by_ref act result num bool_of fresh H1 H2). Qed.
Print Assumptions while_let_by_ref_partial.
(* for y in p.  Partial: where p is no dereference and the loop is in no closure. *)
Theorem while_let_by_move_partial : forall act result num bool_of fresh, extensional act result ->
  forall s id env, check s id = Some false -> scoped env s -> occurrences id s <= 1 -> not_deref id s -> outside_closures id s ->
  forall fuel st, gone st = [] ->
  same_outcome (exec act result num bool_of fresh fuel s st) (exec act result num bool_of fresh fuel (replace id false s) st).
Proof. intros act result num bool_of fresh [H1 H2]. exact (while_let_by_move act result num bool_of fresh H1 H2). Qed.
Print Assumptions while_let_by_move_partial.

(* f(x) takes an item *)
Definition act0 : nat -> list event -> (list step -> list nat) -> list step -> list nat := fun f t l r => match r with [] => tl (l []) | _ => l r end.
Definition result0 : nat -> list event -> (list step -> list nat) -> nat := fun f t l => length (l []).
Definition num0 : nat -> list event -> nat := fun f t => f.
Definition bool0 : nat -> list event -> bool := fun f t => Nat.leb 8 (length t).
Definition fresh0 : nat -> list event -> list step -> list nat := fun f t r => [f; f + 1].
Definition start : state := {| store := fun p => match snd p with [] => [1; 2; 3] | [Idx n] => [n; n] | _ => [4; 5] end; ints := fun _ => 0; gone := []; trace := [] |}.
Lemma extensional0 : extensional act0 result0.
Proof. split; [intros f t a b H [|]; cbn; rewrite H; reflexivity|intros f t a b H; unfold result0; rewrite H; reflexivity]. Qed.
Definition trace_of (o : outcome) : list event := match o with Norm s | Brk s | Ret s => trace s | _ => [] end.
(* while let Some(_) = x.0.next() { f(&mut x.1); if c { break } } g(&mut x) *)
Definition fields_ : stmt := SSeq (SWhile 1 7 (PField (PVar 2) 0) (SSeq (SUse 1 (PField (PVar 2) 1)) (SIf 1 SBreak SSkip))) (SUse 2 (PVar 2)).
(* loop { if c { break } let mut x = f(); h(&mut x); while let Some(_) = x.next() { g(&mut z) } } *)
Definition nested : stmt := SLoop (SSeq (SIf 1 SBreak SSkip) (SLet 3 1 (SSeq (SUse 4 (PVar 3)) (SWhile 1 7 (PVar 3) (SUse 2 (PVar 2)))))).
Example C139_nontrivial :
  extensional act0 result0 /\
  check fields_ 1 = Some true /\ scoped [2] fields_ /\ occurrences 1 fields_ = 1 /\ steady 1 fields_ /\
  length (trace_of (exec act0 result0 num0 bool0 fresh0 9 fields_ start)) = 3 /\
  check nested 1 = Some false /\ scoped [2] nested /\ occurrences 1 nested = 1 /\ not_deref 1 nested /\ outside_closures 1 nested /\
  length (trace_of (exec act0 result0 num0 bool0 fresh0 9 nested start)) = 9 /\
  (* used in the loop; used after the loop, or in the next round *)
  check (SWhile 1 7 (PField (PVar 2) 0) (SUse 1 (PVar 2))) 1 = None /\
  check (SWhile 1 7 (PField (PVar 2) 0) (SUse 1 (PField (PField (PVar 2) 0) 5))) 1 = None /\
  check (SSeq (SWhile 1 7 (PVar 2) SSkip) (SUse 1 (PVar 2))) 1 = Some true /\
  check (SSeq (SUse 1 (PVar 2)) (SWhile 1 7 (PVar 2) SSkip)) 1 = Some false /\
  check (SLoop (SSeq (SUse 1 (PVar 2)) (SWhile 1 7 (PVar 2) SSkip))) 1 = Some true.
Proof.
  split; [exact extensional0|]. split; [reflexivity|]. split; [cbn; tauto|]. split; [reflexivity|]. split; [cbn; repeat split; discriminate|]. split; [vm_compute; reflexivity|].
  split; [reflexivity|]. split; [cbn; intuition discriminate|]. split; [reflexivity|]. split; [cbn; tauto|]. split; [cbn; tauto|]. split; [vm_compute; reflexivity|].
  repeat split.
Qed.

(* while let Some(_) = v[i].next() { f(&mut w); i = 1 } goes on with another iterator, for _ in v[i].by_ref() does not *)
Theorem while_let_index_refuted : exists act result num bool_of fresh s id env fuel st,
  extensional act result /\ check s id = Some true /\ scoped env s /\ occurrences id s <= 1 /\ gone st = [] /\
  ~ same_outcome (exec act result num bool_of fresh fuel s st) (exec act result num bool_of fresh fuel (replace id true s) st).
Proof.
  exists act0, result0, num0, bool0, fresh0, (SWhile 1 7 (PIndex (PVar 2) 5) (SSeq (SUse 1 (PVar 3)) (SSet 5 1))), 1, [2; 3], 9, start.
  split; [exact extensional0|]. split; [reflexivity|]. split; [cbn; tauto|]. split; [repeat constructor|]. split; [reflexivity|]. vm_compute. discriminate.
Qed.
Print Assumptions while_let_index_refuted.
(* while let Some(_) = ( *x).next() {} becomes for _ in *x {}, which moves out of a reference *)
Theorem while_let_deref_refuted : exists act result num bool_of fresh s id env fuel st,
  extensional act result /\ check s id = Some false /\ scoped env s /\ occurrences id s <= 1 /\ outside_closures id s /\ gone st = [] /\
  exec act result num bool_of fresh fuel (replace id false s) st = Stuck.
Proof.
  exists act0, result0, num0, bool0, fresh0, (SWhile 1 7 (PDeref false (PVar 2)) SSkip), 1, [2], 9, start.
  split; [exact extensional0|]. split; [reflexivity|]. split; [cbn; tauto|]. split; [repeat constructor|]. split; [cbn; tauto|]. split; reflexivity.
Qed.
Print Assumptions while_let_deref_refuted.
(* f(|| while let Some(_) = x.next() {}); g(&mut x), where f takes a closure that is called once: uses of x after the closure are not seen *)
Theorem while_let_closure_refuted : exists act result num bool_of fresh s id env fuel st,
  extensional act result /\ check s id = Some false /\ scoped env s /\ occurrences id s <= 1 /\ not_deref id s /\ gone st = [] /\
  exec act result num bool_of fresh fuel (replace id false s) st = Stuck.
Proof.
  exists act0, result0, num0, bool0, fresh0, (SSeq (SOnce (SWhile 1 7 (PVar 2) SSkip)) (SUse 1 (PVar 2))), 1, [2], 9, start.
  split; [exact extensional0|]. split; [reflexivity|]. split; [cbn; tauto|]. split; [repeat constructor|]. split; [cbn; tauto|]. split; [reflexivity|]. vm_compute. reflexivity.
Qed.
Print Assumptions while_let_closure_refuted.
