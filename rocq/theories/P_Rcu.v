(* C132: a parameter that only_used_in_recursion reports makes no difference to what a function does. *)
From Coq Require Import List ZArith Bool PeanoNat.
Import ListNotations.
From Verif Require Import RcuSpec RcuModel RcuProofs RcuProofs2.

(* The full statement: calls of a function that differ only in arguments for reported parameters have the same result,
   call the same functions, and panic alike or not at all.
   Not so in general: see the cases below.  Proved where no built-in operator panics and no reported parameter decides
   whether the right side of && or || is evaluated. *)
Theorem only_used_in_recursion_partial op un calls ps body :
  (forall o a b, op o a b <> None) -> (forall o a, un o a <> None) ->
  (forall i x b, nth_error ps i = Some (x, b) -> reported ps body i = true -> ~ In x (lazy_on body)) ->
  forall n vs1 vs2 h, length vs1 = length vs2 ->
  (forall i, reported ps body i = false -> nth_error vs1 i = nth_error vs2 i) ->
  call op un calls (map fst ps) body n vs1 h = call op un calls (map fst ps) body n vs2 h.
Proof.
  intros Op Un Lz n vs1 vs2 h Len E.
  apply (call_same op un calls (map fst ps) body Op Un (names_reported ps body)); [split|exact Len|].
  - apply reported_safe.
  - intros x H I. apply names_reported_in in I as (i & b & Ei & R). exact (Lz i x b Ei R H).
  - intros i p Hp N. apply E. destruct (reported ps body i) eqn:R; [|reflexivity]. exfalso. apply N.
    rewrite nth_error_map in Hp. destruct (nth_error ps i) as [[q b]|] eqn:Eq; [|discriminate]. injection Hp as <-.
    apply names_reported_in. exists i, b. auto.
Qed.
Print Assumptions only_used_in_recursion_partial.

(* fn f(x: bool, n: u32) { x && g(); if n > 0 { f(x, n - 1); } } *)
Definition op_ (o : nat) (a b : Z) : option Z :=
  match o with
  | 0 => Some (a + b)%Z
  | 1 => if (a <? b)%Z then None else Some (a - b)%Z    (* subtraction of unsigned integers *)
  | _ => Some (if (a >? b)%Z then 1%Z else 0%Z)
  end.
Definition sub_ (o : nat) (a b : Z) : option Z := match o with 0 => Some (a + b)%Z | 1 => Some (a - b)%Z | _ => Some (if (a >? b)%Z then 1%Z else 0%Z) end.
Definition un_ (o : nat) (a : Z) : option Z := Some a.
Definition calls_ (f : nat) (a : Z) (h : trace) : Z := Z.of_nat (length h).
Theorem only_used_in_recursion_lazy_refuted : exists ps body n vs1 vs2,
  (forall o a b, sub_ o a b <> None) /\ length vs1 = length vs2 /\
  (forall i, reported ps body i = false -> nth_error vs1 i = nth_error vs2 i) /\
  call sub_ un_ calls_ (map fst ps) body n vs1 [] <> call sub_ un_ calls_ (map fst ps) body n vs2 [].
Proof.
  exists [(0, true); (1, true)],
    (ESeq (ELazy true (EVar 0) (ECall 7 (ELit 0))) (EWhen (EBin 2 (EVar 1) (ELit 0)) (ESeq (ERec [EVar 0; EBin 1 (EVar 1) (ELit 1)]) (ELit 0)))),
    20, [0; 1]%Z, [1; 1]%Z.
  split; [intros [|[|o]] a b; discriminate|]. split; [reflexivity|]. split; [|vm_compute; discriminate].
  intros [|[|i]]; [vm_compute; discriminate|reflexivity|destruct i; reflexivity].
Qed.
Print Assumptions only_used_in_recursion_lazy_refuted.
(* fn f(x: u32, n: u32) { if n > 0 { f(x - 1, n - 1); } } panics if x is 0. *)
Theorem only_used_in_recursion_panic_refuted : exists ps body n vs1 vs2,
  lazy_on body = [] /\ length vs1 = length vs2 /\
  (forall i, reported ps body i = false -> nth_error vs1 i = nth_error vs2 i) /\
  call op_ un_ calls_ (map fst ps) body n vs1 [] <> call op_ un_ calls_ (map fst ps) body n vs2 [].
Proof.
  exists [(0, true); (1, true)],
    (EWhen (EBin 2 (EVar 1) (ELit 0)) (ESeq (ERec [EBin 1 (EVar 0) (ELit 1); EBin 1 (EVar 1) (ELit 1)]) (ELit 0))),
    20, [0; 1]%Z, [1; 1]%Z.
  split; [reflexivity|]. split; [reflexivity|]. split; [|vm_compute; discriminate].
  intros [|[|i]]; [vm_compute; discriminate|reflexivity|destruct i; reflexivity].
Qed.
Print Assumptions only_used_in_recursion_panic_refuted.

(* fn f(a, b, c, d, n) { a += 1; c = c * 2; if n > 0 { g(d); f(b + 1, a, c, n, n - 1) } else { 0 } }:
   a and b are only swapped, c is only passed on; d is used *)
Example C132_nontrivial :
  let ps := [(0, true); (1, true); (2, true); (3, true); (4, true)] in
  let body := ESeq (EAssignOp 0 0 (ELit 1)) (ESeq (EAssign 2 (EBin 0 (EVar 2) (EVar 2)))
    (EIf (EBin 2 (EVar 4) (ELit 0))
       (ESeq (ECall 7 (EVar 3)) (ERec [EBin 0 (EVar 1) (ELit 1); EVar 0; EVar 2; EVar 4; EBin 1 (EVar 4) (ELit 1)]))
       (ELit 0))) in
  map (reported ps body) (seq 0 5) = [true; true; true; false; false] /\ lazy_on body = [] /\
  call sub_ un_ calls_ (map fst ps) body 20 [1; 2; 3; 4; 2]%Z [] = Done 0 [(7, 2%Z); (7, 4%Z)].
Proof. repeat split; vm_compute; reflexivity. Qed.
(* fn f(a, b, c) { g(c); f(b, c, a) }: a reaches b and b reaches c, which is used *)
Example C132_cycle :
  map (reported [(0, true); (1, true); (2, true)] (ESeq (ECall 7 (EVar 2)) (ERec [EVar 1; EVar 2; EVar 0]))) (seq 0 3) = [false; false; false].
Proof. vm_compute. reflexivity. Qed.
