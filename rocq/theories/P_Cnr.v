(* C142: collections that are never read. *)
From Coq Require Import List Bool PeanoNat.
Import ListNotations.
From Verif Require Import CnrSpec CnrModel CnrProofs.

(* Whatever a collection holds at first that the lint reports, the calls, panics and other variables are the same: as long as the methods called on it
   tell nothing of what it holds but by what they return.  fuel bounds the turns of a loop (Out). *)
Theorem never_read_partial :
  forall fn local unit_ leaves returns gives panics items id block fuel st n,
  has_no_read_access local unit_ id block = true ->
  (forall m, In m (methods id block) -> discreet gives panics items m) ->
  same id (exec fn unit_ leaves returns gives panics items fuel block st) (exec fn unit_ leaves returns gives panics items fuel block (set id n st)).
Proof.
  intros fn local unit_ leaves returns gives panics items id block fuel st n H D.
  apply andb_true_iff in H. destruct H as [_ H]. apply negb_true_iff in H.
  apply (exec_sim fn local unit_ leaves returns gives panics items id fuel block H D).
  split; [reflexivity|]. intros x N. cbn. destruct (Nat.eqb x id) eqn:E; [apply Nat.eqb_eq in E; contradiction|reflexivity].
Qed.
Print Assumptions never_read_partial.

Definition no_fn (f n : nat) (t : list (nat * nat)) : nat := 0.
(* What is missing: what the methods tell otherwise.
   v.remove(0); panics if v is empty *)
Theorem never_read_panic_refuted :
  exists local unit_ leaves returns gives panics items id block st n,
    has_no_read_access local unit_ id block = true /\
    ~ same id (exec no_fn unit_ leaves returns gives panics items 5 block st) (exec no_fn unit_ leaves returns gives panics items 5 block (set id n st)).
Proof.
  exists (fun _ => false), (fun _ => false), (fun _ c _ => c - 1), (fun _ c _ => c), (fun _ _ a => a), (fun _ c _ => Nat.eqb c 0), (fun _ _ => []), 0,
    (SExpr (EMethod 0 1 (ELit 0))), {| vars := fun _ => 0; trace := [] |}, 3.
  split; [reflexivity|]. cbn. auto.
Qed.
Print Assumptions never_read_panic_refuted.
(* v.clone_into(&mut w); f(w): the collection is read through an argument *)
Theorem never_read_argument_refuted :
  exists local unit_ leaves returns gives panics items id block st n,
    has_no_read_access local unit_ id block = true /\ (forall m c a, panics m c a = false) /\
    ~ same id (exec no_fn unit_ leaves returns gives panics items 5 block st) (exec no_fn unit_ leaves returns gives panics items 5 block (set id n st)).
Proof.
  exists (fun _ => false), (fun _ => true), (fun _ c _ => c), (fun _ c _ => c), (fun _ c a => c), (fun _ _ _ => false), (fun _ _ => []), 0,
    (SSeq (SExpr (EMethodMut 0 1 1)) (SExpr (ECall 2 (EVar 1)))), {| vars := fun _ => 0; trace := [] |}, 3.
  split; [reflexivity|]. split; [reflexivity|]. cbn. intros [T _]. discriminate T.
Qed.
Print Assumptions never_read_argument_refuted.
(* v.resize_with(5, || f()): how often f is called depends on the length of v *)
Theorem never_read_closure_refuted :
  exists local unit_ leaves returns gives panics items id block st n,
    has_no_read_access local unit_ id block = true /\ (forall m c a, panics m c a = false) /\ (forall m c a, gives m c a = a) /\
    ~ same id (exec no_fn unit_ leaves returns gives panics items 5 block st) (exec no_fn unit_ leaves returns gives panics items 5 block (set id n st)).
Proof.
  exists (fun _ => false), (fun _ => true), (fun _ c _ => c), (fun _ c _ => c), (fun _ c a => a), (fun _ _ _ => false), (fun _ c => seq 0 (5 - c)), 0,
    (SFn None 0 1 (SExpr (ECall 2 (ELit 1)))), {| vars := fun _ => 0; trace := [] |}, 3.
  split; [reflexivity|]. split; [reflexivity|]. split; [reflexivity|]. cbn. intros [T _]. discriminate T.
Qed.
Print Assumptions never_read_closure_refuted.

(* while f(1) { v.push(g(2)); if w.len() { let u = v.clear(); } else { v = v; h(w) } } *)
Definition ex : stmt :=
  SWhile (ECall 1 (ELit 1))
    (SSeq (SExpr (EMethod 0 1 (ECall 2 (ELit 2)))) (SIf (EMethod 5 3 (ELit 0)) (SLet 6 (EMethod 0 2 (ELit 0))) (SSeq (SAssign 0 (EVar 0)) (SExpr (ECall 4 (EVar 5)))))).
Definition unit_ex (m : nat) : bool := Nat.eqb m 2.
Example C142_nontrivial :
  has_no_read_access (fun _ => false) unit_ex 0 ex = true /\
  methods 0 ex = [1; 2] /\
  discreet (fun _ _ a => a) (fun _ _ _ => false) (fun _ _ => []) 1 /\
  (exists st, exec (fun f _ t => if Nat.ltb (length t) 5 then 1 else 0) unit_ex (fun _ c a => c + a) (fun _ c _ => c) (fun _ _ a => a) (fun _ _ _ => false) (fun _ _ => []) 9 ex
      {| vars := fun _ => 0; trace := [] |} = Norm st /\ length (trace st) = 7 /\ vars st 0 = 2) /\
  (* let x = v.pop(); v.push(1) of a trait of this crate; v += 1; v in a closure *)
  has_no_read_access (fun _ => false) unit_ex 0 (SLet 6 (EMethod 0 1 (ELit 0))) = false /\
  has_no_read_access (fun _ => true) unit_ex 0 (SExpr (EMethod 0 1 (ELit 0))) = false /\
  has_no_read_access (fun _ => false) unit_ex 0 (SAddAssign 0 (ELit 0)) = false /\
  has_no_read_access (fun _ => false) unit_ex 0 (SFn1 0 1 7 SSkip) = false /\
  has_no_read_access (fun _ => false) unit_ex 0 (SExpr (ELit 3)) = false.
Proof. repeat split; try reflexivity. eexists. repeat split. Qed.
