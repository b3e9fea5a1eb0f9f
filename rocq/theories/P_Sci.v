(* C145: inserting what a set was asked for *)
From Coq Require Import List Bool PeanoNat.
Import ListNotations.
From Verif Require Import SciSpec SciModel SciProofs.

(* Where an insert is reported, it tells no more than contains() has told: whenever it runs, the key is new just if the set did not
   contain it; missing: inserts in loops and closures, keys that are assigned, structs that hold the set and are borrowed. *)
Theorem set_insert_partial :
  forall change r k t n s l u b,
  once n t = true -> no_assign k t = true -> no_owner r t = true -> times n t <= 1 ->
  reported r k t = Some n -> run change t s l u -> In (n, b) l -> b = negb (sets s r (keys s k)).
Proof.
  intros change r k t n s l u b W A O T R H I. unfold reported in R.
  destruct (visit r k t) as [|o] eqn:V; [discriminate|]. subst. eapply found_first; eauto.
Qed.
Print Assumptions set_insert_partial.
(* A loop before it, and other sets and keys changed *)
Example C145_nontrivial :
  let t := TSeq (TLoop (TChange 0 [2])) (TIf (TOther 1) (TSeq (TAssign 6 1) (TInsert 10 [1; 3] 5)) (TInsert 11 [1; 3] 5)) in
  let s := {| sets := fun _ _ => false; keys := fun _ => 4 |} in
  once 10 t = true /\ no_assign 5 t = true /\ no_owner [1; 3] t = true /\ times 10 t <= 1 /\ reported [1; 3] 5 t = Some 10 /\
  exists l u, run (fun _ p => p) t s l u /\ In (10, true) l.
Proof.
  cbv zeta. split; [reflexivity|]. split; [reflexivity|]. split; [reflexivity|]. split; [cbn; auto|]. split; [reflexivity|].
  do 2 eexists. split.
  - eapply RSeq; [eapply RLoop; [apply RChange|apply RLoop0]|]. eapply RThen; [apply ROther|]. eapply RSeq; [apply RAssign|]. apply RInsert.
  - cbn. left. reflexivity.
Qed.

Definition tells_nothing (r : place) (k : ident) (t : tm) : Prop :=
  forall change n s l u b, reported r k t = Some n -> run change t s l u -> In (n, b) l -> b = negb (sets s r (keys s k)).
(* if s.contains(&k) { loop { s.insert(k); s.clear() } } *)
Theorem set_insert_loop_refuted :
  exists r k t, no_assign k t = true /\ no_owner r t = true /\ (forall n, times n t <= 1) /\ ~ tells_nothing r k t.
Proof.
  exists [1], 5, (TLoop (TSeq (TInsert 10 [1] 5) (TChange 0 [1]))).
  split; [reflexivity|]. split; [reflexivity|]. split; [intros n; cbn; destruct (Nat.eqb n 10); auto|]. intros H.
  assert (E : true = negb true); [|discriminate].
  eapply (H (fun _ _ _ => false) 10 {| sets := fun _ _ => true; keys := fun _ => 4 |}); [reflexivity| |].
  - eapply RLoop; [eapply RSeq; [apply RInsert|apply RChange]|]. eapply RLoop; [eapply RSeq; [apply RInsert|apply RChange]|]. apply RLoop0.
  - right. left. reflexivity.
Qed.
Print Assumptions set_insert_loop_refuted.
(* if s.contains(&k) { k = 7; s.insert(k) } *)
Theorem set_insert_assigned_refuted :
  exists r k t, (forall n, once n t = true) /\ no_owner r t = true /\ (forall n, times n t <= 1) /\ ~ tells_nothing r k t.
Proof.
  exists [1], 5, (TSeq (TAssign 5 7) (TInsert 10 [1] 5)).
  split; [reflexivity|]. split; [reflexivity|]. split; [intros n; cbn; destruct (Nat.eqb n 10); auto|]. intros H.
  assert (E : true = negb true); [|discriminate].
  eapply (H (fun _ p => p) 10 {| sets := fun _ v => Nat.eqb v 4; keys := fun _ => 4 |}); [reflexivity| |].
  - eapply RSeq; [apply RAssign|apply RInsert].
  - left. reflexivity.
Qed.
Print Assumptions set_insert_assigned_refuted.
(* if x.s.contains(&k) { x.clear(); x.s.insert(k) } *)
Theorem set_insert_owner_refuted :
  exists r k t, (forall n, once n t = true) /\ no_assign k t = true /\ (forall n, times n t <= 1) /\ ~ tells_nothing r k t.
Proof.
  exists [1; 3], 5, (TSeq (TOwner 0 [1]) (TInsert 10 [1; 3] 5)).
  split; [reflexivity|]. split; [reflexivity|]. split; [intros n; cbn; destruct (Nat.eqb n 10); auto|]. intros H.
  assert (E : true = negb true); [|discriminate].
  eapply (H (fun _ _ _ => false) 10 {| sets := fun _ _ => true; keys := fun _ => 4 |}); [reflexivity| |].
  - eapply RSeq; [apply ROwner|apply RInsert].
  - left. reflexivity.
Qed.
Print Assumptions set_insert_owner_refuted.
