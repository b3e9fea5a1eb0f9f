(* C133: what the lint about loops over a range that index a sequence suggests *)
From Coq Require Import List ZArith Bool PeanoNat.
Import ListNotations.
From Verif Require Import RngSpec RngModel RngProofs RngProofs2.
Local Open Scope Z_scope.

(* What is suggested, with the item in place of the element in the body *)
Definition suggested (op : nat -> Z -> Z -> Z) (calls : nat -> Z -> trace -> Z) (i : name) (f : found) (body : stmt) (st : state) : option state :=
  for_items op calls (if enumerate f then Some i else None) (item_of f) (adaptors f) (with_item i (item_of f) body) st.

(* Same calls, contents, variables and panics, if the range ends within the sequence, the bounds have no effect, the variable
   of the loop and what selects the sequence are not assigned, and a length that is compared is the length of the sequence.
   Partial: each of these is needed, see below. *)
Theorem needless_range_loop_partial : forall op calls array_len i start end_ closed body f st l u v,
  check array_len i start end_ closed body = Some f ->
  no_item body = true ->
  pure start = true -> pure end_ = true ->
  ~ In i (assigned body) ->
  (forall w k, item_of f = SRow w (KVar k) -> ~ In k (assigned body)) ->
  (forall w, end_ = ELen w \/ end_ = ERows w -> w = sq_name (item_of f) -> item_of f = SArr w /\ end_ = ELen w) ->
  locate (item_of f) st = Some l ->
  (forall n, array_len (item_of f) = Some n -> n = Z.of_nat (length (content l st))) ->
  eval op calls None start st = Some (u, st) -> eval op calls None end_ st = Some (v, st) ->
  0 <= u -> (if closed then v + 1 else v) <= Z.of_nat (length (content l st)) ->
  same_but i (for_range op calls i start end_ closed body st) (suggested op calls i f body st).
Proof. exact range_loop_items. Qed.
Print Assumptions needless_range_loop_partial.

Definition op0 (o : nat) (a b : Z) : Z := a.
Definition calls0 (f : nat) (a : Z) (t : trace) : Z := a.
Definition state0 : state :=
  {| vars := fun _ => 0; arrs := fun v => if Nat.eqb v 1 then [3; 4; 5; 6] else [8];
     mats := fun _ => [[1; 2]; [7; 9; 10]]; calls_made := [] |}.
Definition none (s : sq) : option Z := None.

(* for i in 1..1 + 2 { g(v[i] + i); v[i] = 7 } *)
Definition body0 : stmt := SSeq (SExpr (ECall 0%nat (EAdd (EIdx (SArr 1%nat) (EVar 0%nat)) (EVar 0%nat)))) (SStore (SArr 1%nat) (EVar 0%nat) (ELit 7)).
Example C133_nontrivial :
  exists f, check none 0%nat (ELit 1) (EAdd (ELit 1) (ELit 2)) false body0 = Some f /\
    adaptors f = [Skip (ELit 1); Take (ELit 2)] /\ enumerate f = true /\
    match suggested op0 calls0 0%nat f body0 state0 with
    | Some st => calls_made st = [(0%nat, 7); (0%nat, 5)] /\ arrs st 1%nat = [3; 7; 7; 6] | None => False
    end.
Proof. eexists. split; [vm_compute; reflexivity|]. split; [reflexivity|]. split; [reflexivity|]. vm_compute. auto. Qed.
(* for i in 0..=1 { g(m[k][i]) }, and for i in 0..v.len() { g(v[i]) } *)
Example C133_row :
  exists f, check none 0%nat (ELit 0) (ELit 1) true (SExpr (ECall 0%nat (EIdx (SRow 5%nat (KVar 2%nat)) (EVar 0%nat)))) = Some f /\
    item_of f = SRow 5%nat (KVar 2%nat) /\ adaptors f = [TakeOneMore (ELit 1)] /\ enumerate f = false.
Proof. eexists. split; [vm_compute; reflexivity|]. repeat split. Qed.
Example C133_len :
  exists f, check none 0%nat (ELit 0) (ELen 1%nat) false (SExpr (ECall 0%nat (EIdx (SArr 1%nat) (EVar 0%nat)))) = Some f /\
    adaptors f = [] /\ enumerate f = false.
Proof. eexists. split; [vm_compute; reflexivity|]. split; reflexivity. Qed.
(* v[i + 1], v.len() in the body: silent *)
Example C133_silent :
  check none 0%nat (ELit 0) (ELit 3) false (SExpr (EIdx (SArr 1%nat) (EAdd (EVar 0%nat) (ELit 1)))) = None /\
  check none 0%nat (ELit 0) (ELit 3) false (SExpr (EAdd (EIdx (SArr 1%nat) (EVar 0%nat)) (ELen 1%nat))) = None.
Proof. split; vm_compute; reflexivity. Qed.

Ltac differ := intros H; vm_compute in H; first [contradiction | destruct H as (_ & _ & _ & H); discriminate H].
Definition plain (i : name) (start end_ : expr) (body : stmt) : Prop :=
  no_item body = true /\ pure start = true /\ pure end_ = true /\ ~ In i (assigned body).

(* for i in 0..3 { g(0); if c { v[i]; } } where v has one element: there is one round, not three *)
Theorem needless_range_loop_short_refuted : exists op calls i start end_ body f st,
  check none i start end_ false body = Some f /\ plain i start end_ body /\
  for_range op calls i start end_ false body st <> None /\
  ~ same_but i (for_range op calls i start end_ false body st) (suggested op calls i f body st).
Proof.
  exists op0, calls0, 0%nat, (ELit 0), (ELit 3),
    (SSeq (SExpr (ECall 0%nat (ELit 0))) (SIf (EVar 9%nat) (SExpr (EIdx (SArr 2%nat) (EVar 0%nat))) SSkip)). eexists. exists state0.
  split; [vm_compute; reflexivity|]. split; [repeat split; cbn; tauto|]. split; [vm_compute; discriminate|differ].
Qed.
Print Assumptions needless_range_loop_short_refuted.

(* for i in 0..=v.len() { g(v[i]) }: the panic is lost *)
Theorem needless_range_loop_inclusive_refuted : exists op calls i start end_ body f st,
  check none i start end_ true body = Some f /\ plain i start end_ body /\
  for_range op calls i start end_ true body st = None /\ suggested op calls i f body st <> None.
Proof.
  exists op0, calls0, 0%nat, (ELit 0), (ELen 1%nat), (SExpr (ECall 0%nat (EIdx (SArr 1%nat) (EVar 0%nat)))). eexists. exists state0.
  split; [vm_compute; reflexivity|]. split; [repeat split; cbn; tauto|]. split; [vm_compute; reflexivity|vm_compute; discriminate].
Qed.
Print Assumptions needless_range_loop_inclusive_refuted.

(* for i in 0..m.len() { g(m[1][i]) }: the length is that of m, the loop is over all of m[1] *)
Theorem needless_range_loop_rows_refuted : exists op calls i start v body f st l n,
  check none i start (ERows v) false body = Some f /\ plain i start (ERows v) body /\
  locate (item_of f) st = Some l /\ eval op calls None (ERows v) st = Some (n, st) /\ n <= Z.of_nat (length (content l st)) /\
  ~ same_but i (for_range op calls i start (ERows v) false body st) (suggested op calls i f body st).
Proof.
  exists op0, calls0, 0%nat, (ELit 0), 5%nat, (SExpr (ECall 0%nat (EIdx (SRow 5%nat (KLit 1)) (EVar 0%nat)))). eexists. exists state0. do 2 eexists.
  split; [vm_compute; reflexivity|]. split; [repeat split; cbn; tauto|]. split; [vm_compute; reflexivity|].
  split; [vm_compute; reflexivity|]. split; [vm_compute; discriminate|differ].
Qed.
Print Assumptions needless_range_loop_rows_refuted.

(* for mut i in 0..1 { i = i + 1; g(v[i]) } *)
Theorem needless_range_loop_assigned_refuted : exists op calls i start end_ body f st,
  check none i start end_ false body = Some f /\ no_item body = true /\ pure start = true /\ pure end_ = true /\
  ~ same_but i (for_range op calls i start end_ false body st) (suggested op calls i f body st).
Proof.
  exists op0, calls0, 0%nat, (ELit 0), (ELit 1),
    (SSeq (SAssign 0%nat (EAdd (EVar 0%nat) (ELit 1))) (SExpr (ECall 0%nat (EIdx (SArr 1%nat) (EVar 0%nat))))). eexists. exists state0.
  split; [vm_compute; reflexivity|]. split; [reflexivity|]. split; [reflexivity|]. split; [reflexivity|differ].
Qed.
Print Assumptions needless_range_loop_assigned_refuted.

(* for i in 0..2 { g(m[k][i]); k = 1 } *)
Theorem needless_range_loop_selected_refuted : exists op calls i start end_ body f st,
  check none i start end_ false body = Some f /\ plain i start end_ body /\
  ~ same_but i (for_range op calls i start end_ false body st) (suggested op calls i f body st).
Proof.
  exists op0, calls0, 0%nat, (ELit 0), (ELit 2),
    (SSeq (SExpr (ECall 0%nat (EIdx (SRow 5%nat (KVar 2%nat)) (EVar 0%nat)))) (SAssign 2%nat (ELit 1))). eexists. exists state0.
  split; [vm_compute; reflexivity|]. split; [repeat split; cbn; intros [H|[]]; discriminate|differ].
Qed.
Print Assumptions needless_range_loop_selected_refuted.

(* for i in f(1)..g(2) { h(v[i]) }: g is called before f *)
Theorem needless_range_loop_order_refuted : exists op calls i start end_ body f st,
  check none i start end_ false body = Some f /\ no_item body = true /\ ~ In i (assigned body) /\
  ~ same_but i (for_range op calls i start end_ false body st) (suggested op calls i f body st).
Proof.
  exists op0, calls0, 0%nat, (ECall 1%nat (ELit 1)), (ECall 2%nat (ELit 2)), (SExpr (ECall 0%nat (EIdx (SArr 1%nat) (EVar 0%nat)))). eexists. exists state0.
  split; [vm_compute; reflexivity|]. split; [reflexivity|]. split; [cbn; tauto|differ].
Qed.
Print Assumptions needless_range_loop_order_refuted.
