(* C130: branches_sharing_code moves shared code out of the branches without changing what the program does. *)
From Coq Require Import List ZArith Bool PeanoNat.
Import ListNotations.
From Verif Require Import BshSpec BshModel BshProofs BshProofs2.

(* The full statement: whenever statements are said to be the same at the start or at the end of all branches, the
   chain of if does the same with these in front of it or after it.
   Not so in general: see the cases below.  Proved where the conditions do nothing but compute, do not mention a
   name that the moved declarations declare, and no statement of a branch is counted both at its start and at its end. *)
Theorem branches_sharing_code_partial op calls changes cs bs r : check cs bs = Some r -> length bs = S (length cs) ->
  forallb pure cs = true ->
  (forall x, In x (flat_map names cs) -> ~ In x (bound (start_ r))) ->
  (forall b, In b bs ->
     length (start_ r) + match end_ r with Some (l, _) => length l | None => 0 end <= length (fst b)) ->
  forall m h,
    run_around op calls changes (start_ r) (run_if op calls changes cs (blocks_ r)) (end_ r) m h =
    run_if op calls changes cs bs m h.
Proof. exact (check_sound op calls changes cs bs r). Qed.
Print Assumptions branches_sharing_code_partial.

(* Only code at the end is moved: the conditions may have effects. *)
Theorem branches_sharing_end_partial op calls changes cs bs r : check cs bs = Some r -> length bs = S (length cs) ->
  start_ r = [] ->
  forall m h,
    run_around op calls changes [] (run_if op calls changes cs (blocks_ r)) (end_ r) m h =
    run_if op calls changes cs bs m h.
Proof. exact (check_end_sound op calls changes cs bs r). Qed.
Print Assumptions branches_sharing_end_partial.

(* The expression at the end of all arms of a match *)
Theorem match_sharing_code op calls changes e arms arms' t : check_match arms = Some (arms', t) ->
  forall m h,
    run_around op calls changes [] (run_match op calls changes e arms') (Some ([], Some t)) m h =
    run_match op calls changes e arms m h.
Proof. exact (match_sound op calls changes e arms arms' t). Qed.
Print Assumptions match_sharing_code.

Definition op_ (o : nat) (a b : Z) : Z := if Nat.eqb o 0 then (a + b)%Z else if (a >? b)%Z then 1%Z else 0%Z.
(* Calls count how often anything has been called *)
Definition calls_ (f : nat) (a : Z) (h : trace) : Z := Z.of_nat (length h).
Definition changes_ (f : nat) (a : Z) (h : trace) : Z := (a + 1)%Z.

(* if f() { g(); h(); } else { g(); } *)
Theorem branches_sharing_condition_refuted : exists cs bs r m h,
  check cs bs = Some r /\ length bs = S (length cs) /\
  run_around op_ calls_ changes_ (start_ r) (run_if op_ calls_ changes_ cs (blocks_ r)) (end_ r) m h <>
  run_if op_ calls_ changes_ cs bs m h.
Proof.
  exists [ECall 0 (ELit 0)], [([SExpr (ECall 1 (ELit 0)); SExpr (ECall 2 (ELit 0))], None); ([SExpr (ECall 1 (ELit 0))], None)].
  eexists _, [], []. split; [vm_compute; reflexivity|]. split; [reflexivity|]. vm_compute. discriminate.
Qed.
Print Assumptions branches_sharing_condition_refuted.
(* if x > 0 { let x = 0; f(x); .. } else { let x = 0; f(x); }: the x of the condition becomes the moved one *)
Theorem branches_sharing_name_refuted : exists cs bs r m h,
  check cs bs = Some r /\ length bs = S (length cs) /\ forallb pure cs = true /\
  run_around op_ calls_ changes_ (start_ r) (run_if op_ calls_ changes_ cs (blocks_ r)) (end_ r) m h <>
  run_if op_ calls_ changes_ cs bs m h.
Proof.
  exists [EOp 1 (EVar 0) (ELit 0)], [([SLet 0 (ELit 0); SExpr (ECall 1 (EVar 0))], None); ([SLet 0 (ELit 0); SExpr (ECall 2 (EVar 0))], None)].
  eexists _, [(0, 5%Z)], []. split; [vm_compute; reflexivity|]. split; [reflexivity|]. split; [reflexivity|]. vm_compute. discriminate.
Qed.
Print Assumptions branches_sharing_name_refuted.
(* if c { f(); g(); f() } else { f() }: the only statement of the second is counted as its start and as its end *)
Theorem branches_sharing_overlap_refuted : exists cs bs r m h,
  check cs bs = Some r /\ length bs = S (length cs) /\ forallb pure cs = true /\
  (forall x, In x (flat_map names cs) -> ~ In x (bound (start_ r))) /\
  run_around op_ calls_ changes_ (start_ r) (run_if op_ calls_ changes_ cs (blocks_ r)) (end_ r) m h <>
  run_if op_ calls_ changes_ cs bs m h.
Proof.
  exists [EVar 0], [([SExpr (ECall 1 (ELit 0)); SExpr (ECall 2 (ELit 0)); SExpr (ECall 1 (ELit 0))], None); ([SExpr (ECall 1 (ELit 0))], None)].
  eexists _, [(0, 0%Z)], []. split; [vm_compute; reflexivity|]. split; [reflexivity|]. split; [reflexivity|].
  split; [intros x _ []|]. vm_compute. discriminate.
Qed.
Print Assumptions branches_sharing_overlap_refuted.

(* if x { let y = f(1); let z = 2; g(y); let z = 3; y = h(z); y + x } else { let y = f(1); let z = 3; y = h(z); y + x } *)
Example C130_nontrivial :
  let cs := [EVar 0] in
  let bs := [([SLet 1 (ECall 0 (ELit 1)); SLet 2 (ELit 2); SExpr (ECall 1 (EVar 1)); SLet 2 (ELit 3); SSet 1 (ECall 2 (EVar 2))],
              Some (EOp 0 (EVar 1) (EVar 0)));
             ([SLet 1 (ECall 0 (ELit 1)); SLet 2 (ELit 3); SSet 1 (ECall 2 (EVar 2))], Some (EOp 0 (EVar 1) (EVar 0)))] in
  check cs bs = Some {| start_ := [SLet 1 (ECall 0 (ELit 1))];
                        blocks_ := [([SLet 2 (ELit 2); SExpr (ECall 1 (EVar 1))], None); ([], None)];
                        end_ := Some ([SLet 2 (ELit 3); SSet 1 (ECall 2 (EVar 2))], Some (EOp 0 (EVar 1) (EVar 0))) |} /\
  forallb pure cs = true /\ (forall x, In x (flat_map names cs) -> ~ In x [1]) /\ (forall b, In b bs -> 3 <= length (fst b)).
Proof.
  split; [vm_compute; reflexivity|]. split; [reflexivity|]. split.
  - cbn. intros x [<-|[]] [E|[]]. discriminate E.
  - cbn. intros b [<-|[<-|[]]]; cbn; repeat constructor.
Qed.
(* A use of a variable of the branch keeps the end in place. *)
Example C130_own : check [ECall 0 (ELit 1)] [([SLet 1 (ELit 1); SExpr (ECall 1 (EVar 1)); SExpr (ECall 2 (ELit 0))], None);
                                  ([SLet 1 (ELit 2); SExpr (ECall 1 (EVar 1)); SExpr (ECall 2 (ELit 0))], None)] =
  Some {| start_ := [];
          blocks_ := [([SLet 1 (ELit 1); SExpr (ECall 1 (EVar 1))], None); ([SLet 1 (ELit 2); SExpr (ECall 1 (EVar 1))], None)];
          end_ := Some ([SExpr (ECall 2 (ELit 0))], None) |}.
Proof. vm_compute. reflexivity. Qed.
(* match f(1) { 0 => { x = 1; h(x) }, y => { g(y); h(x) } } *)
Example C130_nontrivial_match :
  check_match [(9, ([SSet 0 (ELit 1)], Some (ECall 2 (EVar 0)))); (1, ([SExpr (ECall 1 (EVar 1))], Some (ECall 2 (EVar 0))))] =
  Some ([(9, ([SSet 0 (ELit 1)], None)); (1, ([SExpr (ECall 1 (EVar 1))], None))], ECall 2 (EVar 0)).
Proof. vm_compute. reflexivity. Qed.
