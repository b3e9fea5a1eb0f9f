(** C24: `manual_range_patterns`; C25: `match_overlapping_arm`. *)
From Coq Require Import Lia.
From Verif Require Import RustFacts PatModel PatSpec PatProofs PatProofs2.
Open Scope Z_scope.

(** The range offered for an or-pattern of any length matches exactly the same integers. *)
Theorem manual_range_same_values l r : Forall pat_ok l -> manual_range_patterns l = Some r -> forall z, matches r z <-> any_matches l z.
Proof. apply manual_range_sound. Qed.
Print Assumptions manual_range_same_values.
(** A range is offered exactly when the pattern is long enough, its literals are at most i128::MAX and
    the values it matches are all those between two integers, the greater below i128::MAX. *)
Theorem manual_range_offered_iff l : Forall pat_ok l ->
  ((exists r, manual_range_patterns l = Some r) <->
   ((3 <= length l)%nat \/ ((2 <= length l)%nat /\ exists a b k, In (PRange a b k) l)) /\ Forall small_literals l /\
   exists lo hi, lo <= hi < 2 ^ 127 - 1 /\ forall z, any_matches l z <-> lo <= z <= hi).
Proof. apply manual_range_exact. Qed.
Print Assumptions manual_range_offered_iff.

Definition n_ (n : Z) : pat_expr := PLit false n.
Example C24_nontrivial :
  manual_range_patterns [PExpr (n_ 5); PRange (n_ 1) (n_ 3) Included; PExpr (n_ 4); PExpr (PLit true 1); PExpr (n_ 0)] = Some (PRange (PLit true 1) (n_ 5) Included)
  /\ manual_range_patterns [PRange (n_ 3) (n_ 9) Excluded; PExpr (n_ 1); PExpr (n_ 2)] = Some (PRange (n_ 1) (n_ 9) Excluded)
  /\ manual_range_patterns [PExpr (n_ 1); PExpr (n_ 2); PExpr (n_ 4)] = None
  /\ Forall pat_ok [PRange (n_ 3) (n_ 9) Excluded; PExpr (n_ 1); PExpr (n_ 2)].
Proof.
  split; [vm_compute; reflexivity|]. split; [vm_compute; reflexivity|]. split; [vm_compute; reflexivity|]. unfold n_.
  repeat constructor; try (eexists; eexists; split; [reflexivity|lia]). exists 4, 3, 9. repeat split; lia.
Qed.

(** ** Overlapping arms *)

(** The two arms reported are different, neither has a guard, and some value of the type is matched by both. *)
Theorem overlapping_arms_sound p t arms i j : Forall (arm_ok p t) arms -> overlapping_arms p t arms = Some (i, j) ->
  i <> j /\ exists a b v, nth_error arms i = Some a /\ nth_error arms j = Some b /\ arm_matches p t a v /\ arm_matches p t b v.
Proof. apply overlapping_arms_correct. Qed.
Print Assumptions overlapping_arms_sound.
(** Without a report no two arms cross: of two arms that share a value, one matches all the other does. *)
Theorem overlapping_arms_complete p t arms i j a b : Forall (arm_ok p t) arms -> overlapping_arms p t arms = None ->
  nth_error arms i = Some a -> nth_error arms j = Some b ->
  ~ exists u v w, (arm_matches p t a u /\ ~ arm_matches p t b u) /\ (arm_matches p t a v /\ arm_matches p t b v) /\ (arm_matches p t b w /\ ~ arm_matches p t a w).
Proof. apply overlapping_arms_total. Qed.
Print Assumptions overlapping_arms_complete.
(** Nested ranges that begin together are reported in one order of the arms and not in the other. *)
Definition lit (n : Z) : option (option constant) := Some (Some (CInt n)).
Definition rng (a b : Z) : arm := {| pattern := ARange (lit a) (lit b) Included; guarded := false |}.
Theorem overlapping_arms_order_refuted : exists p t a b, Forall (arm_ok p t) [a; b] /\
  overlapping_arms p t [a; b] <> None /\ overlapping_arms p t [b; a] = None.
Proof.
  exists P64, u8, (rng 1 4), (rng 1 6). split; [|split; [vm_compute; discriminate|vm_compute; reflexivity]].
  repeat constructor; cbn; try lia; intros _ _; exists 2; (split; [reflexivity|]; split; [reflexivity|]; cbn; split; eexists; split; try reflexivity; lia).
Qed.
Print Assumptions overlapping_arms_order_refuted.

(** `0x80..` of an i8 pattern is -128; `..=5` begins at the least value of the type. *)
Example C25_nontrivial :
  overlapping_arms P64 u8 [rng 1 4; rng 10 20; rng 15 30] = Some (1%nat, 2%nat)
  /\ overlapping_arms P64 u8 [rng 1 4; rng 10 20; rng 12 15] = None
  /\ overlapping_arms P64 i8 [{| pattern := ARange None (lit 5) Included; guarded := false |}; {| pattern := ARange (lit 255) None Included; guarded := false |}] = Some (0%nat, 1%nat)
  /\ overlapping_arms P64 i8 [{| pattern := ARange None (lit 5) Included; guarded := false |}; {| pattern := ARange (lit 255) None Included; guarded := true |}] = None
  /\ overlapping_arms P64 u8 [{| pattern := ARange (lit 0) (lit 5) Excluded; guarded := false |}; rng 5 9] = None
  /\ Forall (arm_ok P64 u8) [rng 1 4; rng 10 20; rng 15 30].
Proof.
  do 5 (split; [vm_compute; reflexivity|]). repeat constructor; cbn; try lia; intros _ _; [exists 1|exists 10|exists 15];
    (split; [reflexivity|]; split; [reflexivity|]; cbn; split; eexists; split; try reflexivity; lia).
Qed.
