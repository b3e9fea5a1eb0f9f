(** C57: compound constants. *)
From Coq Require Import SpecFloat.
From Verif Require Import StructConst StructSpec StructProofs.
Open Scope Z_scope.

(** An answer of [partial_cmp] is the one Rust's comparison of the values gives; with both sides written the same way there is always an answer
    if Rust has one; the internal "not an int type" error cannot happen.  Missing: empty repetitions `[x; 0]` (see below). *)
Theorem struct_cmp_agrees_partial p a b t x y :
  denote p a t = Some x -> denote p b t = Some y -> no_empty_repeat a -> no_empty_repeat b ->
  exists r, pcmp p a b t = Some r /\ (alike a b -> r = rust_cmp x y) /\ (r = None \/ r = rust_cmp x y).
Proof. exact (pcmp_agrees p a b t x y). Qed.
Print Assumptions struct_cmp_agrees_partial.
(** `[1; 0]` and `[2; 0]` are both the empty array, but the first is said to be less. *)
Theorem struct_cmp_empty_refuted : exists a b t x y, denote P64 a t = Some x /\ denote P64 b t = Some y /\
  rust_cmp x y = Some Eq /\ pcmp P64 a b t = Some (Some Lt).
Proof. exists (SRepeat (SInt 1) 0), (SRepeat (SInt 2) 0), (TyArray (TyInt u8)), (RSeq []), (RSeq []). vm_compute. auto. Qed.
Print Assumptions struct_cmp_empty_refuted.

(** Constants compare equal exactly when they are the same and contain no NaN (nor a constant that is never compared): so they stand for the same value ... *)
Theorem struct_eq_exact a b : ceq a b = true <-> a = b /\ self_equal a.
Proof. exact (ceq_iff a b). Qed.
Print Assumptions struct_eq_exact.
Theorem struct_eq_value p a b t : ceq a b = true -> denote p a t = denote p b t.
Proof. intros H. apply ceq_iff in H as [-> _]. reflexivity. Qed.
Print Assumptions struct_eq_value.
(** ... and hash alike, as hash maps need. *)
Theorem struct_eq_hash fbits a b : ceq a b = true -> hash fbits a = hash fbits b.
Proof. intros H. apply ceq_iff in H as [-> _]. reflexivity. Qed.
Print Assumptions struct_eq_hash.
(** Equality is symmetric and transitive. *)
Theorem struct_eq_per a b c : (ceq a b = true -> ceq b a = true) /\ (ceq a b = true -> ceq b c = true -> ceq a c = true).
Proof. rewrite !ceq_iff. split; [intros [-> ?]; auto|intros [-> ?] [-> ?]; auto]. Qed.
Print Assumptions struct_eq_per.

(** The smallest and largest constant of a type are below and above every constant of the type. *)
Theorem numeric_extremes p t z : inr p t z = true -> exists mn mx, numeric_min p (TyInt t) = Some mn /\ numeric_max p (TyInt t) = Some mx
  /\ pcmp p mn (SInt (to_bits p t z)) (TyInt t) = Some (Some (imin p t ?= z)) /\ pcmp p mx (SInt (to_bits p t z)) (TyInt t) = Some (Some (imax p t ?= z)).
Proof. exact (extremes_order p t z). Qed.
Print Assumptions numeric_extremes.
Theorem is_numeric_max_exact p t z : inr p t z = true -> (is_numeric_max p (SInt (to_bits p t z)) (TyInt t) = true <-> z = imax p t).
Proof. exact (is_max_iff p t z). Qed.
Print Assumptions is_numeric_max_exact.
(** The test for the smallest value works for unsigned types and i128 ... *)
Theorem is_numeric_min_partial p t z : ity_signed t = false \/ bits p t = 128 -> inr p t z = true ->
  (is_numeric_min p (SInt (to_bits p t z)) (TyInt t) = true <-> z = imin p t).
Proof. exact (is_min_iff p t z). Qed.
Print Assumptions is_numeric_min_partial.
(** ... but is false for every constant of all other signed types, since constants are stored without sign extension. *)
Theorem is_numeric_min_refuted : exists t z, inr P64 t z = true /\ z = imin P64 t /\ is_numeric_min P64 (SInt (to_bits P64 t z)) (TyInt t) = false.
Proof. exists i8, (-128). vm_compute. auto. Qed.
Print Assumptions is_numeric_min_refuted.
Theorem is_numeric_min_never p t z : ity_signed t = true -> bits p t < 128 -> is_numeric_min p (SInt (to_bits p t z)) (TyInt t) = false.
Proof. exact (is_min_never p t z). Qed.
Print Assumptions is_numeric_min_never.
(** Likewise the smallest constant is not equal to the constant evaluation gives for the same value. *)
Theorem numeric_min_eq_refuted : exists t mn, numeric_min P64 (TyInt t) = Some mn /\ ceq mn (SInt (to_bits P64 t (imin P64 t))) = false.
Proof. exists i8. eexists. split; [reflexivity|vm_compute; reflexivity]. Qed.
Print Assumptions numeric_min_eq_refuted.

Example C57_nontrivial :
  let a := STuple [SVec [SInt 255; SInt 1]; SRef (SRepeat (SStr [97]) 2)] in
  let b := STuple [SVec [SInt 255; SInt 1; SInt 0]; SRef (SRepeat (SStr [98]) 2)] in
  let t := TyTuple [TySlice (TyInt i8); TyRef (TyArray TyStr)] in
  denote P64 a t = Some (RTup [RSeq [RInt (-1); RInt 1]; RRef (RSeq [RStr [97]; RStr [97]])]) /\
  denote P64 b t = Some (RTup [RSeq [RInt (-1); RInt 1; RInt 0]; RRef (RSeq [RStr [98]; RStr [98]])]) /\
  no_empty_repeat a /\ no_empty_repeat b /\ alike a b /\ pcmp P64 a b t = Some (Some Lt) /\ ceq a a = true /\ ceq a b = false.
Proof. vm_compute. repeat split; auto. Qed.
