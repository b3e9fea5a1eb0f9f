(* C126: calls of unwrap after a check of the variant. *)
From Coq Require Import List ZArith Bool Arith Lia.
Import ListNotations.
From Verif Require Import UnwSpec UnwModel UnwProofs UnwProofs2 UnwProofs3.

(* In every execution of a function, of any length and with any unknown code: a call reported as panicking panics
   each time it is made, a call reported as unnecessary never does.  Partial: methods named as_mut have to be those of
   Option and Result (unwrap_as_mut_refuted); closures, patterns other than `ref mut`, overloaded dereferencing and
   unions are not modelled. *)
Theorem unwrap_verdicts_partial : forall w T G body n s,
  scoped G body -> NoDup (ids body) -> std_as_mut T body -> seen s = [] ->
  forall id panicked, In (id, panicked) (seen (snd (eval w T n body s))) ->
  (In (id, Panicking) (check_fn T body) -> panicked = true) /\
  (In (id, Unnecessary) (check_fn T body) -> panicked = false).
Proof.
  intros w T G body n s Sc N A S id b I.
  assert (K : known G [] body s) by constructor.
  destruct (run_traced w T n G body true [] s Sc A N K) as [new [E P]]. rewrite S, app_nil_r in E. rewrite E in I.
  destruct (P id b I) as [_ Q]. split; intros J; apply (Q _ J).
Qed.
Print Assumptions unwrap_verdicts_partial.

(* In `if x.f.is_some() { .. }` (is_none, is_ok, is_err) every call of unwrap, expect or unwrap_err on x.f, also
   through as_ref or as_mut, is reported, if the branch changes nothing of x and no condition in it is itself a call. *)
Theorem unwrap_reported_partial : forall T k chk r t p,
  place_of r = Some p -> tells (T p) chk -> leaves_alone (fst p) (EBlock t) -> ordinary t ->
  forall a id, In a (parts t) -> unwrapped a p id ->
  exists v, In (id, v) (check_fn T (EIf (EMeth0 k chk r) (EBlock t))).
Proof. exact direct. Qed.
Print Assumptions unwrap_reported_partial.

(* s.f.is_some() where s is a struct whose own method as_mut resets the field *)
Definition T1 (p : place) : kind := match p with (0, [0]) => KOpt | _ => KOther end.
Definition w1 : world := fun f _ _ =>
  {| ans := Some VUnit; writes := fun p => match p with (0, []) => Some (VRec [VC CNone VUnit]) | _ => None end |}.
Definition s1 : st := {| loc := fun _ => VRec [VC CSome (VInt 7)]; loans := []; tick := 0; seen := [] |}.
Definition field := EField (EVar 0) 0.
Definition body1 :=
  EIf (EMeth0 1 MIsSome field) (EBlock (ESeq (EMeth0 2 MAsMut (EVar 0)) (EMeth0 3 MUnwrap field))).

Theorem unwrap_as_mut_refuted : exists w T G body n s id,
  scoped G body /\ NoDup (ids body) /\ seen s = [] /\
  In (id, Unnecessary) (check_fn T body) /\ In (id, true) (seen (snd (eval w T n body s))).
Proof.
  exists w1, T1, [0], body1, 9, s1, 3.
  split; [cbn; tauto|]. split; [repeat constructor; cbn; intuition discriminate|].
  split; [reflexivity|]. split; vm_compute; auto.
Qed.
Print Assumptions unwrap_as_mut_refuted.

(* `if x.is_some() { if x.unwrap() { .. } }`: the call is the condition, and is not looked at *)
Definition T2 (p : place) : kind := match p with (0, []) => KOpt | _ => KOther end.
Theorem unwrap_condition_refuted : exists T k chk r t p a id,
  place_of r = Some p /\ tells (T p) chk /\ leaves_alone (fst p) (EBlock t) /\
  In a (parts t) /\ unwrapped a p id /\
  forall v, ~ In (id, v) (check_fn T (EIf (EMeth0 k chk r) (EBlock t))).
Proof.
  exists T2, 1, MIsSome, (EVar 0), (EIf (EMeth0 2 MUnwrap (EVar 0)) (EBlock (EVal VUnit))), (0, []),
    (EMeth0 2 MUnwrap (EVar 0)), 2.
  split; [reflexivity|]. split; [left; auto|]. split.
  { intros a. cbn. intuition (subst; cbn; auto; discriminate). }
  split; [cbn; auto|]. split; [left; exists MUnwrap, (EVar 0); split; [reflexivity|split; [reflexivity|left; reflexivity]]|].
  intros v. vm_compute. tauto.
Qed.
Print Assumptions unwrap_condition_refuted.

(* loop { if !(x.is_none() || y) { *x.as_mut() inner = ..; x.as_ref().unwrap(); y = true } else { x.unwrap(); } }:
   the infos come through negation, as_mut changes what is inside, the reports are both of their kinds and both
   calls are made. *)
Definition w2 : world := fun f _ _ =>
  {| ans := Some VUnit; writes := fun p => match p with (0, []) => Some (VInt 9) | _ => None end |}.
Definition body2 :=
  ELet 1 (EVal (VBool false)) (ELoop (ESeq
    (EIfElse (ENot (EBin BOr (EMeth0 1 MIsNone (EVar 0)) (EVar 1)))
       (EBlock (ESeq (ECall 0 (EMeth0 2 MAsMut (EVar 0)))
                     (ESeq (EMeth0 3 MUnwrap (EMeth0 4 MAsRef (EVar 0))) (EAssign (EVar 1) (EVal (VBool true))))))
       (EIf (EMeth0 5 MIsSome (EVar 0)) (EBlock (EMeth0 6 MUnwrapErr (EVar 0)))))
    (EIf (EMeth0 7 MIsNone (EVar 0)) (EBlock (EMeth1 8 MExpect (EVar 0) (EVal VUnit)))))).
Definition s2 (v : value) : st := {| loc := fun _ => v; loans := []; tick := 0; seen := [] |}.
Example C126_nontrivial :
  scoped [0] body2 /\ NoDup (ids body2) /\ std_as_mut T2 body2 /\
  check_fn T2 body2 = [(3, Unnecessary); (8, Panicking)] /\
  In (3, false) (seen (snd (eval w2 T2 20 body2 (s2 (VC CSome (VInt 1)))))) /\
  loc (snd (eval w2 T2 20 body2 (s2 (VC CSome (VInt 1))))) 0 = VC CSome (VInt 9) /\
  In (8, true) (seen (snd (eval w2 T2 20 body2 (s2 (VC CNone VUnit))))).
Proof.
  split; [cbn; intuition discriminate|].
  split; [cbn; repeat constructor; cbn; intuition discriminate|].
  split; [cbn; intuition (try discriminate); match goal with H : Some _ = Some _ |- _ => injection H as <- end; discriminate|].
  split; [vm_compute; reflexivity|]. split; [vm_compute; auto|]. split; vm_compute; auto.
Qed.
