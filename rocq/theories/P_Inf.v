(* C137: loops that are detected as infinite *)
From Coq Require Import List Bool PeanoNat.
Import ListNotations.
From Verif Require Import InfSpec InfModel InfProofs.

(* The loop is never left.  Partial: where breaks have no labels of loops or blocks around the loop, and their values do not jump. *)
Theorem infinite_loop_partial : forall cond l b,
  check l b = true -> breaks_within (match l with Some x => [x] | None => [] end) b = true ->
  forall fuel t, exec cond fuel (SLoop l b) t = Out.
Proof. exact loop_out. Qed.
Print Assumptions infinite_loop_partial.

(* 'a: loop { f(); 'b: loop { if c { break } 'c: { break 'c } continue 'a } } *)
Definition body0 : stmt := SSeq (SCall 0) (SLoop (Some 2) (SSeq (SIf 0 (SBreak None SSkip) SSkip) (SSeq (SBlock 3 (SBreak (Some 3) SSkip)) (SContinue (Some 1))))).
Example C137_nontrivial :
  check (Some 1) body0 = true /\ breaks_within [1] body0 = true /\
  (* the inner loop is left *)
  exec (fun _ t => Nat.even (length t)) 9 (SLoop (Some 2) (SSeq (SIf 0 (SBreak None SSkip) SSkip) (SContinue (Some 1)))) [] = Norm [] /\
  check (Some 2) (SContinue (Some 1)) = false /\ check None (SIf 0 SReturn SSkip) = false /\
  check (Some 1) (SLoop None (SBreak (Some 1) SSkip)) = false.
Proof. repeat split. Qed.

(* 'a: loop { loop { loop { break 'a } } }: the middle loop is detected as infinite, though it is left *)
Theorem infinite_loop_outer_refuted : exists cond l b t fuel x,
  check l b = true /\ l <> Some x /\ exec cond fuel (SLoop l b) t = Brk (Some x) t /\
  exec cond (S fuel) (SLoop (Some x) (SLoop l b)) t = Norm t.
Proof.
  exists (fun _ _ => true), None, (SLoop None (SBreak (Some 1) SSkip)), [], 5, 1.
  split; [reflexivity|]. split; [discriminate|]. split; reflexivity.
Qed.
Print Assumptions infinite_loop_outer_refuted.
(* loop { loop { break { return } } }: the value of the break is not visited *)
Theorem infinite_loop_value_refuted : exists cond l b t fuel,
  check l b = true /\ exec cond fuel (SLoop l b) t = Gone t.
Proof. exists (fun _ _ => true), None, (SLoop None (SBreak None SReturn)), [], 5. split; reflexivity. Qed.
Print Assumptions infinite_loop_value_refuted.
