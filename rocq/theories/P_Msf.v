(* C148: loops that fill a slice *)
From Coq Require Import List Bool PeanoNat Lia.
Import ListNotations.
From Verif Require Import MsfSpec MsfModel MsfProofs.

(* The suggested fill() leaves the same slices and variables, makes the same calls, and panics as the loop does; missing: ranges whose
   variable is not the index *)
Theorem slice_fill_partial :
  forall pair l s v t,
  check l = Some (s, v) -> match l with LRange p _ _ _ _ i _ => i = p | _ => True end ->
  same (exec pair l t) (filled pair s v t).
Proof.
  intros pair l s v t H X.
  assert (M : exists p (i : nat -> store -> nat), (forall k u, i k u = k) /\ switch_to_eager_eval v = true /\ is_local_used v p = false /\
    exec pair l t = match each (fun k u => assign pair s (i k u) v (with_var u p k)) (seq 0 (length (slices t s))) t with
                    | Some t' => Some (with_var t' p (vars t p)) | None => None end).
  { destruct l as [p start inclusive r s' i v'|p s' q v']; cbn [check] in H.
    - destruct (negb inclusive && Nat.eqb start 0 && Nat.eqb r s' && switch_to_eager_eval v' && negb (is_local_used v' i)) eqn:C; [|discriminate].
      injection H as <- <-. repeat match goal with K : _ && _ = true |- _ => apply andb_true_iff in K; destruct K end.
      destruct inclusive; [discriminate|]. repeat match goal with K : Nat.eqb _ _ = true |- _ => apply Nat.eqb_eq in K end. subst.
      exists p, (fun k u => vars (with_var u p k) p). split; [intros k u; cbn; unfold upd; rewrite Nat.eqb_refl; reflexivity|].
      split; [assumption|]. split; [apply negb_true_iff; assumption|]. cbn [exec]. rewrite Nat.sub_0_r. reflexivity.
    - destruct (Nat.eqb q p && switch_to_eager_eval v' && negb (is_local_used v' q)) eqn:C; [|discriminate].
      injection H as <- <-. repeat match goal with K : _ && _ = true |- _ => apply andb_true_iff in K; destruct K end.
      match goal with K : Nat.eqb q p = true |- _ => apply Nat.eqb_eq in K; subst q end.
      exists p, (fun k _ => k). split; [reflexivity|]. split; [assumption|]. split; [apply negb_true_iff; assumption|].
      cbn [exec]. rewrite Nat.eqb_refl. reflexivity. }
  destruct M as (p & i & I & E & U & ->). destruct (eager_eval pair p v E U t) as (n & V & _).
  destruct (seq_filled pair p s v n i I E U t V (length (slices t s)) 0 t) as (t' & -> & T1 & T2 & T3 & T4); auto.
  { intros s'. reflexivity. }
  unfold filled. rewrite V. cbn [same with_var with_slice slices vars calls]. split; [|split; [|assumption]].
  - intros s'. unfold upd. destruct (Nat.eqb_spec s s'); [subst; assumption|apply T3; congruence].
  - intros x. unfold upd. destruct (Nat.eqb_spec p x); [subst; reflexivity|apply T1; congruence].
Qed.
Print Assumptions slice_fill_partial.
(* for i in 0..s.len() { s[i] = (x, s.len()) } *)
Example C148_nontrivial :
  let l := LRange 1 0 false 2 2 1 (VPair (VVar 5) (VLen 2)) in
  check l = Some (2, VPair (VVar 5) (VLen 2)) /\ check (LIter 1 2 1 (VVar 5)) = Some (2, VVar 5) /\
  check (LRange 1 0 false 2 2 1 (VVar 1)) = None /\ check (LRange 1 0 true 2 2 1 (VVar 5)) = None /\
  match exec Nat.add l {| slices := fun _ => [1; 2; 3]; vars := fun _ => 4; calls := 0 |} with Some t => slices t 2 | None => [] end = [7; 7; 7].
Proof. repeat split. Qed.

(* for i in 0..s.len() { s[j] = x }: that the index is the variable of the loop is not checked *)
Theorem slice_fill_index_refuted :
  exists pair p s j v t, j <> p /\ check (LRange p 0 false s s j v) = Some (s, v) /\
  ~ same (exec pair (LRange p 0 false s s j v) t) (filled pair s v t).
Proof.
  exists Nat.add, 1, 2, 3, (VLit 9), {| slices := fun _ => [5; 6]; vars := fun _ => 0; calls := 0 |}.
  split; [discriminate|]. split; [reflexivity|]. intros [H _]. specialize (H 2). vm_compute in H. discriminate.
Qed.
Print Assumptions slice_fill_index_refuted.
(* for i in 0..s.len() { s[j] = i }: the value may even be the variable of the loop, which fill(i) does not have *)
Theorem slice_fill_value_refuted :
  exists pair p s j t, j <> p /\ check (LRange p 0 false s s j (VVar p)) = Some (s, VVar p) /\
  ~ same (exec pair (LRange p 0 false s s j (VVar p)) t) (filled pair s (VVar p) t).
Proof.
  exists Nat.add, 1, 2, 3, {| slices := fun _ => [5]; vars := fun x => if Nat.eqb x 3 then 0 else 7; calls := 0 |}.
  split; [discriminate|]. split; [reflexivity|]. intros [H _]. specialize (H 2). vm_compute in H. discriminate.
Qed.
Print Assumptions slice_fill_value_refuted.
