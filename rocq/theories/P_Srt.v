(* C144: sorting with a closure that compares keys, and sorting by keys *)
From Coq Require Import List Bool PeanoNat.
Import ListNotations.
From Verif Require Import SrtSpec SrtModel SrtProofs.

(* Where the lint suggests sort(), or sort_by_key(), the slice is sorted in the same way; missing: patterns with @; tuples, arrays and
   arguments of different lengths; casts to different types. *)
Theorem sort_by_partial :
  forall array tuple call method bin un cast field global part l r a b t xs,
  no_sub l = true -> no_sub r = true -> NoDup (names l ++ names r) -> alike a b = true ->
  detect_lint l r a b = Some t ->
  sort (compared array tuple call method bin un cast field global part l r a b) xs =
  match t with
  | Sort => sort Nat.compare xs
  | SortByKey p k reverse =>
      let f := key array tuple call method bin un cast field global part p k in
      sort (fun u v => if reverse then Nat.compare (f v) (f u) else Nat.compare (f u) (f v)) xs
  end.
Proof.
  intros array tuple call method bin un cast field global part l r a b t xs NL NR D A E. unfold detect_lint in E.
  destruct (mirrored_pats l r []) as [m|] eqn:M; [|discriminate].
  pose proof (straight array tuple call method bin un cast field global part l r m NL NR D M a b) as S.
  pose proof (reversed array tuple call method bin un cast field global part l r m NL NR D M a b) as R.
  unfold both, one in S, R.
  assert (C : match t with SortByKey p k reverse => p = l /\ (reverse = false /\ k = a /\ mirrored_exprs m true a b = true \/
                                                         reverse = true /\ k = peel1 b /\ mirrored_exprs m false a b = true)
              | Sort => exists x s, a = EPath [x] /\ l = PBind x s /\ (mirrored_exprs m true a b = true \/ mirrored_exprs m false a b = true) end).
  { destruct (mirrored_exprs m true a b) eqn:E1; [|destruct (mirrored_exprs m false a b) eqn:E2; [|discriminate]].
    - destruct a as [| | | | | | | | |[|x [|? ?]]|]; try (injection E as <-; auto); destruct l; try (injection E as <-; auto).
      destruct (Nat.eqb_spec x x0); injection E as <-; auto. subst. eauto 6.
    - destruct a as [| | | | | | | | |[|x [|? ?]]|]; try (injection E as <-; auto); destruct l; try (injection E as <-; auto).
      destruct (Nat.eqb_spec x x0); injection E as <-; auto. subst. eauto 6. }
  destruct t as [|p k reverse].
  - destruct C as (x & s & -> & -> & [C|C]).
    + apply sort_ext. intros u v. unfold compared. destruct (S u v C A) as [-> ->]. cbn. rewrite Nat.eqb_refl. reflexivity.
    + exfalso. cbn in NL. destruct s; [discriminate|]. cbn in M, C. destruct r; try discriminate. injection M as <-. cbn in D.
      destruct (peel b); try discriminate. apply orb_true_iff in C. destruct C as [C|C].
      * apply andb_true_iff in C. destruct C as [_ C]. unfold contains_key, get in C. cbn in C. rewrite Nat.eqb_refl in C. discriminate.
      * destruct segments as [|y [|? ?]]; try discriminate. unfold get in C. cbn in C. destruct (Nat.eqb_spec x0 x); [|discriminate].
        subst. inversion D. apply H1. left. reflexivity.
  - destruct C as (-> & [(-> & -> & C)|(-> & -> & C)]); apply sort_ext; intros u v; unfold compared, key.
    + destruct (S u v C A) as [-> ->]. reflexivity.
    + destruct (R u v C A) as [-> ->]. rewrite !eval_peel1. reflexivity.
Qed.
Print Assumptions sort_by_partial.

(* |(a, _), (b, _)| b.f().cmp(&a.f()): reversed *)
Example C144_nontrivial :
  let l := PTup None [PBind 1 None; PWild] in let r := PTup None [PBind 2 None; PWild] in
  let a := EMethod 7 (EPath [2]) [EPath [9]] in let b := ERef (EMethod 7 (EPath [1]) [EPath [9]]) in
  no_sub l = true /\ no_sub r = true /\ NoDup (names l ++ names r) /\ alike a b = true /\
  detect_lint l r a b = Some (SortByKey l (EMethod 7 (EPath [1]) [EPath [9]]) true) /\
  detect_lint (PBind 1 None) (PBind 2 None) (EPath [1]) (EPath [2]) = Some Sort.
Proof. cbv zeta. split; [reflexivity|]. split; [reflexivity|]. split; [cbn; constructor; [cbn; intuition discriminate|]; constructor; [intros []|constructor]|]. split; [reflexivity|]. split; reflexivity. Qed.

(* A property of the lint: what it suggests sorts in the same way *)
Definition same_sort (l r : pat) (a b : expr) : Prop :=
  forall array tuple call method bin un cast field global part p k xs,
  detect_lint l r a b = Some (SortByKey p k false) ->
  sort (compared array tuple call method bin un cast field global part l r a b) xs =
  sort (fun u v => Nat.compare (key array tuple call method bin un cast field global part p k u)
                               (key array tuple call method bin un cast field global part p k v)) xs.

(* The types of casts are not compared: |a, b| (a.0 as u8 as i32).cmp(&(b.0 as i8 as i32)) *)
Theorem sort_by_cast_refuted :
  exists l r a b, no_sub l = true /\ no_sub r = true /\ NoDup (names l ++ names r) /\ ~ same_sort l r a b.
Proof.
  exists (PBind 1 None), (PBind 2 None), (ECast 0 (ECast 8 (EField (EPath [1]) 0))), (ERef (ECast 0 (ECast 4 (EField (EPath [2]) 0)))).
  split; [reflexivity|]. split; [reflexivity|]. split; [cbn; constructor; [cbn; intuition discriminate|]; constructor; [intros []|constructor]|]. intros S.
  specialize (S (fun _ => 0) (fun _ => 0) (fun _ _ => 0) (fun _ _ _ => 0) (fun _ _ _ => 0) (fun _ _ => 0)
    (fun t v => if Nat.eqb t 0 then v else Nat.modulo v t) (fun _ v => v) (fun _ => 0) (fun _ _ _ v => v) _ _ [5; 6] eq_refl).
  vm_compute in S. discriminate.
Qed.
Print Assumptions sort_by_cast_refuted.

(* A path is compared as far as the shorter of the two goes: |a, b| key(a).cmp(&key::other(b)), of a function and of a module *)
Theorem sort_by_path_refuted :
  exists l r a b, no_sub l = true /\ no_sub r = true /\ NoDup (names l ++ names r) /\ ~ same_sort l r a b.
Proof.
  exists (PBind 1 None), (PBind 2 None), (ECall (EPath [3]) [EPath [1]]), (ERef (ECall (EPath [3; 4]) [EPath [2]])).
  split; [reflexivity|]. split; [reflexivity|]. split; [cbn; constructor; [cbn; intuition discriminate|]; constructor; [intros []|constructor]|]. intros S.
  specialize (S (fun _ => 0) (fun _ => 0) (fun f l => if Nat.eqb f 1 then hd 0 l else 10 - hd 0 l) (fun _ _ _ => 0) (fun _ _ _ => 0) (fun _ _ => 0)
    (fun _ v => v) (fun _ v => v) (fun p => length p) (fun _ _ _ v => v) _ _ [1; 2; 9; 0] eq_refl).
  vm_compute in S. discriminate.
Qed.
Print Assumptions sort_by_path_refuted.

(* What is bound below @ is not known to be bound: |p @ (a, _), q| a.cmp(a), which leaves the slice as it is, becomes the key a *)
Theorem sort_by_at_refuted :
  exists l r a b, alike a b = true /\ NoDup (names l ++ names r) /\ ~ same_sort l r a b.
Proof.
  exists (PBind 1 (Some (PTup None [PBind 3 None; PWild]))), (PBind 2 None), (EField (EPath [3]) 0), (ERef (EField (EPath [3]) 0)).
  split; [reflexivity|]. split; [cbn; constructor; [cbn; intuition discriminate|]; constructor; [cbn; intuition discriminate|]; constructor; [intros []|constructor]|]. intros S.
  specialize (S (fun _ => 0) (fun _ => 0) (fun _ _ => 0) (fun _ _ _ => 0) (fun _ _ _ => 0) (fun _ _ => 0)
    (fun _ v => v) (fun _ v => v) (fun _ => 0) (fun _ _ _ v => v) _ _ [2; 1] eq_refl).
  vm_compute in S. discriminate.
Qed.
Print Assumptions sort_by_at_refuted.
