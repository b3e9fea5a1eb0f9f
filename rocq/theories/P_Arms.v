(** C76: patterns found not to overlap; C77: match arms that are merged. *)
From Verif Require Import ArmsLint ArmsFields.

(** ** C76 *)
(** Patterns that match a common value are found to overlap.  Missing: constants, `Self`, type aliases, tuple structs, and structs and variants without fields, matched with braces, and ranges of signed types
    without a start; all refuted below.  Guards inside patterns are not modelled. *)
Theorem has_overlapping_values_partial t p q v : regular t p = true -> regular t q = true -> matched p v -> matched q v ->
  has_overlapping_values (from_pat p) (from_pat q) = true.
Proof.
  intros P Q M N. apply (overlaps_sound t _ _ _ v); [apply (normal t (psize p))|apply (normal t (psize q))]; auto.
Qed.
Print Assumptions has_overlapping_values_partial.
(** Struct patterns overlap exactly when they name the same variant and the patterns of every field named in both overlap, in whatever order fields are written. *)
Theorem struct_patterns_overlap_exact res k fs res' k' fs' : NoDup (map fst fs) -> NoDup (map fst fs') ->
  (has_overlapping_values (from_pat (PStruct res k fs)) (from_pat (PStruct res' k' fs')) = true <->
   res = res' /\ forall x p q, In (x, p) fs -> In (x, q) fs' -> has_overlapping_values (from_pat p) (from_pat q) = true).
Proof. exact (structs_overlap res k fs res' k' fs'). Qed.
Print Assumptions struct_patterns_overlap_exact.
(** An enum with `A(T, U)` (variant 0), `B { x, y }` (1), `C` (2) and a tuple struct (3). *)
Definition types0 : types := {| t_shape := fun k => match k with 0 => Tuple 2 | 1 => Fields | 2 => Unit | _ => Tuple 1 end; t_enum := fun k => k <? 3; t_name := fun k => 10 + k |}.
Definition n (z : Z) : pat := PLit (LInt z).
Definition upto (a b : Z) : pat := PRange 0 255 (Some (BLit a)) (Some (BLit b)) true.
Example has_overlapping_values_ex :
  let p := PTupleStruct (Some 10) 0 true 2 [PSlice [n 1] (Some None) [n 3]] (Some 1) in
  let q := POr [PPath (Some 12) (inl 2); PTupleStruct (Some 10) 0 true 2 [PSlice [PWild; upto 2 4; PBind 7 None] None []; PWild] None] in
  let v := VAdt 0 [(0, VSlice [VInt 1; VInt 2; VInt 3]); (1, VBool true)] in
  regular types0 p = true /\ regular types0 q = true /\ ways p v = [[]] /\ ways q v = [[(7, VInt 3)]] /\
  has_overlapping_values (from_pat p) (from_pat (PTupleStruct (Some 10) 0 true 2 [PSlice [n 1; n 3; n 2] None []] (Some 1))) = false.
Proof. repeat split; reflexivity. Qed.
Example struct_patterns_overlap_ex :
  has_overlapping_values (from_pat (PStruct (Some 11) 1 [(5, n 1); (2, upto 1 4)])) (from_pat (PStruct (Some 11) 1 [(2, n 4); (9, n 3)])) = true /\
  has_overlapping_values (from_pat (PStruct (Some 11) 1 [(5, n 1); (2, upto 1 4)])) (from_pat (PStruct (Some 11) 1 [(2, n 5); (9, n 3)])) = false.
Proof. split; reflexivity. Qed.
Definition overlap_missed (p q : pat) : Prop := has_overlapping_values (from_pat p) (from_pat q) = false /\ exists v, matched p v /\ matched q v.
(** `..0` and `..5` of a signed type both match -1: a missing start is taken for 0. *)
Theorem has_overlapping_values_signed_refuted : overlap_missed (PRange (-128) 127 None (Some (BLit 0)) false) (PRange (-128) 127 None (Some (BLit 5)) false).
Proof. split; [reflexivity|]. exists (VInt (-1)). split; discriminate. Qed.
Print Assumptions has_overlapping_values_signed_refuted.
(** Two constants of one value; a constant `A(1, 2)` and the pattern `A(1, _)`. *)
Theorem has_overlapping_values_const_refuted :
  overlap_missed (PPath (Some 20) (inr (val_eqb (VInt 1)))) (PPath (Some 21) (inr (val_eqb (VInt 1)))) /\
  overlap_missed (PPath (Some 20) (inr (val_eqb (VAdt 0 [(0, VInt 1); (1, VInt 2)])))) (PTupleStruct (Some 10) 0 true 2 [n 1; PWild] None).
Proof. split; (split; [reflexivity|]); [exists (VInt 1)|exists (VAdt 0 [(0, VInt 1); (1, VInt 2)])]; split; discriminate. Qed.
Print Assumptions has_overlapping_values_const_refuted.
(** `Self { x: 1 }` and `S { y: 2 }`: `Self` resolves to no definition. *)
Theorem has_overlapping_values_self_refuted : overlap_missed (PStruct None 1 [(0, n 1)]) (PStruct (Some 11) 1 [(1, n 2)]).
Proof. split; [reflexivity|]. exists (VAdt 1 [(0, VInt 1); (1, VInt 2)]). split; discriminate. Qed.
Print Assumptions has_overlapping_values_self_refuted.
(** `S(1)` and `S { 0: 1 }`; `A(1, _)` and `A { 1: 2, .. }`, where the path is the constructor in one and the variant in the other; `C` and `C {}`. *)
Theorem has_overlapping_values_braces_refuted :
  overlap_missed (PTupleStruct (Some 13) 3 false 1 [n 1] None) (PStruct (Some 33) 3 [(0, n 1)]) /\
  overlap_missed (PTupleStruct (Some 10) 0 true 2 [n 1; PWild] None) (PStruct (Some 30) 0 [(1, n 2)]) /\
  overlap_missed (PPath (Some 12) (inl 2)) (PStruct (Some 32) 2 []).
Proof.
  split; [|split]; (split; [reflexivity|]); [exists (VAdt 3 [(0, VInt 1)])|exists (VAdt 0 [(0, VInt 1); (1, VInt 2)])|exists (VAdt 2 [])]; split; discriminate.
Qed.
Print Assumptions has_overlapping_values_braces_refuted.

(** ** C77 *)
(** Of two arms reported together, with nothing else in the group, one can be merged into the other: the `match` does the same for every value and every state, guards with effects and panics included. *)
Definition merged_into_first {G B} (arms : list (arm G B)) (g : list (nat * arm G B)) : list (arm G B) :=
  edit arms (map fst (tl g)) (Some (match g with (i, _) :: _ => i | [] => 0 end, POr (map (fun ia => a_pat (snd ia)) g))).
Definition merged_into_last {G B} (arms : list (arm G B)) (g : list (nat * arm G B)) : list (arm G B) :=
  edit arms (map fst (removelast g)) (Some (match rev g with (i, _) :: _ => i | [] => 0 end, POr (map (fun ia => a_pat (snd ia)) g))).
Section Lint.
  Context {G B S R : Type}.
  Variable guard_ : G -> env -> S -> option (bool * S).
  Variable body_ : B -> env -> S -> R.
  Variable t : types.
  Notation arm := (arm G B). Notation run := (run guard_ body_). Notation agree := (agree guard_ body_).
  Variable same : arm -> arm -> bool.
  Variable hash : arm -> list Z.
  Variable arms : list arm.
  Hypothesis same_agree : forall a b, same a b = true -> agree a b.
  Hypothesis reg : forall a, In a arms -> regular t (a_pat a) = true.
  Lemma into_first i a j b : In [(i, a); (j, b)] (groups same hash arms) -> bwd arms j <= i -> forall v s, run arms v s = run (merged_into_first arms [(i, a); (j, b)]) v s.
  Proof.
    intros J L. destruct (group_facts same hash arms _ J) as [E _]. destruct (pair_moves same hash arms i a j b J) as (LT & NI & NJ & _).
    apply (merge_first guard_ body_ arms [(i, a); (j, b)] E (group_agree guard_ body_ same hash arms same_agree _ J) i a [(j, b)] eq_refl).
    intros m d x c [M|[M|[]]] NX NM L1 L2; injection M as <- <-; [lia|]. apply (bwd_free t arms reg j b x c NJ NX). lia.
  Qed.
  Lemma into_last i a j b : In [(i, a); (j, b)] (groups same hash arms) -> j <= fwd arms i -> forall v s, run arms v s = run (merged_into_last arms [(i, a); (j, b)]) v s.
  Proof.
    intros J L. destruct (group_facts same hash arms _ J) as [E _]. destruct (pair_moves same hash arms i a j b J) as (LT & NI & NJ & _).
    apply (merge_last guard_ body_ arms [(i, a); (j, b)] E (group_agree guard_ body_ same hash arms same_agree _ J) j b [(i, a)] eq_refl).
    intros m d x c [M|[M|[]]] NX NM L1 L2; injection M as <- <-; [|lia]. apply (fwd_free t arms reg i a x c NI NX). lia.
  Qed.
  Lemma mergeable i a j b : In [(i, a); (j, b)] (groups same hash arms) ->
    (forall v s, run arms v s = run (merged_into_first arms [(i, a); (j, b)]) v s) \/ (forall v s, run arms v s = run (merged_into_last arms [(i, a); (j, b)]) v s).
  Proof. intros J. destruct (pair_moves same hash arms i a j b J) as (_ & _ & _ & [L|L]); [left; apply into_first|right; apply into_last]; assumption. Qed.
  Lemma suggested allowed i a j b arms' : In [(i, a); (j, b)] (groups same hash arms) -> is_wildcard_arm (a_pat b) && allowed = false ->
    (i = 0 \/ (has_overlapping_values (from_pat (a_pat a)) (from_pat (a_pat b)) = false /\ has_overlapping_values (from_pat (a_pat b)) (from_pat (a_pat a)) = false)) ->
    suggest allowed arms [(i, a); (j, b)] = Some arms' -> forall v s, run arms v s = run arms' v s.
  Proof.
    intros J WI OV SG. destruct (pair_moves same hash arms i a j b J) as (LT & NI & NJ & MV). unfold suggest in SG. cbn [rev app] in SG. rewrite WI in SG.
    destruct (Nat.ltb_spec (bwd arms j) i) as [L|L]; cbn [orb] in SG.
    - injection SG as <-. apply into_first; [exact J|lia].
    - destruct (Nat.eqb_spec (bwd arms j) 0) as [Z|Z]; cbn [andb] in SG.
      + destruct (Nat.leb_spec (fwd arms i) j); injection SG as <-; [apply into_first|apply into_last]; try exact J; lia.
      + injection SG as <-. apply into_last; [exact J|]. destruct MV as [M|M]; [|exact M]. exfalso. assert (EQ : bwd arms j = i) by lia. destruct OV as [-> | [O1 O2]]; [lia|].
        destruct (bwd_spec (norm arms) j _ (norm_nth arms j b NJ)) as [[Q|(q & _ & Nq & O)] _]; fold (bwd arms j) in *; [lia|]. rewrite EQ, (norm_nth arms i a NI) in Nq. injection Nq as <-. unfold ov in O. destruct O; congruence.
  Qed.
  Lemma wildcard_all p v : is_wildcard_arm p = true -> ways p v <> [].
  Proof.
    destruct p as [| | | | | | |ps| | | |]; cbn; try discriminate. intros H. destruct ps as [|p ps] using rev_ind; [discriminate H|]. rewrite last_last in H. destruct p; try discriminate H.
    rewrite flat_map_app. cbn. destruct (flat_map _ ps); discriminate.
  Qed.
  Lemma wildcard_removal i a j b : In [(i, a); (j, b)] (groups same hash arms) -> is_wildcard_arm (a_pat b) = true ->
    a_guard b = None -> binders (a_pat a) = [] -> binders (a_pat b) = [] -> forall arms', suggest true arms [(i, a); (j, b)] = Some arms' -> forall v s, run arms v s = run arms' v s.
  Proof.
    intros J WI NG BA BB arms' SG. unfold suggest in SG. cbn [rev app] in SG. rewrite WI in SG. injection SG as <-. destruct (group_facts same hash arms _ J) as [E _]. destruct (pair_moves same hash arms i a j b J) as (LT & NI & NJ & MV).
    pose proof (group_agree guard_ body_ same hash arms same_agree _ J) as AG.
    apply (remove_wild guard_ body_ arms [(i, a); (j, b)] E AG j b [(i, a)] eq_refl).
    - intros m d x c [M|[M|[]]] NX NM L1 L2; injection M as <- <-; [|lia]. destruct MV as [M|M]; [|apply (fwd_free t arms reg i a x c NI NX); lia].
      intros v. right. destruct (bwd_free t arms reg j b x c NJ NX ltac:(lia) v) as [Q|Q]; [exact Q|]. destruct (wildcard_all _ v WI Q).
    - intros k c [M|[M|[]]]; injection M as <- <-.
      + split; [|intros v w; exact (unbound _ _ v w (Nat.le_refl _) BA)]. destruct (AG i a j b) as [GU _]; cbn; auto. rewrite NG in GU. destruct (a_guard a); [contradiction|reflexivity].
      + split; [exact NG|]. intros v w. exact (unbound _ _ v w (Nat.le_refl _) BB).
    - intros v. apply wildcard_all, WI.
  Qed.
  Lemma whole_group allowed g arms' : In g (groups same hash arms) ->
    (forall m b x c, In (m, b) g -> nth_error arms x = Some c -> ~ In x (map fst g) -> forall v, ~ (matched (a_pat b) v /\ matched (a_pat c) v)) ->
    (forall i b, In (i, b) g -> is_wildcard_arm (a_pat b) = false) ->
    suggest allowed arms g = Some arms' -> forall v s, run arms v s = run arms' v s.
  Proof.
    intros J DIS NW SG. destruct (group_facts same hash arms _ J) as (E & [i a] & rest & GE & _). pose proof (group_agree guard_ body_ same hash arms same_agree _ J) as AG.
    assert (D : forall m b x c, In (m, b) g -> nth_error arms x = Some c -> member g (x, c) = false -> disjoint b c).
    { intros m b x c Jm NX NM v. destruct (ways (a_pat b) v) as [|w ws] eqn:Q; [auto|]. destruct (ways (a_pat c) v) as [|u us] eqn:Q'; [auto|]. exfalso. apply (DIS m b x c Jm NX) with (v := v); [|unfold matched; rewrite Q, Q'; split; discriminate].
      intros Jx. assert (member g (x, c) = true) by (apply is_in_spec; exact Jx). congruence. }
    unfold suggest in SG. subst g. remember ((i, a) :: rest) as g eqn:GE. destruct (rev g) as [|[l last_] ri] eqn:RG; [apply (f_equal (@rev _)) in RG; rewrite rev_involutive, GE in RG; discriminate RG|].
    assert (GL : g = rev ri ++ [(l, last_)]) by (rewrite <- (rev_involutive g), RG; reflexivity).
    assert (TL : tl g = rest) by (rewrite GE; reflexivity). assert (RL : removelast g = rev ri) by (rewrite GL; apply removelast_last). rewrite TL, RL in SG.
    assert (SG' : arms' = edit arms (map fst rest) (Some (i, POr (map (fun ia => a_pat (snd ia)) g))) \/ arms' = edit arms (map fst (rev ri)) (Some (l, POr (map (fun ia => a_pat (snd ia)) g)))).
    { rewrite (NW l last_) in SG by (rewrite GL; apply in_or_app; right; left; reflexivity). cbn [andb] in SG. destruct (_ || _); injection SG as <-; auto. }
    destruct SG' as [-> | ->].
    - apply (merge_first guard_ body_ arms g E AG i a rest GE). intros m b x c Jm NX NM _ _. intros v. destruct (D m b x c Jm NX NM v); auto.
    - apply (merge_last guard_ body_ arms g E AG l last_ (rev ri) GL). intros m b x c Jm NX NM _ _. exact (D m b x c Jm NX NM).
  Qed.
End Lint.
Theorem match_same_arms_mergeable_partial {G B S R} (guard_ : G -> env -> S -> option (bool * S)) (body_ : B -> env -> S -> R) t same hash arms i a j b :
  (forall a b, same a b = true -> agree guard_ body_ a b) -> (forall a, In a arms -> regular t (a_pat a) = true) ->
  In [(i, a); (j, b)] (groups same hash arms) ->
  (forall v s, run guard_ body_ arms v s = run guard_ body_ (merged_into_first arms [(i, a); (j, b)]) v s) \/
  (forall v s, run guard_ body_ arms v s = run guard_ body_ (merged_into_last arms [(i, a); (j, b)]) v s).
Proof. intros SA RE. exact (mergeable guard_ body_ t same hash arms SA RE i a j b). Qed.
Print Assumptions match_same_arms_mergeable_partial.
(** What is suggested for two arms that do not overlap, or of which one is the first of all, is right.  Missing: others, see below. *)
Theorem match_same_arms_suggestion_partial {G B S R} (guard_ : G -> env -> S -> option (bool * S)) (body_ : B -> env -> S -> R) t same hash arms i a j b allowed arms' :
  (forall a b, same a b = true -> agree guard_ body_ a b) -> (forall a, In a arms -> regular t (a_pat a) = true) ->
  In [(i, a); (j, b)] (groups same hash arms) -> is_wildcard_arm (a_pat b) && allowed = false ->
  (i = 0 \/ (has_overlapping_values (from_pat (a_pat a)) (from_pat (a_pat b)) = false /\ has_overlapping_values (from_pat (a_pat b)) (from_pat (a_pat a)) = false)) ->
  suggest allowed arms [(i, a); (j, b)] = Some arms' -> forall v s, run guard_ body_ arms v s = run guard_ body_ arms' v s.
Proof. intros SA RE. exact (suggested guard_ body_ t same hash arms SA RE allowed i a j b arms'). Qed.
Print Assumptions match_same_arms_suggestion_partial.
(** An arm may be left to the wildcard arm, if that has no guard. *)
Theorem match_same_arms_wildcard_partial {G B S R} (guard_ : G -> env -> S -> option (bool * S)) (body_ : B -> env -> S -> R) t same hash arms i a j b arms' :
  (forall a b, same a b = true -> agree guard_ body_ a b) -> (forall a, In a arms -> regular t (a_pat a) = true) ->
  In [(i, a); (j, b)] (groups same hash arms) -> is_wildcard_arm (a_pat b) = true -> a_guard b = None -> binders (a_pat a) = [] -> binders (a_pat b) = [] ->
  suggest true arms [(i, a); (j, b)] = Some arms' -> forall v s, run guard_ body_ arms v s = run guard_ body_ arms' v s.
Proof. intros SA RE J W NG BA BB. exact (wildcard_removal guard_ body_ t same hash arms SA RE i a j b J W NG BA BB arms'). Qed.
Print Assumptions match_same_arms_wildcard_partial.
(** A group of any size may be merged as suggested if no other arm matches what a member matches. *)
Theorem match_same_arms_group_partial {G B S R} (guard_ : G -> env -> S -> option (bool * S)) (body_ : B -> env -> S -> R) same hash arms g allowed arms' :
  (forall a b, same a b = true -> agree guard_ body_ a b) -> In g (groups same hash arms) ->
  (forall m b x c, In (m, b) g -> nth_error arms x = Some c -> ~ In x (map fst g) -> forall v, ~ (matched (a_pat b) v /\ matched (a_pat c) v)) ->
  (forall i b, In (i, b) g -> is_wildcard_arm (a_pat b) = false) ->
  suggest allowed arms g = Some arms' -> forall v s, run guard_ body_ arms v s = run guard_ body_ arms' v s.
Proof. intros SA. exact (whole_group guard_ body_ same hash arms SA allowed g arms'). Qed.
Print Assumptions match_same_arms_group_partial.

(** *** A small world: bodies are numbers, guards are numbers and count how often they were asked. *)
Definition guard0 (g : nat) (_ : env) (s : nat) : option (bool * nat) := Some (s =? g, Datatypes.S s).
Definition body0 (b : nat) (_ : env) (s : nat) : nat * nat := (b, s).
Definition same0 (a b : arm nat nat) : bool :=
  Nat.eqb (a_body a) (a_body b) && match a_guard a, a_guard b with None, None => true | Some g, Some h => Nat.eqb g h | _, _ => false end.
Definition hash0 (a : arm nat nat) : list Z := [Z.of_nat (a_body a)].
Lemma same0_agree a b : same0 a b = true -> agree guard0 body0 a b.
Proof.
  unfold same0, agree. intros H. apply andb_prop in H. destruct H as [H H']. apply Nat.eqb_eq in H. rewrite H. split; [|reflexivity]. destruct (a_guard a), (a_guard b); try discriminate H'; auto.
  apply Nat.eqb_eq in H'. rewrite H'. reflexivity.
Qed.
Definition on (p : pat) (b : nat) : arm nat nat := {| a_pat := p; a_guard := None; a_body := b |}.
(** `0 => 7, 1..=5 => 8, 20..=30 => 9, 11 => 8, _ => 7` *)
Example match_same_arms_ex : let arms := [on (n 0) 7; on (upto 1 5) 8; on (upto 20 30) 9; on (n 11) 8; on PWild 6] in
  groups same0 hash0 arms = [[(1, on (upto 1 5) 8); (3, on (n 11) 8)]] /\
  suggest true arms [(1, on (upto 1 5) 8); (3, on (n 11) 8)] = Some [on (n 0) 7; on (POr [upto 1 5; n 11]) 8; on (upto 20 30) 9; on PWild 6] /\
  forallb (fun a => regular types0 (a_pat a)) arms = true /\ has_overlapping_values (from_pat (upto 1 5)) (from_pat (n 11)) = false.
Proof. repeat split; vm_compute; reflexivity. Qed.
(** `1 => 8, 2 => 9, _ => 8` *)
Example match_same_arms_wildcard_ex : let arms := [on (n 1) 8; on (n 2) 9; on PWild 8] in
  groups same0 hash0 arms = [[(0, on (n 1) 8); (2, on PWild 8)]] /\ suggest true arms [(0, on (n 1) 8); (2, on PWild 8)] = Some [on (n 2) 9; on PWild 8].
Proof. split; reflexivity. Qed.
(** `1 => 8, 2 => 9, 3 => 8, 5 => 8` *)
Example match_same_arms_group_ex : let arms := [on (n 1) 8; on (n 2) 9; on (n 3) 8; on (n 5) 8] in let g := [(0, on (n 1) 8); (2, on (n 3) 8); (3, on (n 5) 8)] in
  groups same0 hash0 arms = [g] /\ suggest true arms g = Some [on (n 2) 9; on (POr [n 1; n 3; n 5]) 8] /\
  (forall m b x c, In (m, b) g -> nth_error arms x = Some c -> ~ In x (map fst g) -> forall v, ~ (matched (a_pat b) v /\ matched (a_pat c) v)).
Proof.
  split; [reflexivity|]. split; [reflexivity|]. intros m b x c J NX N v [M1 M2]. unfold matched in *. destruct x as [|[|[|[|x]]]]; cbn in NX, N.
  - apply N. auto.
  - injection NX as <-. cbn [on a_pat n ways] in M2. destruct v as [z| | | | |]; try (apply M2; reflexivity). change (when (2 =? z)%Z <> []) in M2. destruct (Z.eqb_spec 2 z) as [<-|]; [|apply M2; reflexivity].
    destruct J as [J|[J|[J|[]]]]; injection J as <- <-; apply M1; reflexivity.
  - apply N. auto.
  - apply N. auto.
  - destruct x; discriminate NX.
Qed.
Definition wrong (allowed : bool) (arms : list (arm nat nat)) (g : list (nat * arm nat nat)) : Prop :=
  In g (groups same0 hash0 arms) /\ exists arms', suggest allowed arms g = Some arms' /\ exists v s, run guard0 body0 arms v s <> run guard0 body0 arms' v s.
(** `0 => 7, 1..=5 => 8, 5..=8 => 9, 3..=4 | 9 => 8, _ => 6`: the second arm is moved behind the third, and 5 takes the third. *)
Theorem match_same_arms_pair_refuted : exists arms i a j b, forallb (fun a => regular types0 (a_pat a)) arms = true /\ wrong false arms [(i, a); (j, b)].
Proof.
  exists [on (n 0) 7; on (upto 1 5) 8; on (upto 5 8) 9; on (POr [upto 3 4; n 9]) 8; on PWild 6]. do 4 eexists. split; [reflexivity|]. split; [vm_compute; left; reflexivity|].
  eexists. split; [vm_compute; reflexivity|]. exists (VInt 5), 0. vm_compute. discriminate.
Qed.
Print Assumptions match_same_arms_pair_refuted.
(** `0 => 7, 1 => 8, 2..=3 => 9, 3..=4 => 8, 5 => 8, _ => 6`: all are moved to the second arm, and 3 takes it. *)
Theorem match_same_arms_three_refuted : exists arms i a j b k c, forallb (fun a => regular types0 (a_pat a)) arms = true /\ wrong false arms [(i, a); (j, b); (k, c)].
Proof.
  exists [on (n 0) 7; on (n 1) 8; on (upto 2 3) 9; on (upto 3 4) 8; on (n 5) 8; on PWild 6]. do 6 eexists. split; [reflexivity|]. split; [vm_compute; left; reflexivity|].
  eexists. split; [vm_compute; reflexivity|]. exists (VInt 3), 0. vm_compute. discriminate.
Qed.
Print Assumptions match_same_arms_three_refuted.
(** `0 => 8, 1..=5 => 8, 5..=6 => 9, _ => 8`: both arms are left to the wildcard, and 5 takes the third. *)
Theorem match_same_arms_wildcard_refuted : exists arms i a j b k c, forallb (fun a => regular types0 (a_pat a)) arms = true /\ is_wildcard_arm (a_pat c) = true /\ wrong true arms [(i, a); (j, b); (k, c)].
Proof.
  exists [on (n 0) 8; on (upto 1 5) 8; on (upto 5 6) 9; on PWild 8]. do 6 eexists. split; [reflexivity|]. split; [|split; [vm_compute; left; reflexivity|]]; [reflexivity|].
  eexists. split; [vm_compute; reflexivity|]. exists (VInt 5), 0. vm_compute. discriminate.
Qed.
Print Assumptions match_same_arms_wildcard_refuted.
(** `1 if g() => 8, _ if g() => 8, _ => 9`: the guard is asked once instead of twice. *)
Theorem match_same_arms_wildcard_guard_refuted : exists arms i a j b, forallb (fun a => regular types0 (a_pat a)) arms = true /\ wrong true arms [(i, a); (j, b)].
Proof.
  exists [{| a_pat := n 1; a_guard := Some 1; a_body := 8 |}; {| a_pat := PWild; a_guard := Some 1; a_body := 8 |}; on PWild 9]. do 4 eexists. split; [reflexivity|]. split; [vm_compute; left; reflexivity|].
  eexists. split; [vm_compute; reflexivity|]. exists (VInt 1), 0. vm_compute. discriminate.
Qed.
Print Assumptions match_same_arms_wildcard_guard_refuted.
(** `..0 => 8, ..5 => 9, _ => 8` of a signed type: -1 takes the second. *)
Theorem match_same_arms_signed_refuted : exists arms i a j b, wrong true arms [(i, a); (j, b)].
Proof.
  exists [on (PRange (-128) 127 None (Some (BLit 0)) false) 8; on (PRange (-128) 127 None (Some (BLit 5)) false) 9; on PWild 8]. do 4 eexists. split; [vm_compute; left; reflexivity|].
  eexists. split; [vm_compute; reflexivity|]. exists (VInt (-1)), 0. vm_compute. discriminate.
Qed.
Print Assumptions match_same_arms_signed_refuted.
