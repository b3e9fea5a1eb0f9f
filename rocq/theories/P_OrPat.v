(** C64: nested or-patterns match what the alternatives matched. *)
From Verif Require Import OrPatSpec OrPatProofs4.

(** Whatever the suggested pattern matches, with whatever bindings, some alternative of the pattern in the source matches with these bindings. *)
Theorem or_pattern_never_wider p q : unnested_or_patterns p = Some q -> fields_once p -> forall w v e, In e (ways w q v) -> some_way w p v e.
Proof.
  intros S F w v e I. destruct (suggestion_spec w p q S F) as (A & _). unfold ways in I. apply in_full in I. destruct (A [v] e [] I) as (e' & I' & P).
  exists e'. split; [now apply in_full|exact P].
Qed.
Print Assumptions or_pattern_never_wider.
(** It matches the same values in the same ways.  Missing: or-patterns within alternatives of the source (false, see below). *)
Theorem or_pattern_same_partial p q : unnested_or_patterns p = Some q -> fields_once p -> flat p -> forall w v,
  (forall e, In e (ways w q v) -> some_way w p v e) /\ (forall e, In e (ways w p v) -> some_way w q v e) /\ (matches w p v <-> matches w q v).
Proof.
  intros S F L w v. assert (A := fun e => or_pattern_never_wider p q S F w v e). destruct (suggestion_spec w p q S F) as (_ & B).
  assert (C : forall e, In e (ways w p v) -> some_way w q v e).
  { intros e I. unfold ways in I. apply in_full in I. destruct (B L [v] e [] I) as (e' & I' & P). exists e'. split; [now apply in_full|exact P]. }
  split; [exact A|]. split; [exact C|]. split; intros (e & I); [destruct (C e I) as (e' & I' & _)|destruct (A e I) as (e' & I' & _)]; now exists e'.
Qed.
Print Assumptions or_pattern_same_partial.
(** Where the source binds in one way only, the suggestion binds in that way.  Missing: values matched in several ways (false, see below). *)
Theorem or_pattern_bindings_partial p q : unnested_or_patterns p = Some q -> fields_once p -> flat p -> forall w v e, first_way w p v = Some e ->
  (forall e', In e' (ways w p v) -> Permutation e e') -> exists e', first_way w q v = Some e' /\ Permutation e e'.
Proof.
  intros S F L w v e H U. destruct (or_pattern_same_partial p q S F L w v) as (A & B & _). unfold first_way in *.
  destruct (ways w p v) as [|e1 l] eqn:W; [discriminate|]. injection H as ->. destruct (B e) as (e2 & I2 & _); [now left|].
  destruct (ways w q v) as [|e3 l'] eqn:W'; [destruct I2|]. exists e3. split; [reflexivity|]. destruct (A e3 (or_introl eq_refl)) as (e4 & I4 & P).
  rewrite W in I4. etransitivity; [exact (U e4 I4)|]. now symmetry.
Qed.
Print Assumptions or_pattern_bindings_partial.
(** The rewriting ends: as many steps as the pattern is large are enough, and more make no difference. *)
Theorem or_pattern_terminates p n : size p <= n -> visit n p = visit (size p) p /\ visit n p <> None.
Proof.
  intros L. destruct (visit_total (size p) p (le_n _)) as (p' & c & E & _). rewrite E, (visit_mono _ _ _ _ L E). split; [reflexivity|discriminate].
Qed.
Print Assumptions or_pattern_terminates.
(** Two alternatives of one kind that differ in one place are always reported. *)
Theorem or_pattern_reported k pre a b post front mid back : unparen a <> PRest -> unparen b <> PRest -> Forall no_deref pre -> Forall no_deref post ->
  unnested_or_patterns (POr (front ++ PProd k (pre ++ a :: post) :: mid ++ PProd k (pre ++ b :: post) :: back)) <> None.
Proof. exact (reported k pre a b post front mid back). Qed.
Print Assumptions or_pattern_reported.
(** Where the pattern has no alternatives at the top, as in a `let`, the suggestion has none: outer parentheses stay. *)
Theorem or_pattern_top_level p q : is_or p = false -> unnested_or_patterns p = Some q -> is_or q = false.
Proof.
  unfold unnested_or_patterns. intros NO. destruct (leaf_kind p); [discriminate|]. assert (R : is_or (remove_all_parens p) = false) by (destruct p as [| | |? ? [|]| | | | |]; try discriminate NO; reflexivity).
  destruct (visit (size (remove_all_parens p)) (remove_all_parens p)) as [[r [|]]|] eqn:V; try discriminate. intros [= <-]. destruct (size (remove_all_parens p)) as [|n]; [discriminate V|]. cbn [visit] in V.
  assert (W : forall r c, walk (visit n) (remove_all_parens p) = Some (r, c) -> is_or r = false).
  { clear V. intros r' c. destruct (remove_all_parens p) as [| |rg k|md x [sub|]|u p'|k ps|nm fps rs|ps|p']; try discriminate R; cbn [walk]; try (intros [= <- <-]; reflexivity).
    all: match goal with |- match ?t with _ => _ end = _ -> _ => destruct t as [[? ?]|]; [intros [= <- <-]; reflexivity|discriminate] end. }
  destruct (walk (visit n) (remove_all_parens p)) as [[r' c]|]; [|discriminate V]. specialize (W r' c eq_refl).
  assert (E : r' = r) by (destruct r'; try discriminate W; congruence). subst r'. destruct r as [| | |? ? [|]|[| | |]| | | |]; try discriminate W; reflexivity.
Qed.
Print Assumptions or_pattern_top_level.
(** Parentheses are put back where they are needed.  Missing: around ranges (false, see below). *)
Theorem or_pattern_parens_partial p : well_placed p -> writable (insert_parens p).
Proof. exact (insert_writable p). Qed.
Print Assumptions or_pattern_parens_partial.

(** Numbers and lists of values. *)
Inductive tree := Num (n : nat) | Node (l : list tree).
Definition trees : world := {|
  val := tree;
  leaf := fun range n v => match v with Num k => if range then Nat.leb k n else Nat.eqb k n | _ => false end;
  inner := fun _ v => Some v;
  parts := fun k v => match v with Node l => Some l | _ => None end;
  of_path := fun _ v => match v with Node _ => true | _ => false end;
  field := fun _ f v => match v with Node l => nth_error l f | _ => None end |}.
Definition lit := PLeaf false.
Definition var (x : nat) : pat := PIdent 0 x None.
Definition pair_ (a b : pat) : pat := PProd KTuple [a; b].

(** `(0, x) | (x, _) | (1, x)` becomes `(0 | 1, x) | (x, _)`: for (1, 5), x is 5 instead of 1. *)
Theorem or_pattern_bindings_refuted : exists p q v, unnested_or_patterns p = Some q /\ fields_once p /\ flat p /\ writable p /\
  first_way trees p v = Some [(7, 0, Num 1)] /\ first_way trees q v = Some [(7, 0, Num 5)].
Proof.
  exists (POr [pair_ (lit 0) (var 7); pair_ (var 7) PWild; pair_ (lit 1) (var 7)]), (POr [pair_ (POr [lit 0; lit 1]) (var 7); pair_ (var 7) PWild]), (Node [Num 1; Num 5]).
  vm_compute. repeat split; auto.
Qed.
Print Assumptions or_pattern_bindings_refuted.
(** `(0 | 0, 1) | (0 | 5, 2)` becomes `(0 | 0, 1 | 2)`: (5, 2) is no longer matched. *)
Theorem or_pattern_same_refuted : exists p q v, unnested_or_patterns p = Some q /\ fields_once p /\ writable p /\ matches trees p v /\ ~ matches trees q v.
Proof.
  exists (POr [pair_ (POr [lit 0; lit 0]) (lit 1); pair_ (POr [lit 0; lit 5]) (lit 2)]), (POr [pair_ (POr [lit 0; lit 0]) (POr [lit 1; lit 2])]), (Node [Num 5; Num 2]).
  split; [vm_compute; reflexivity|]. split; [vm_compute; tauto|]. split; [vm_compute; tauto|]. split; [exists []; vm_compute; now left|]. intros (e & I). vm_compute in I. exact I.
Qed.
Print Assumptions or_pattern_same_refuted.
(** Each of these can be written, and what is suggested for it cannot: `(&(1..=5), 1) | (&(1..=5), 2)`; `&(mut x @ 0 | mut x @ 1)`; `(.., 1) | (.., 1)`;
    `S { x, y: 3 } | S { x: x @ 1, y: 3 }`, for which `S { x | x @ 1, y: 3 }` is printed. *)
Theorem or_pattern_parens_refuted : Forall (fun p => writable p /\ exists q, unnested_or_patterns p = Some q /\ ~ writable q)
  [POr [pair_ (PUn URef (PParen (PLeaf true 5))) (lit 1); pair_ (PUn URef (PParen (PLeaf true 5))) (lit 2)];
   PUn URef (PParen (POr [PIdent 1 0 (Some (lit 0)); PIdent 1 0 (Some (lit 1))]));
   POr [pair_ PRest (lit 1); pair_ PRest (lit 1)];
   POr [PStruct 0 [(0, true, var 0); (1, false, lit 3)] false; PStruct 0 [(0, false, PIdent 0 0 (Some (lit 1))); (1, false, lit 3)] false]].
Proof.
  constructor; [|constructor; [|constructor; [|constructor; [|constructor]]]].
  - split; [vm_compute; intuition discriminate|]. eexists. split; [vm_compute; reflexivity|]. vm_compute. intuition discriminate.
  - split; [vm_compute; intuition discriminate|]. eexists. split; [vm_compute; reflexivity|]. vm_compute. intuition discriminate.
  - split; [vm_compute; intuition discriminate|]. eexists. split; [vm_compute; reflexivity|]. vm_compute. intuition discriminate.
  - split; [cbn; repeat split; try discriminate; try tauto; intros _; now exists 0|]. eexists. split; [vm_compute; reflexivity|].
    cbn. intros ((_ & H & _) & _). destruct (H eq_refl) as (md & E). discriminate.
Qed.
Print Assumptions or_pattern_parens_refuted.

(** `Some(Some(0)) | None | Some(Some(1)) | S { b: _, a: 1 } | S { a: &mut 2, b: _ }` *)
Example C64_nontrivial :
  let some p := PProd (KPath 1) [p] in
  let p := POr [some (some (lit 0)); PLeaf false 9; some (PParen (some (lit 1))); PStruct 4 [(1, false, PWild); (0, false, lit 1)] false; PStruct 4 [(0, false, PUn URefMut (lit 2)); (1, false, PWild)] false] in
  let q := POr [some (POr [some (POr [lit 0; lit 1])]); PLeaf false 9; PStruct 4 [(1, false, PWild); (0, false, POr [lit 1; PUn URefMut (lit 2)])] false] in
  unnested_or_patterns p = Some q /\ fields_once p /\ flat p /\ ways trees p (Node [Num 2; Num 6]) = [[]] /\ ways trees q (Node [Num 2; Num 6]) = [[]] /\ well_placed q.
Proof. cbn zeta. split; [vm_compute; reflexivity|]. split; [cbn; repeat split; repeat constructor; cbn; intuition discriminate|]. vm_compute. intuition discriminate. Qed.
(** `let (Some(0) | Some(1)) = x` *)
Example or_pattern_top_level_ex : let some p := PProd (KPath 1) [p] in unnested_or_patterns (PParen (POr [some (lit 0); some (lit 1)])) = Some (PParen (POr [some (POr [lit 0; lit 1])])).
Proof. reflexivity. Qed.
