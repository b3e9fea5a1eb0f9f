(** C67: comparisons with boolean literals; C68: `if` expressions whose results are boolean literals. *)
From Coq Require Import Lia.
From Verif Require Import SuggModel SuggSpec SuggProofs BoolCmpModel BoolCmpSpec BoolCmpProofs NeedlessBoolProofs.

(** *** C67 *)
(** The suggestion, put in place of the comparison within any operators and parentheses, parses as an expression with the value of the original.
    Missing: operands that bind looser than the operators around the comparison, types before a new `<`, and floats, all refuted below. *)
Theorem bool_comparison_value_partial V (I : reading V) B lit st op l r k s x y : booleans I B lit st ->
  valid (fill k (CBin (OBin op) l r)) -> no_type_before l -> no_type_before r ->
  value I (erase l) = B x -> value I (erase r) = B y ->
  room k <= loosest l -> room k <= loosest r ->
  bool_comparison st lit op l r = Some s ->
  exists e', parses (fill_toks k (disp s)) e' /\ value I e' = value I (erase (fill k (CBin (OBin op) l r))).
Proof.
  intros HB VF Tl Tr El Er Rl Rr H. pose proof (place_valid _ _ VF) as VC. destruct VC as (Vl & Vr & _ & _).
  destruct (bool_comparison_worth I B lit st op l r s x y HB Vl Vr Tl Tr El Er H) as (W & L).
  assert (R : room k <= 5) by (pose proof (place_room _ _ VF) as R; cbn in R; destruct op; cbn in *; try lia; discriminate).
  eapply worth_place; eauto.
Qed.
Print Assumptions bool_comparison_value_partial.
(** Alone, the suggestion never changes the value, whatever the operands. *)
Theorem bool_comparison_alone V (I : reading V) B lit st op l r s x y : booleans I B lit st ->
  valid (CBin (OBin op) l r) -> no_type_before l -> no_type_before r -> value I (erase l) = B x -> value I (erase r) = B y ->
  bool_comparison st lit op l r = Some s ->
  exists e', parses (disp s) e' /\ value I e' = value I (Bin op (erase l) (erase r)).
Proof.
  intros HB VF Tl Tr El Er H.
  apply (bool_comparison_value_partial V I B lit st op l r KHole s x y); auto; cbn; lia.
Qed.
Print Assumptions bool_comparison_alone.
(** What is reported: `==` and `!=` with one literal; `<` and `>` without literals or with one, unless the comparison is always false. *)
Theorem bool_comparison_reported V (I : reading V) B lit st op l r x y : booleans I B lit st -> (forall u v, B u = B v -> u = v) ->
  valid l -> valid r -> value I (erase l) = B x -> value I (erase r) = B y ->
  let lits := (match fetch_bool_expr lit l with Some _ => 1 | None => 0 end) + (match fetch_bool_expr lit r with Some _ => 1 | None => 0 end) in
  (bool_comparison st lit op l r <> None ->
     (lits = 1 /\ (op = Eq \/ op = Ne \/ op = Lt \/ op = Gt)) \/ (lits = 0 /\ (op = Lt \/ op = Gt)))
  /\ (lits = 1 -> op = Eq \/ op = Ne -> bool_comparison st lit op l r <> None)
  /\ (lits = 0 -> op = Lt \/ op = Gt -> bool_comparison st lit op l r <> None)
  /\ (lits = 1 -> op = Lt \/ op = Gt -> bool_comparison st lit op l r = None -> value I (Bin op (erase l) (erase r)) = B false).
Proof.
  intros HB INJ Vl Vr El Er lits. subst lits.
  assert (FL := fun b => fetch_value I B lit st HB l b Vl). assert (FR := fun b => fetch_value I B lit st HB r b Vr). rewrite El in FL. rewrite Er in FR.
  destruct (fetch_bool_expr lit l) as [[|]|] eqn:FA; destruct (fetch_bool_expr lit r) as [[|]|] eqn:FB;
    repeat match goal with F : forall b, Some ?b0 = Some b -> B ?v = B b |- _ => specialize (F b0 eq_refl); apply INJ in F end;
    repeat split; try (destruct op; unfold bool_comparison, check_comparison; rewrite ?FA, ?FB; cbn; intros; try tauto; try discriminate; try lia;
      (repeat match goal with H : _ \/ _ |- _ => destruct H | H : _ /\ _ |- _ => destruct H end; congruence || fail)).
  all: intros _ [-> | ->]; unfold bool_comparison, check_comparison; rewrite ?FA, ?FB; cbn; try discriminate; intros _; rewrite El, Er;
    rewrite ?(b_lt _ _ _ _ HB), ?(b_gt _ _ _ _ HB); subst; f_equal; destruct x || destruct y; reflexivity.
Qed.
Print Assumptions bool_comparison_reported.

Local Notation a := (CAtom 0). Local Notation b := (CAtom 1). Local Notation c := (CAtom 2). Local Notation tt' := (CAtom 3). Local Notation ff := (CAtom 4).
Local Notation bin o := (CBin (OBin o)).
Definition lits (n : nat) : option bool := match n with 3 => Some true | 4 => Some false | _ => None end.
Definition bool_reading (x y z : bool) : reading bool :=
  {| r_atom := fun n => match n with 0 => x | 1 => y | 2 => z | 3 => true | _ => false end; r_post := fun v _ => v; r_un := fun u v => match u with Not => negb v | _ => v end;
     r_bin := fun o p q => match o with And | BitAnd => andb p q | Or | BitOr => orb p q | Eq => Bool.eqb p q | Ne => xorb p q
                | Lt => andb (negb p) q | Gt => andb p (negb q) | Ge => orb p (negb q) | Le => orb (negb p) q | _ => xorb p q end;
     r_cast := fun v _ => v; r_range := fun _ v _ => v; r_assign := fun _ _ v => v; r_return := fun v => v |}.
Lemma bool_reading_ok x y z st : booleans (bool_reading x y z) (fun v => v) lits st.
Proof.
  split; cbn; try (intros; reflexivity).
  - intros n v. destruct n as [|[|[|[|[|]]]]]; cbn; try discriminate; intros E; injection E as <-; reflexivity.
  - intros p q; destruct p, q; reflexivity.
  - intros d v _ <-. symmetry. apply negb_involutive.
  - intros o o' p q v F. destruct F; intros <-; destruct p, q; reflexivity.
  - intros o A p q w. destruct o; try discriminate; destruct p, q, w; reflexivity.
Qed.
(** Parentheses of the operand are dropped: `(a || b) == true && c` becomes `a || b && c`, and `!(a || b) == false` loses them too. *)
Theorem bool_comparison_value_refuted : exists op l r k s e' x y z, valid (fill k (bin op l r)) /\ bool_comparison (fun _ => true) lits op l r = Some s
  /\ parses (fill_toks k (disp s)) e'
  /\ value (bool_reading x y z) (erase (fill k (bin op l r))) = false /\ value (bool_reading x y z) e' = true.
Proof.
  exists Eq, (CParen (bin Or a b)), tt', (KBinL (OBin And) KHole c). do 2 eexists. exists true, false, false.
  split; [|split; [reflexivity|split; [exists 50; reflexivity|vm_compute; auto]]].
  cbn. repeat split; try lia; try discriminate; intros [E|E]; discriminate.
Qed.
Print Assumptions bool_comparison_value_refuted.
Theorem bool_comparison_not_refuted : exists op l r k s e' x y z, valid (fill k (bin op l r)) /\ bool_comparison (fun _ => true) lits op l r = Some s
  /\ (exists i, unparen l = CUn Not i) /\ parses (fill_toks k (disp s)) e'
  /\ value (bool_reading x y z) (erase (fill k (bin op l r))) = false /\ value (bool_reading x y z) e' = true.
Proof.
  exists Eq, (CUn Not (CParen (bin Or a b))), ff, (KBinL (OBin And) KHole c). do 2 eexists. exists true, false, false.
  split; [|split; [reflexivity|split; [eexists; reflexivity|split; [exists 50; reflexivity|vm_compute; auto]]]].
  cbn. repeat split; try lia; try discriminate; intros [E|E]; discriminate.
Qed.
Print Assumptions bool_comparison_not_refuted.
(** `(a < b) == false` becomes `a >= b`, also for floats: here [None] is not a number, [Some 1] is true and [Some 0] false. *)
Definition float_reading : reading (option nat) :=
  let truth (t : bool) := Some (if t then 1 else 0) in
  {| r_atom := fun n => match n with 0 => None | 4 => Some 0 | n => Some n end; r_post := fun v _ => v;
     r_un := fun u v => match u with Not => match v with Some 0 => Some 1 | Some _ => Some 0 | None => None end | _ => v end;
     r_bin := fun o x y => let cmp f := match x, y with Some x, Some y => truth (f x y) | _, _ => truth false end in
       match o with Lt => cmp Nat.ltb | Le => cmp Nat.leb | Gt => cmp (fun x y => Nat.ltb y x) | Ge => cmp (fun x y => Nat.leb y x)
                  | Eq => cmp Nat.eqb | _ => None end;
     r_cast := fun v _ => v; r_range := fun _ v _ => v; r_assign := fun _ v _ => v; r_return := fun v => v |}.
Theorem bool_comparison_float_refuted : exists l s e', valid (bin Eq l ff) /\ bool_comparison (fun _ => true) lits Eq l ff = Some s /\ parses (disp s) e'
  /\ value float_reading (erase l) = Some 0 /\ value float_reading (Bin Eq (erase l) (erase ff)) = Some 1 /\ value float_reading e' = Some 0.
Proof.
  exists (CParen (bin Lt a b)). do 2 eexists. split; [|split; [reflexivity|split; [exists 50; reflexivity|vm_compute; auto]]].
  cbn. repeat split; try lia; try discriminate;
    try (intros H; destruct H; discriminate); intros H ([|? [|? ?]] & n & E); discriminate.
Qed.
Print Assumptions bool_comparison_float_refuted.
(** `(a as T >= b) == false` becomes `a as T < b`, which does not parse. *)
Theorem bool_comparison_type_refuted : exists l s, valid (bin Eq l ff) /\ bool_comparison (fun _ => true) lits Eq l ff = Some s /\ forall e, ~ parses (disp s) e.
Proof.
  exists (CParen (bin Ge (CCast a 7) b)). eexists. split; [|split; [reflexivity|]].
  - cbn. repeat split; try lia; try discriminate; intros [E|E]; discriminate.
  - intros e (g & G). assert (E : Error = Done e []); [|discriminate].
    apply (runs_unique (MAt 0) [TAtom 0; TAs; TType 7; TBin Lt; TAtom 1]); [exists 50|exists g]; (split; [|discriminate]); [reflexivity|exact G].
Qed.
Print Assumptions bool_comparison_type_refuted.

(** `c || (a == b) != true` and `(a & b) < c` in their places. *)
Example C67_nontrivial : exists s s', let l := CParen (bin Eq a b) in
  booleans (bool_reading true true false) (fun v => v) lits (fun _ => true)
  /\ valid (fill (KBinR (OBin Or) c KHole) (bin Ne l tt')) /\ bool_comparison (fun _ => true) lits Ne l tt' = Some s
  /\ fill_toks (KBinR (OBin Or) c KHole) (disp s) = [TAtom 2; TBin Or; TAtom 0; TBin Ne; TAtom 1]
  /\ room (KBinR (OBin Or) c KHole) <= loosest l
  /\ bool_comparison (fun _ => true) lits Lt (CParen (bin BitAnd a b)) c = Some s'
  /\ disp s' = [TBang; TLParen; TAtom 0; TBin BitAnd; TAtom 1; TRParen; TBin BitAnd; TAtom 2].
Proof.
  do 2 eexists. split; [apply bool_reading_ok|]. split; [|split; [reflexivity|split; [reflexivity|split; [cbn; lia|split; reflexivity]]]].
  cbn. repeat split; try lia; try discriminate; intros [E|E]; discriminate.
Qed.

(** *** C68 *)
(** `if cond {true} else {false}` and the reverse, anywhere within operators and parentheses ([n] stands for the `if`): the suggestion put in its place parses
    as an expression of the same value.  Missing: directly behind `&` (refuted below), after `else`, and conditions that are assignments or ranges (which are not of type `bool`). *)
Theorem needless_bool_value_partial V (I : reading V) B lit st blk callish method cond va vb n k pl s x : booleans I B lit st ->
  valid cond -> no_type_before cond -> 3 <= loosest cond -> value I (erase cond) = B x -> r_atom V I n = B (if x then va else vb) ->
  valid (fill k (CAtom n)) -> (forall m, parent k <> PUn (AddrOf m)) -> (forall i, parent k = PPost i -> method i = true) ->
  needless_bool st blk callish method cond (Bool va) (Bool vb) k pl = Some s ->
  exists e', parses (fill_toks k (disp s)) e' /\ value I e' = value I (erase (fill k (CAtom n))).
Proof.
  intros HB VC T L EC EN VF NA NM H.
  assert (W : exists s0, worth I s0 (B (if x then va else vb)) /\ 3 <= lvl s0 /\ s = if match parent k with
     | PTop => condition_needs_parentheses blk callish cond && is_parent_stmt pl | PPost n => method n | PCast => true | PBin (OBin _) => true
     | PUn (Deref | Not | Neg) => true | _ => false end then maybe_paren s0 else s0).
  { destruct (hir_loosest st cond 3 ltac:(lia) L) as [L1 L2]. assert (K := keep_worth I st cond VC). rewrite EC in K. assert (N := not_worth I B lit st HB cond x VC T EC).
    destruct va, vb; try discriminate; injection H as <-.
    - exists (hir_with_context st cond). destruct x; auto.
    - exists (not_ (hir_with_context st cond)). destruct x; auto. }
  destruct W as (s0 & W & L0 & ->). destruct (match parent k with PTop => _ | _ => _ end) eqn:P.
  - eapply worth_paren; eauto.
  - pose proof (parent_room k PTop 0 eq_refl) as R. fold (parent k) in R. assert (R3 : room k <= 3).
    { destruct (parent k) as [|i|u|[]|] eqn:PK; try discriminate; auto.
      - rewrite (NM i eq_refl) in P. discriminate.
      - destruct u; try discriminate. exfalso. eapply NA. reflexivity. }
    eapply worth_place; eauto; lia.
Qed.
Print Assumptions needless_bool_value_partial.
(** With `return` in both branches, as a statement of its own. *)
Theorem needless_bool_return V (I : reading V) B lit st blk callish method cond va vb pl s x : booleans I B lit st ->
  valid cond -> no_type_before cond -> value I (erase cond) = B x ->
  needless_bool st blk callish method cond (RetBool va) (RetBool vb) KHole pl = Some s ->
  exists e', parses (disp s) (Return e') /\ value I e' = B (if x then va else vb).
Proof.
  intros HB VC T EC H. assert (K := keep_worth I st cond VC). rewrite EC in K. assert (N := not_worth I B lit st HB cond x VC T EC).
  destruct va, vb; try discriminate; injection H as <-; unfold reduce; cbn [parent parent_from make_return].
  - destruct K as (e & S & E). exists e. split; [|destruct x; auto]. apply stands_parses, parses_return in S.
    destruct (condition_needs_parentheses blk callish cond && is_parent_stmt pl); exact S.
  - destruct N as (e & S & E). exists e. split; [|destruct x; auto]. apply stands_parses, parses_return in S.
    destruct (condition_needs_parentheses blk callish cond && is_parent_stmt pl); exact S.
Qed.
Print Assumptions needless_bool_return.
(** `if cond { lhs = a } else { lhs = b }`: afterwards the assignment has the value of the branch taken, and if both are the same, the condition is kept. *)
Theorem needless_bool_assign_value V (I : reading V) B lit st lit_text cond lhs va vb x : booleans I B lit st ->
  valid cond -> no_type_before cond -> value I (erase cond) = B x -> (forall t, r_atom V I (lit_text t) = B t) -> valid lhs -> 3 <= level lhs ->
  exists pre e', Forall2 parses (needless_bool_assign st lit_text cond lhs va vb) (pre ++ [e'])
    /\ value I e' = r_assign V I None (value I (erase lhs)) (B (if x then va else vb))
    /\ map (value I) pre = if eqb va vb then [B x] else [].
Proof.
  intros HB VC T EC LT VL LL. assert (K := keep_worth I st cond VC). rewrite EC in K. assert (N := not_worth I B lit st HB cond x VC T EC).
  assert (A : forall s v, worth I s (B v) -> exists e', parses (snippet lhs ++ TAssign :: disp s) e' /\ value I e' = r_assign V I None (value I (erase lhs)) (B v)).
  { intros s v (e & S & E). apply stands_gram in S as (p & _ & G). exists (Assign None (erase lhs) e).
    split; [|cbn; now rewrite E]. eapply gram_parses. eapply g_assign; eauto using valid_gram. apply gram_le in G. lia. }
  unfold needless_bool_assign. destruct (eqb va vb) eqn:AB.
  - apply eqb_prop in AB. subst vb. destruct K as (e & S & E). exists [e], (Assign None (erase lhs) (Atom (lit_text va))). split; [|split].
    + constructor; [now apply stands_parses|]. constructor; [|constructor]. eapply gram_parses. eapply g_assign; [now apply valid_gram|apply g_atom|exact LL|lia].
    + cbn. rewrite LT. destruct x; reflexivity.
    + cbn. now rewrite E.
  - destruct va.
    + destruct vb; [discriminate|]. destruct (A _ _ K) as (e' & P & E). exists [], e'. split; [constructor; auto|]. split; [destruct x; exact E|reflexivity].
    + destruct vb; [|discriminate]. destruct (A _ _ N) as (e' & P & E). exists [], e'. split; [constructor; auto|]. split; [destruct x; exact E|reflexivity].
Qed.
Print Assumptions needless_bool_assign_value.
(** `if cond { return a; } b`. *)
Theorem needless_bool_guard_value V (I : reading V) B lit st cond va vb t x : booleans I B lit st ->
  valid cond -> no_type_before cond -> value I (erase cond) = B x -> needless_bool_guard st cond va vb = Some t ->
  exists e', parses t e' /\ value I e' = B (if x then va else vb).
Proof.
  intros HB VC T EC H. assert (K := keep_worth I st cond VC). rewrite EC in K. assert (N := not_worth I B lit st HB cond x VC T EC).
  unfold needless_bool_guard in H. destruct va, vb; try discriminate; injection H as <-.
  - destruct K as (e & S & E). exists e. split; [now apply stands_parses|destruct x; auto].
  - destruct N as (e & S & E). exists e. split; [now apply stands_parses|destruct x; auto].
Qed.
Print Assumptions needless_bool_guard_value.
(** As a statement, or alone in a block, the suggestion does not end early after a block or `match` it begins with.
    Missing: negating a condition that begins with `!`, blocks that are called or indexed, and the end of a block after statements, all refuted below. *)
Theorem needless_bool_statement_partial st blk callish method cond va vb pl s :
  valid cond -> 3 <= level (unparen cond) -> is_parent_stmt pl = true -> calls_block blk callish (unparen cond) = false ->
  (va = Bool false -> forall i, unparen cond <> CUn Not i) ->
  needless_bool st blk callish method cond va vb KHole pl = Some s -> ~ cut_short blk callish (disp s).
Proof.
  intros VC L P CB NN H. assert (S : stands_for (hir_with_context st cond) (erase cond)) by (apply hir_ctx_stands; auto).
  assert (RET : forall t, ~ cut_short blk callish (TReturn :: t)) by (intros t (m & tok & rest & E & _); discriminate).
  assert (PAR : forall s, (forall t, s = NonParen t -> ~ cut_short blk callish t) -> ~ cut_short blk callish (disp (maybe_paren s))).
  { intros s0 N. destruct s0 as [t|t|op l r|u i]; cbn.
    - now apply N.
    - destruct (has_enclosing_paren t) eqn:E; [|apply parens_not_cut]. cbn. intros (m & tok & rest & -> & _). discriminate.
    - apply parens_not_cut.
    - apply parens_not_cut. }
  destruct va as [va|va], vb as [vb|vb]; destruct va, vb; try discriminate; injection H as <-; unfold reduce; cbn [parent parent_from]; rewrite P, andb_true_r;
    destruct (condition_needs_parentheses blk callish cond) eqn:C; try apply RET.
  - apply PAR. intros t E. eapply hir_nonparen_cut; eauto.
  - now apply hir_not_cut.
  - apply PAR. intros t E. exfalso. apply not_nonparen in E as (i & E). eapply NN; eauto.
  - apply hir_not_cut; auto.
Qed.
Print Assumptions needless_bool_statement_partial.
(** At the end of a block after other statements no parentheses are added: `g(); if match .. {..} == a { true } else { false }`. *)
Theorem needless_bool_statement_refuted : exists blk callish cond s, valid cond /\ 3 <= level cond /\ calls_block blk callish cond = false
  /\ needless_bool (fun _ => true) blk callish (fun _ => true) cond (Bool true) (Bool false) KHole BlockEnd = Some s /\ cut_short blk callish (disp s).
Proof.
  exists (Nat.eqb 1), (fun _ => false), (bin Eq b a). eexists. repeat split; cbn; try lia; try discriminate.
  - intros [E|E]; discriminate.
  - exists 1, (TBin Eq), [TAtom 0]. auto.
Qed.
Print Assumptions needless_bool_statement_refuted.
(** Nor are they when a `!` is taken away, or for a method call on a called block. *)
Theorem needless_bool_statement_not_refuted : exists blk callish cond s, valid cond /\ calls_block blk callish (unparen cond) = false
  /\ needless_bool (fun _ => true) blk callish (fun _ => true) cond (Bool false) (Bool true) KHole Stmt = Some s /\ cut_short blk callish (disp s).
Proof.
  exists (Nat.eqb 1), (fun _ => false), (CUn Not (CParen (bin BitAnd b a))). eexists. repeat split; cbn; try lia; try discriminate.
  - intros [E|E]; discriminate.
  - exists 1, (TBin BitAnd), [TAtom 0]. auto.
Qed.
Print Assumptions needless_bool_statement_not_refuted.
Theorem needless_bool_statement_call_refuted : exists blk callish cond s, valid cond /\ level cond = 14
  /\ needless_bool (fun _ => true) blk callish (fun _ => true) cond (Bool true) (Bool false) KHole Stmt = Some s /\ cut_short blk callish (disp s).
Proof.
  exists (Nat.eqb 1), (Nat.eqb 0), (CPost (CPost b 0) 1). eexists. repeat split; cbn; try lia.
  exists 1, (TPost 0), [TPost 1]. auto.
Qed.
Print Assumptions needless_bool_statement_call_refuted.
(** `&if a == b { true } else { false }` becomes `&a == b`; [5] is the `if`. *)
Theorem needless_bool_addr_refuted : exists cond k s e', valid cond /\ 3 <= loosest cond /\ valid (fill k (CAtom 5))
  /\ needless_bool (fun _ => true) (fun _ => false) (fun _ => false) (fun _ => true) cond (Bool true) (Bool false) k Elsewhere = Some s
  /\ parses (fill_toks k (disp s)) e' /\ erase (fill k cond) = Un (AddrOf false) (Bin Eq (Atom 0) (Atom 1)) /\ e' = Bin Eq (Un (AddrOf false) (Atom 0)) (Atom 1).
Proof.
  exists (bin Eq a b), (KUn (AddrOf false) KHole). do 2 eexists. split; [|split; [|split; [|split; [reflexivity|split; [exists 50; reflexivity|split; reflexivity]]]]];
  cbn; repeat split; try lia; try discriminate. intros [E|E]; discriminate.
Qed.
Print Assumptions needless_bool_addr_refuted.
(** A `return` gets no parentheses on the left of an operator: `if a { return true } else { return false } == b` becomes `return a == b`. *)
Theorem needless_bool_return_refuted : exists cond k s e', valid cond /\ valid (fill k (CAtom 5))
  /\ needless_bool (fun _ => true) (fun _ => false) (fun _ => false) (fun _ => true) cond (RetBool true) (RetBool false) k Elsewhere = Some s
  /\ parses (fill_toks k (disp s)) e' /\ e' <> fill_tree k (Return (erase cond)).
Proof.
  exists a, (KBinL (OBin Eq) KHole b). do 2 eexists. split; [exact Logic.I|]. split; [|split; [reflexivity|split; [exists 50; reflexivity|discriminate]]].
  cbn; repeat split; try lia; try discriminate. intros [E|E]; discriminate.
Qed.
Print Assumptions needless_bool_return_refuted.

(** `c & if !(a == b) { false } else { true }`, and `match .. {..} == a` as a statement. *)
Example C68_nontrivial : exists s s', let cond := CUn Not (CParen (bin Eq a b)) in
  booleans (bool_reading true true false) (fun v => v) lits (fun _ => true)
  /\ valid cond /\ 3 <= loosest cond /\ valid (fill (KBinR (OBin BitAnd) c KHole) (CAtom 3))
  /\ needless_bool (fun _ => true) (Nat.eqb 1) (fun _ => false) (fun _ => true) cond (Bool false) (Bool true) (KBinR (OBin BitAnd) c KHole) Elsewhere = Some s
  /\ fill_toks (KBinR (OBin BitAnd) c KHole) (disp s) = [TAtom 2; TBin BitAnd; TLParen; TAtom 0; TBin Eq; TAtom 1; TRParen]
  /\ needless_bool (fun _ => true) (Nat.eqb 1) (fun _ => false) (fun _ => true) (bin Eq b a) (Bool true) (Bool false) KHole Stmt = Some s'
  /\ disp s' = [TLParen; TAtom 1; TBin Eq; TAtom 0; TRParen].
Proof.
  do 2 eexists. split; [apply bool_reading_ok|]. split; [|split; [cbn; lia|split; [|repeat split; reflexivity]]];
  cbn; repeat split; try lia; try discriminate; intros [E|E]; discriminate.
Qed.
