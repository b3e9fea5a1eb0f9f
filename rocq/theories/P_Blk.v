(** Theorems about the lints on blocks, `if`, `let`, loops, assignments and `continue`. *)
From Verif Require Import BlkSpec BlkEnv BlkModel BlkProofs BlkProofs2 BlkProofs3 BlkProofs4 BlkProofs5 BlkProofs6 BlkProofs8.

(** Abbreviations for the examples: integers, booleans, `()`; the test `f(n, ())`; a state and two worlds to run programs in. *)
Definition I_ (z : Z) : ex := XVal (VInt z).
Definition B_ (b : bool) : ex := XVal (VBool b).
Definition U_ : ex := XVal VUnit.
Definition C_ (f : nat) : ex := XCall f U_ U_.
Definition st0 : st := (fun _ => VInt 7, []).
Definition yes : list ev -> option val := fun _ => Some (VBool true).
Definition no : list ev -> option val := fun _ => Some (VBool false).
Definition num : list ev -> option val := fun _ => Some (VInt 5).
(** A judge of types that knows `break`, `continue` and `return`. *)
Definition nev (e : ex) : bool :=
  match e with XBrk _ _ | XCnt _ | XRet _ => true | XSeq (XBrk _ _) _ | XSeq (XCnt _) _ | XSeq (XRet _) _ => true
  | XSeq _ (XSeq (XBrk _ (XVal VUnit)) _) => true | _ => false end.
Lemma nev_sound : forall e, nev e = true -> forall w n s v, fst (eval w n e s) <> OVal v.
Proof.
  assert (J : forall w n e s, match e with XBrk _ _ | XCnt _ | XRet _ => True | _ => False end -> forall v, fst (eval w n e s) <> OVal v).
  { intros w n e s H v. destruct e; try tauto; cbn [eval]; try discriminate; destruct (eval w n e s) as [[] t]; discriminate. }
  assert (S : forall w n a b s, (forall v, fst (eval w n a s) <> OVal v) -> forall v, fst (eval w n (XSeq a b) s) <> OVal v).
  { intros w n a b s H v. cbn [eval]. destruct (eval w n a s) as [[] t]; try discriminate. exfalso. apply (H v0). reflexivity. }
  assert (S2 : forall w n a b s, (forall s v, fst (eval w n b s) <> OVal v) -> forall v, fst (eval w n (XSeq a b) s) <> OVal v).
  { intros w n a b s H v. cbn [eval]. destruct (eval w n a s) as [[] t]; try discriminate. apply H. }
  intros e H w n s v. destruct e; try discriminate; try (apply J; exact I).
  assert (D : match e1 with XBrk _ _ | XCnt _ | XRet _ => True | _ => False end \/ exists l c, e2 = XSeq (XBrk l (XVal VUnit)) c).
  { destruct e1; auto; right; destruct e2; try discriminate; destruct e2_1; try discriminate; destruct e2_1; try discriminate; match goal with |- exists _ _, XSeq (XBrk _ (XVal ?u)) _ = _ => destruct u; try discriminate end; eauto. }
  destruct D as [D|[l [c ->]]]; [apply S; intros; apply J; exact D|]. apply S2. intros. discriminate.
Qed.
Ltac refute H w n s := first
  [ let F := fresh in assert (F := proj1 (H w n s)); vm_compute in F; discriminate F
  | let F := fresh in assert (F := proj1 (H w n s ltac:(vm_compute; discriminate))); vm_compute in F; discriminate F ].
Ltac refute_at H w n s y := first
  [ let F := fresh in assert (F := proj2 (proj2 (H w n s)) y eq_refl); vm_compute in F; discriminate F
  | let F := fresh in assert (F := proj2 (proj2 (H w n s ltac:(vm_compute; discriminate))) y eq_refl); vm_compute in F; discriminate F ].
Ltac refute_ev H w n s := first
  [ let F := fresh in assert (F := proj1 (proj2 (H w n s))); vm_compute in F; discriminate F
  | let F := fresh in assert (F := proj1 (proj2 (H w n s ltac:(vm_compute; discriminate)))); vm_compute in F; discriminate F ].

(** ** C118: conditions.  Whatever the conditions and branches are, the rewritten `if` ends the same way with the same calls and variables. *)
Theorem collapsible_if_keeps : forall chains e e', collapsible_if chains e = Some e' -> same e e'.
Proof. exact collapsible_if_ok. Qed.
Theorem collapsible_else_if_partial : forall e e', collapsible_else_if e = Some e' ->
  (forall k c t, e = XIf k (XBrace (XSeq c t)) -> unit_valued c) -> same e e'.
Proof. exact collapsible_else_if_ok. Qed.
(** `if a {} else { if b { 2 } else { 3 }; }`: with the braces goes the `;`. *)
Theorem collapsible_else_if_refuted : exists e e', rust e /\ collapsible_else_if e = Some e' /\ ~ same_ok e e'.
Proof.
  exists (XIf (XTest (C_ 0) U_) (XBrace (XSeq (XIf (XTest (C_ 1) (I_ 2)) (I_ 3)) U_))). eexists. split; [reflexivity|]. split; [reflexivity|]. intros H. refute H no 1 st0.
Qed.
Theorem needless_else_keeps : forall e e', needless_else e = Some e' -> unit_valued e -> same e e'.
Proof. exact needless_else_ok. Qed.
Theorem needless_ifs_keeps : forall effects e e',
  (forall c, effects c = false -> forall w n s, fst (eval w n c s) <> OStuck -> (exists v, fst (eval w n c s) = OVal v) /\ agree none_of s (snd (eval w n c s))) ->
  rust e -> needless_ifs effects e = Some e' -> same_ok e e'.
Proof. exact needless_ifs_ok. Qed.
Theorem if_not_else_keeps : forall e e', rust e -> if_not_else e = Some e' -> same e e'.
Proof. exact if_not_else_ok. Qed.
Theorem blocks_in_conditions_braces_keeps : forall e e', blocks_in_conditions_braces e = Some e' -> same e e'.
Proof. exact blocks_braces_ok. Qed.
Theorem blocks_in_conditions_let_partial : forall res e e', rust e -> uses res e = false -> blocks_in_conditions_let res e = Some e' -> same e e'.
Proof. exact blocks_let_ok. Qed.
(** `if { f(); g() } {}` followed by a use of a variable called `res`. *)
Theorem blocks_in_conditions_let_refuted : exists e e', rust e /\ blocks_in_conditions_let 0 e = Some e' /\ ~ same_ok e e'.
Proof.
  exists (XSeq (XWhen (XTest (XBrace (XSeq (C_ 0) (C_ 1))) U_)) (XVar 0)). eexists. split; [reflexivity|]. split; [reflexivity|]. intros H. refute H no 1 st0.
Qed.
Example C118_nontrivial :
  collapsible_if true (XWhen (XBind (P1 1 (PVar 0)) (C_ 0) (XWhen (XTest (XBin OEq (XVar 0) (I_ 3)) (XSeq (C_ 1) U_))))) =
    Some (XWhen (XBind (P1 1 (PVar 0)) (C_ 0) (XTest (XBin OEq (XVar 0) (I_ 3)) (XSeq (C_ 1) U_)))) /\
  collapsible_if false (XWhen (XBind (P1 1 (PVar 0)) (C_ 0) (XWhen (XTest (XBin OEq (XVar 0) (I_ 3)) (XSeq (C_ 1) U_))))) = None /\
  if_not_else (XIf (XTest (XNot (C_ 0)) (C_ 1)) (C_ 2)) = Some (XIf (XTest (C_ 0) (C_ 2)) (C_ 1)) /\
  needless_ifs (fun _ => true) (XSeq (XWhen (XTest (C_ 0) (XTest (C_ 1) U_))) (C_ 2)) = Some (XSeq (XAnd (C_ 0) (C_ 1)) (C_ 2)) /\
  blocks_in_conditions_let 9 (XIf (XTest (XBrace (XSeq (C_ 0) (C_ 1))) (C_ 2)) (C_ 3)) = Some (XLet (PVar 9) (XBrace (XSeq (C_ 0) (C_ 1))) (XIf (XTest (XVar 9) (C_ 2)) (C_ 3))).
Proof. repeat split. Qed.

(** ** C119: `else` after a branch that does not go on.  [ty_never]: which expressions the compiler gives type `!`; they yield no value. *)
Theorem redundant_else_tail_keeps : forall ty_never, (forall e, ty_never e = true -> forall w n s v, fst (eval w n e s) <> OVal v) ->
  forall e e', redundant_else_tail ty_never e = Some e' -> same e e'.
Proof. exact redundant_else_tail_ok. Qed.
Theorem redundant_else_stmt_keeps : forall ty_never, (forall e, ty_never e = true -> forall w n s v, fst (eval w n e s) <> OVal v) ->
  forall e e', redundant_else_stmt ty_never e = Some e' -> redundant_else_applicable ty_never e = true \/ tidy e -> same e e'.
Proof. exact redundant_else_stmt_ok. Qed.
(** `if f() { return } else { let x = 1; } x`: without the `else` the last `x` is another variable.  This suggestion is not marked as one for programs to apply. *)
Theorem redundant_else_stmt_refuted : exists e e', rust e /\ redundant_else_stmt nev e = Some e' /\ ~ same_ok e e'.
Proof.
  exists (XSeq (XIf (XTest (C_ 0) (XRet U_)) (XBrace (XLet (PVar 0) (I_ 1) U_))) (XVar 0)). eexists. split; [reflexivity|]. split; [reflexivity|]. intros H. refute H no 1 st0.
Qed.
Example C119_nontrivial :
  redundant_else_tail nev (XIf (XTest (C_ 0) (XRet U_)) (XIf (XTest (C_ 1) (XCnt None)) (XBrace (C_ 2)))) =
    Some (XSeq (XIf (XTest (C_ 0) (XRet U_)) (XWhen (XTest (C_ 1) (XCnt None)))) (C_ 2)) /\
  redundant_else_tail nev (XIf (XTest (C_ 0) (C_ 3)) (XBrace (C_ 2))) = None /\
  (forall e, nev e = true -> forall w n s v, fst (eval w n e s) <> OVal v).
Proof. split; [reflexivity|]. split; [reflexivity|]. exact nev_sound. Qed.

(** ** C120: `let` declarations. *)
(** `let x; .. x = v` or `let x; .. if c { .. x = a } else { .. x = b }`: the assignments become the value of the `let`. *)
Theorem needless_late_init_partial : forall ty_never, (forall e, ty_never e = true -> forall w n s v, fst (eval w n e s) <> OVal v) ->
  forall x b e', needless_late_init ty_never (XDecl x b) = Some e' -> uses x e' = false -> same (XDecl x b) e'.
Proof. exact needless_late_init_ok. Qed.
(** `let x; if f() { x = 1 } else { x = 2; break }`, where a variable of that name exists outside: the branch that does not go on now assigns that one. *)
Theorem needless_late_init_refuted : exists e e', rust e /\ needless_late_init nev e = Some e' /\ ~ same_ok e e'.
Proof.
  exists (XDecl 0 (XSeq (XIf (XTest (C_ 0) (XSeq (XAsg 0 (I_ 1)) U_)) (XSeq (XAsg 0 (I_ 2)) (XSeq (XBrk None U_) U_))) (XVar 0))).
  eexists. split; [reflexivity|]. split; [reflexivity|]. intros H. refute_at H no 1 st0 0.
Qed.
Theorem useless_let_if_seq_partial : forall x c b e', useless_let_if_seq (XLet (PVar x) (XVal c) b) = Some e' -> rust b ->
  (forall k d r, b = XSeq (XIf k d) r \/ b = XIf k d -> unit_valued d) -> uses x e' = false -> same_ok (XLet (PVar x) (XVal c) b) e'.
Proof. exact useless_let_if_seq_ok. Qed.
(** `let x = f(); if g() { x = 1; }`: the call of `f` is made after that of `g`, or not at all. *)
Theorem useless_let_if_seq_refuted : exists e e', rust e /\ useless_let_if_seq e = Some e' /\ ~ same_ok e e'.
Proof.
  exists (XLet (PVar 0) (C_ 0) (XSeq (XWhen (XTest (C_ 1) (XSeq (XAsg 0 (I_ 1)) U_))) (XVar 0))). eexists. split; [reflexivity|]. split; [reflexivity|]. intros H. refute_ev H yes 1 st0.
Qed.
Theorem manual_let_else_partial : forall ty_never, (forall e, ty_never e = true -> forall w n s v, fst (eval w n e s) <> OVal v) ->
  forall e e', manual_let_else ty_never e = Some e' -> linear e -> linear e' -> rust e ->
  (forall p i q c d r, e = XLet p i r -> e' = XLetElse q c d r -> forall z, mem z (pvars q) = true -> mem z (pvars p) = false -> uses z r = false) ->
  (forall p c q1 b1 q2 b2 r, e = XLet p (XMatch c q1 b1 q2 b2) r -> ty_never b1 = true -> forall v f, pbind q1 v f <> None -> pbind q2 v f <> None -> False) ->
  same_ok e e'.
Proof. exact manual_let_else_ok. Qed.
(** `let x = if let C(a, b) = .. { a } else { return }; b`: the suggestion brings the name `b` into scope. *)
Theorem manual_let_else_refuted : exists e e', rust e /\ linear e /\ linear e' /\ manual_let_else nev e = Some e' /\ ~ same_ok e e'.
Proof.
  exists (XLet (PVar 0) (XIf (XBind (P2 2 (PVar 1) (PVar 2)) (XVal (vpair (VInt 1) (VInt 2))) (XVar 1)) (XRet U_)) (XVar 2)).
  eexists. split; [reflexivity|]. split; [|split; [|split; [reflexivity|]]].
  - intros p H. cbn in H. destruct H as [<-|[<-|[]]]; repeat constructor; cbn; intuition; discriminate.
  - intros p H. cbn in H. destruct H as [<-|[]]; repeat constructor; cbn; intuition; discriminate.
  - intros H. refute H yes 1 st0.
Qed.
Theorem redundant_locals_keeps : forall x e e', redundant_local x e = Some e' -> same_ok e e'.
Proof. exact redundant_local_ok. Qed.
Example C120_nontrivial :
  needless_late_init nev (XDecl 0 (XSeq (C_ 0) (XSeq (XIf (XTest (C_ 1) (XSeq (XAsg 0 (I_ 1)) U_)) (XIf (XTest (C_ 2) (XRet U_)) (XSeq (C_ 3) (XSeq (XAsg 0 (I_ 2)) U_)))) (XVar 0)))) =
    Some (XSeq (C_ 0) (XLet (PVar 0) (XIf (XTest (C_ 1) (I_ 1)) (XIf (XTest (C_ 2) (XRet U_)) (XSeq (C_ 3) (I_ 2)))) (XVar 0))) /\
  useless_let_if_seq (XLet (PVar 0) (I_ 5) (XSeq (XWhen (XTest (C_ 0) (XSeq (XAsg 0 (I_ 1)) U_))) (XVar 0))) =
    Some (XLet (PVar 0) (XIf (XTest (C_ 0) (I_ 1)) (I_ 5)) (XVar 0)) /\
  manual_let_else nev (XLet (P2 2 (PVar 0) PWild) (XMatch (C_ 0) (P1 1 (PVar 1)) (XVar 1) PWild (XRet U_)) (XVar 0)) =
    Some (XLetElse (P1 1 (P2 2 (PVar 0) PWild)) (C_ 0) (XRet U_) (XVar 0)) /\
  redundant_local 0 (XLet (PVar 0) (C_ 0) (XSeq (C_ 1) (XLet (PVar 0) (XVar 0) (XAsg 0 (I_ 2))))) = Some (XLet (PVar 0) (C_ 0) (XSeq (C_ 1) (XAsg 0 (I_ 2)))).
Proof. repeat split. Qed.

(** ** C121: assignments and swaps. *)
Theorem assign_op_pattern_keeps : forall e e', assign_op_pattern e = Some e' -> same_ok e e'.
Proof. exact assign_op_pattern_ok. Qed.
(** Of the two suggestions for `x o= x o a`, the second means the same. *)
Theorem misrefactored_assign_op_partial : forall o x l r e1 e2, misrefactored_assign_op (XAsgOp o x (XBin o l r)) = Some (e1, e2) ->
  changes x l = false -> changes x r = false -> forall w n s, fst s x <> VHole -> alike none_of (eval w n (XAsgOp o x (XBin o l r)) s) (eval w n e2 s).
Proof. exact misrefactored_ok. Qed.
(** The first is meant to change what the program does. *)
Theorem misrefactored_assign_op_first_refuted : exists e e1 e2, rust e /\ misrefactored_assign_op e = Some (e1, e2) /\ ~ same_ok e e1.
Proof.
  exists (XAsgOp OAdd 0 (XBin OAdd (XVar 0) (I_ 1))). eexists. eexists. split; [reflexivity|]. split; [reflexivity|]. intros H. refute_at H yes 1 st0 0.
Qed.
Theorem manual_swap_partial : forall e e', manual_swap e = Some e' ->
  (forall t a b, e = XLet (PVar t) a b -> uses t e' = false) ->
  (forall x i j r, e' = XSeq (XSwapIdx x i j) r -> uses x i = false /\ uses x j = false) -> same_typed e e'.
Proof. exact manual_swap_ok. Qed.
(** `let t = a; a = b; b = t; f(t)`: the temporary variable is used later. *)
Theorem manual_swap_refuted : exists e e', rust e /\ manual_swap e = Some e' /\ ~ same_typed e e'.
Proof.
  exists (XLet (PVar 0) (XVar 1) (XSeq (XAsg 1 (XVar 2)) (XSeq (XAsg 2 (XVar 0)) (XVar 0)))). eexists. split; [reflexivity|]. split; [reflexivity|].
  intros H. assert (F := proj1 (H yes 1 (fun y => VInt (Z.of_nat y), []) ltac:(vm_compute; discriminate) ltac:(vm_compute; discriminate))). vm_compute in F. discriminate F.
Qed.
(** `let t = v[0]; v[0] = v[v[0]]; v[v[0]] = t;`: the index reads the vector. *)
Theorem manual_swap_index_refuted : exists e e', rust e /\ manual_swap e = Some e' /\ (forall t a b, e = XLet (PVar t) a b -> uses t e' = false) /\ ~ same_typed e e'.
Proof.
  exists (XLet (PVar 0) (XIdx 1 (I_ 0)) (XSeq (XAsgIdx 1 (I_ 0) (XIdx 1 (XIdx 1 (I_ 0)))) (XSeq (XAsgIdx 1 (XIdx 1 (I_ 0)) (XVar 0)) (XIdx 1 (I_ 1))))).
  eexists. split; [reflexivity|]. split; [reflexivity|]. split; [intros t a b H; injection H as <- <- <-; reflexivity|].
  intros H. assert (F := proj1 (H yes 1 (fun y => VVec [VInt 1; VInt 0; VInt 5], []) ltac:(vm_compute; discriminate) ltac:(vm_compute; discriminate))). vm_compute in F. discriminate F.
Qed.
Theorem xor_swap_partial : forall e e', xor_swap e = Some e' ->
  (forall x i j r, e' = XSeq (XSwapIdx x i j) r -> uses x i = false /\ uses x j = false /\ forall w n s, fst (eval w n i s) <> fst (eval w n j s)) -> same_typed e e'.
Proof. exact xor_swap_ok. Qed.
(** `v[i] ^= v[j]; v[j] ^= v[i]; v[i] ^= v[j];` with equal indices makes 0. *)
Theorem xor_swap_refuted : exists e e', rust e /\ xor_swap e = Some e' /\ (forall x i j r, e' = XSeq (XSwapIdx x i j) r -> uses x i = false /\ uses x j = false) /\ ~ same_typed e e'.
Proof.
  exists (XSeq (XOpIdx OXor 0 (XVar 1) (XIdx 0 (XVar 2))) (XSeq (XOpIdx OXor 0 (XVar 2) (XIdx 0 (XVar 1))) (XSeq (XOpIdx OXor 0 (XVar 1) (XIdx 0 (XVar 2))) (XIdx 0 (XVar 1))))).
  eexists. split; [reflexivity|]. split; [reflexivity|]. split; [intros x i j r H; injection H as <- <- <- <-; auto|].
  intros H. assert (F := proj1 (H yes 1 (fun y => if y =? 0 then VVec [VInt 5] else VInt 0, []) ltac:(vm_compute; discriminate) ltac:(vm_compute; discriminate))). vm_compute in F. discriminate F.
Qed.
(** `a = b; b = a;` is not a swap: the second assignment does nothing. *)
Theorem almost_swapped_warns : forall a b r e', almost_swapped (XSeq a (XSeq b r)) = Some e' ->
  same_ok (XSeq a (XSeq b r)) (XSeq a r) /\ exists x y, a = XAsg x (XVar y) /\ e' = XSeq (XSwap x y) r.
Proof. exact almost_swapped_ok. Qed.
Example C121_nontrivial :
  assign_op_pattern (XAsg 0 (XBin OAdd (C_ 0) (XVar 0))) = Some (XAsgOp OAdd 0 (C_ 0)) /\
  assign_op_pattern (XAsg 0 (XBin OSub (C_ 0) (XVar 0))) = None /\
  manual_swap (XLet (PVar 0) (XIdx 1 (XVar 2)) (XSeq (XAsgIdx 1 (XVar 2) (XIdx 1 (XVar 3))) (XSeq (XAsgIdx 1 (XVar 3) (XVar 0)) (C_ 0)))) = Some (XSeq (XSwapIdx 1 (XVar 2) (XVar 3)) (C_ 0)) /\
  xor_swap (XSeq (XAsgOp OXor 0 (XVar 1)) (XSeq (XAsgOp OXor 1 (XVar 0)) (XSeq (XAsgOp OXor 0 (XVar 1)) U_))) = Some (XSeq (XSwap 0 1) U_) /\
  almost_swapped (XSeq (XAsg 0 (XVar 1)) (XSeq (XAsg 1 (XVar 0)) U_)) = Some (XSeq (XSwap 0 1) U_) /\
  misrefactored_assign_op (XAsgOp OMul 0 (XBin OMul (I_ 2) (XVar 0))) = Some (XAsgOp OMul 0 (I_ 2), XAsg 0 (XBin OMul (XVar 0) (XBin OMul (I_ 2) (XVar 0)))).
Proof. repeat split. Qed.

(** ** C122: loops. *)
Theorem single_element_loop_keeps : forall e e', single_element_loop e = Some e' -> (forall l p a b, e = XFor l p a b -> unit_valued b) -> same e e'.
Proof. exact single_element_loop_ok. Qed.
Theorem manual_while_let_some_partial : forall elem e e', manual_while_let_some elem e = Some e' ->
  (forall l x f a b r, e = XWhile l (XTest (XNot (XIsEmpty x)) (XSeq (XCall f a b) r)) -> uses elem e = false /\
     (a <> XUnwrap (XPop x) -> (exists v, a = XVal v) \/ (exists y, a = XVar y /\ y <> x))) -> same_ok e e'.
Proof. exact manual_while_let_some_ok. Qed.
(** `while !v.is_empty() { f(v.len(), v.pop().unwrap()); }`: the length is now taken after the `pop`. *)
Theorem manual_while_let_some_refuted : exists e e', rust e /\ uses 9 e = false /\ manual_while_let_some 9 e = Some e' /\ ~ same_ok e e'.
Proof.
  exists (XWhile None (XTest (XNot (XIsEmpty 0)) (XSeq (XCall 1 (XLen 0) (XUnwrap (XPop 0))) U_))). eexists. split; [reflexivity|]. split; [reflexivity|]. split; [reflexivity|].
  intros H. refute_ev H yes 3 ((fun _ : nat => VVec [VInt 1]), @nil ev).
Qed.
(** A variable called `element` is captured. *)
Theorem manual_while_let_some_name_refuted : exists e e', rust e /\ manual_while_let_some 9 e = Some e' /\ ~ same_ok e e'.
Proof.
  exists (XWhile None (XTest (XNot (XIsEmpty 0)) (XSeq (XCall 1 (XUnwrap (XPop 0)) (XVar 9)) U_))). eexists. split; [reflexivity|]. split; [reflexivity|].
  intros H. refute_ev H yes 3 ((fun y : nat => if y =? 0 then VVec [VInt 1] else VInt 8), @nil ev).
Qed.
Theorem while_let_loop_partial : forall b e', while_let_loop (XLoop None b) = Some e' -> rust b ->
  (forall p i k x, e' = XWhile None (XBind p i k) -> mem x (pvars p) = true -> uses x b = false) ->
  (forall i r, b <> XLet PWild i r) ->
  (forall y i r p i', b = XLet (PVar y) i r -> e' = XWhile None (XBind p i' r) -> mem y (pvars p) = true \/ changes y r = false) ->
  (forall p i d r, b = XLetElse p i d r -> (forall k c, i <> XIf k c) /\ (forall a p' c q c', i <> XMatch a p' c q c')) ->
  same_ok (XLoop None b) e'.
Proof. exact while_let_loop_ok. Qed.
(** `let _ = match f() { Some(x) => g(), _ => break };`: the call of `g` goes. *)
Theorem while_let_loop_refuted : exists e e', rust e /\ while_let_loop e = Some e' /\ ~ same_ok e e'.
Proof.
  exists (XLoop None (XLet PWild (XMatch (C_ 0) (P1 1 (PVar 0)) (C_ 1) PWild (XBrk None U_)) U_)). eexists. split; [reflexivity|]. split; [reflexivity|].
  intros H. refute_ev H (fun h : list ev => Some (match length h with 1 => vsome (VInt 1) | _ => vnone end)) 4 st0.
Qed.
(** A labelled loop loses its label. *)
Theorem while_let_loop_label_refuted : exists e e', rust e /\ while_let_loop e = Some e' /\ ~ same_ok e e'.
Proof.
  exists (XLoop (Some 3) (XSeq (XIf (XBind (P1 1 (PVar 0)) (C_ 0) (C_ 1)) (XBrk None U_)) (XBrk (Some 3) U_))). eexists. split; [reflexivity|]. split; [reflexivity|].
  intros H. refute H (fun h : list ev => Some (vsome (VInt 1))) 4 st0.
Qed.
Example C122_nontrivial :
  single_element_loop (XFor None (PVar 0) (XArr (C_ 0)) (XSeq (XCall 1 (XVar 0) U_) U_)) = Some (XBrace (XLet (PVar 0) (C_ 0) (XSeq (XCall 1 (XVar 0) U_) U_))) /\
  single_element_loop (XFor None (PVar 0) (XArr (C_ 0)) (XSeq (XBrk None U_) U_)) = None /\
  manual_while_let_some 9 (XWhile None (XTest (XNot (XIsEmpty 0)) (XLet (P2 2 (PVar 1) PWild) (XUnwrap (XPop 0)) (C_ 1)))) =
    Some (XWhile None (XBind (P1 1 (P2 2 (PVar 1) PWild)) (XPop 0) (C_ 1))) /\
  while_let_loop (XLoop None (XLet (PVar 0) (XMatch (C_ 0) (P1 1 (PVar 0)) (XVar 0) PWild (XBrk None U_)) (XSeq (XCall 1 (XVar 0) U_) U_))) =
    Some (XWhile None (XBind (P1 1 (PVar 0)) (C_ 0) (XSeq (XCall 1 (XVar 0) U_) U_))) /\
  while_let_loop (XLoop None (XLetElse (P1 1 (PVar 0)) (C_ 0) (XSeq (XBrk None U_) U_) (XSeq (XCall 1 (XVar 0) U_) U_))) =
    Some (XWhile None (XBind (P1 1 (PVar 0)) (C_ 0) (XSeq (XCall 1 (XVar 0) U_) U_))).
Proof. repeat split. Qed.

(** ** C123: `continue`. *)
Theorem needless_continue_last_keeps : forall e e', needless_continue_last e = Some e' -> same e e'.
Proof. exact needless_continue_last_ok. Qed.
Theorem needless_continue_merge_partial : forall e e', needless_continue_merge e = Some e' -> rust e -> tidy e -> same e e'.
Proof. exact needless_continue_merge_ok. Qed.
(** `loop { if f() { let x = 1; } else { continue; } g(x); }`: what follows is moved where another `x` is in scope. *)
Theorem needless_continue_merge_refuted : exists e e', rust e /\ needless_continue_merge e = Some e' /\ ~ same_ok e e'.
Proof.
  exists (XLoop None (XSeq (XIf (XTest (C_ 0) (XLet (PVar 0) (I_ 1) U_)) (XSeq (XCnt None) U_)) (XSeq (XCall 1 (XVar 0) U_) (XBrk None U_)))).
  eexists. split; [reflexivity|]. split; [reflexivity|]. intros H. refute_ev H yes 2 st0.
Qed.
Example C123_nontrivial :
  needless_continue_last (XLoop (Some 1) (XSeq (C_ 0) (XIf (XTest (C_ 1) (XSeq (XCnt (Some 1)) U_)) (XSeq (XCnt (Some 2)) U_)))) =
    Some (XLoop (Some 1) (XSeq (C_ 0) (XIf (XTest (C_ 1) (XSeq U_ U_)) (XSeq (XCnt (Some 2)) U_)))) /\
  needless_continue_merge (XWhile None (XTest (C_ 0) (XSeq (XIf (XTest (C_ 1) (XSeq (C_ 2) U_)) (XSeq (XCnt None) U_)) (C_ 3)))) =
    Some (XWhile None (XTest (C_ 0) (XWhen (XTest (C_ 1) (XSeq (C_ 2) (XSeq U_ (C_ 3))))))) /\
  needless_continue_merge (XFor None (PVar 0) (XVar 1) (XSeq (XIf (XTest (C_ 1) (XSeq (XCnt None) U_)) (XSeq (C_ 2) U_)) (C_ 3))) =
    Some (XFor None (PVar 0) (XVar 1) (XSeq (XWhen (XTest (C_ 1) (XSeq (XCnt None) U_))) (XSeq (XBrace (XSeq (C_ 2) U_)) (C_ 3)))).
Proof. repeat split. Qed.

(** ** C124: anywhere in a program.  These suggestions may be applied to any number of places of a program at once. *)
Theorem replaced_anywhere : forall R : ex -> ex -> Prop, (forall a b, R a b -> same a b) -> forall a b, everywhere R a b -> same a b.
Proof. exact everywhere_ok. Qed.
Theorem replaced_anywhere_ok : forall R : ex -> ex -> Prop, (forall a b, R a b -> same_ok a b) -> forall a b, everywhere R a b -> same_ok a b.
Proof. exact everywhere_same_ok. Qed.
(** The suggestions that always mean the same, for any judge of types whose `!` yields no value. *)
Inductive exact_fix (ty_never : ex -> bool) : ex -> ex -> Prop :=
  | F_collapsible chains a b : collapsible_if chains a = Some b -> exact_fix ty_never a b
  | F_braces a b : blocks_in_conditions_braces a = Some b -> exact_fix ty_never a b
  | F_not a b : rust a -> if_not_else a = Some b -> exact_fix ty_never a b
  | F_else a b : redundant_else_tail ty_never a = Some b -> exact_fix ty_never a b
  | F_else_stmt a b : redundant_else_stmt ty_never a = Some b -> redundant_else_applicable ty_never a = true -> exact_fix ty_never a b
  | F_continue a b : needless_continue_last a = Some b -> exact_fix ty_never a b
  | F_local x a b : redundant_local x a = Some b -> exact_fix ty_never a b
  | F_assign a b : assign_op_pattern a = Some b -> exact_fix ty_never a b.
Theorem exact_fixes_keep : forall ty_never, (forall e, ty_never e = true -> forall w n s v, fst (eval w n e s) <> OVal v) ->
  forall a b, everywhere (exact_fix ty_never) a b -> same_ok a b.
Proof.
  intros nv NV. apply everywhere_same_ok. assert (S : forall a b, same a b -> same_ok a b) by (intros a b H w n s _; apply H).
  intros a b H. destruct H.
  - apply S. eapply collapsible_if_ok; eauto.
  - apply S. apply blocks_braces_ok; auto.
  - apply S. apply if_not_else_ok; auto.
  - apply S. eapply redundant_else_tail_ok; eauto.
  - apply S. eapply redundant_else_stmt_ok; eauto.
  - apply S. apply needless_continue_last_ok; auto.
  - eapply redundant_local_ok; eauto.
  - apply assign_op_pattern_ok; auto.
Qed.
Example C124_nontrivial : everywhere (exact_fix nev)
  (XFor None (PVar 0) (XVar 1) (XSeq (XAsg 2 (XBin OAdd (XVar 2) (XVar 0))) (XIf (XTest (XNot (C_ 1)) (XSeq (XCnt None) U_)) (XSeq (C_ 2) U_))))
  (XFor None (PVar 0) (XVar 1) (XSeq (XAsgOp OAdd 2 (XVar 0)) (XIf (XTest (C_ 1) (XSeq (C_ 2) U_)) (XSeq (XCnt None) U_)))).
Proof.
  apply E_for; [apply E_same|]. apply E_seq; apply E_here; [apply F_assign; reflexivity|]. apply F_not; reflexivity.
Qed.

Print Assumptions collapsible_if_keeps.
Print Assumptions collapsible_else_if_partial.
Print Assumptions collapsible_else_if_refuted.
Print Assumptions needless_else_keeps.
Print Assumptions needless_ifs_keeps.
Print Assumptions if_not_else_keeps.
Print Assumptions blocks_in_conditions_braces_keeps.
Print Assumptions blocks_in_conditions_let_partial.
Print Assumptions blocks_in_conditions_let_refuted.
Print Assumptions redundant_else_tail_keeps.
Print Assumptions redundant_else_stmt_keeps.
Print Assumptions redundant_else_stmt_refuted.
Print Assumptions needless_late_init_partial.
Print Assumptions needless_late_init_refuted.
Print Assumptions useless_let_if_seq_partial.
Print Assumptions useless_let_if_seq_refuted.
Print Assumptions manual_let_else_partial.
Print Assumptions manual_let_else_refuted.
Print Assumptions redundant_locals_keeps.
Print Assumptions assign_op_pattern_keeps.
Print Assumptions misrefactored_assign_op_partial.
Print Assumptions misrefactored_assign_op_first_refuted.
Print Assumptions manual_swap_partial.
Print Assumptions manual_swap_refuted.
Print Assumptions manual_swap_index_refuted.
Print Assumptions xor_swap_partial.
Print Assumptions xor_swap_refuted.
Print Assumptions almost_swapped_warns.
Print Assumptions single_element_loop_keeps.
Print Assumptions manual_while_let_some_partial.
Print Assumptions manual_while_let_some_refuted.
Print Assumptions manual_while_let_some_name_refuted.
Print Assumptions while_let_loop_partial.
Print Assumptions while_let_loop_refuted.
Print Assumptions while_let_loop_label_refuted.
Print Assumptions needless_continue_last_keeps.
Print Assumptions needless_continue_merge_partial.
Print Assumptions needless_continue_merge_refuted.
Print Assumptions replaced_anywhere.
Print Assumptions replaced_anywhere_ok.
Print Assumptions exact_fixes_keep.
