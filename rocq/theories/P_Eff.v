(* C128, C129: the lints about statements without effect (/repo/clippy_lints/src/no_effect.rs). *)
From Coq Require Import List ZArith Bool Lia.
Import ListNotations.
From Verif Require Import EffSpec EffModel EffProofs.
Open Scope Z_scope.

(* Types that are said not to have a significant destructor have none that can be observed. *)
Definition sound env calls (sig : expr -> bool) : Prop :=
  forall e h h' v t, sig e = false -> run env calls false e h = (h', Some (v, t)) -> drops v = [].

Lemma peel_same : forall env calls e,
  (forall p h, run env calls p (peel_blocks e) h = run env calls p e h) /\
  builtin (peel_blocks e) = builtin e /\ captures (peel_blocks e) = captures e /\ total (peel_blocks e) = total e.
Proof.
  intros env calls e; induction e using expr_ind; cbn [peel_blocks]; auto.
  destruct unsafe; auto.
Qed.
Lemma no_effect_verdict : forall sig e, check_stmt sig e = NoEffect -> has_no_effect sig (peel_blocks e) = true.
Proof.
  intros sig e Q; unfold check_stmt in Q.
  destruct e; try discriminate;
    (destruct (is_operator_overridden _); [discriminate|]; destruct (has_no_effect sig _) eqn:N; [reflexivity|]);
    destruct (reduce_expression _) as [q|]; try discriminate; destruct q as [|? [|? [|? ?]]]; discriminate.
Qed.

(* C128.  A statement reported by no_effect calls nothing, runs no destructor and, if nothing in it indexes or
   computes, ends.  Partial: only without overloaded operators (nested ones, and indexing, are not looked at:
   no_effect_nested_refuted, no_effect_index_refuted), if closures capture nothing with a destructor
   (no_effect_closure_refuted); and an index or a division may still panic (no_effect_panic_refuted). *)
Theorem no_effect_partial : forall env calls sig e, sound env calls sig ->
  check_stmt sig e = NoEffect -> builtin e = true -> (forall x, In x (captures e) -> drops (env x) = []) ->
  forall h, fst (stmt env calls e h) = h /\ (total e = true -> stmt env calls e h = (h, true)).
Proof.
  intros env calls sig e S Q B C h; apply no_effect_verdict in Q.
  destruct (peel_same env calls e) as [R [B' [C' T']]].
  rewrite <- B' in B; rewrite <- C' in C; rewrite <- T'.
  destruct (proj1 (no_effect_still env calls sig S) (peel_blocks e) Q B C false h) as [A1 [A2 A3]].
  rewrite R in A1, A2, A3; unfold stmt.
  destruct (run env calls false e h) as [h1 [[v t]|]]; cbn [fst snd] in *; subst h1.
  - destruct (A2 _ _ eq_refl) as [V T]; rewrite V, T; split; reflexivity.
  - split; [reflexivity|]; intro T; destruct (A3 T eq_refl).
Qed.
Print Assumptions no_effect_partial.

(* let _x = e; where _x is never used: evaluating e and dropping _x later cannot be observed. *)
Theorem no_effect_underscore_binding_partial : forall env calls sig e, sound env calls sig ->
  check_let sig e = true -> builtin e = true -> (forall x, In x (captures e) -> drops (env x) = []) ->
  forall h, fst (run env calls false e h) = h /\
    (forall h' v t, run env calls false e h = (h', Some (v, t)) -> drops v = [] /\ flat_map drops t = []) /\
    (total e = true -> snd (run env calls false e h) <> None).
Proof.
  intros env calls sig e S Q B C h.
  destruct (proj1 (no_effect_still env calls sig S) e Q B C false h) as [A1 [A2 A3]].
  split; [exact A1|]; split; [|exact A3].
  intros h' v t R; rewrite R in A2; exact (A2 _ _ eq_refl).
Qed.
Print Assumptions no_effect_underscore_binding_partial.

(* (x.0 < 2, &[y, || z]); with x.0 a number *)
Definition plain_env (x : nat) : value := VAgg None [VInt 1; VSeq []].
Definition no_calls (f : nat) (a : list value) (h : list event) : option value := None.
Definition c128 : expr :=
  EList false (Econs (EBin Lt (EWrap (Field 0) (EPath 0) None) (ELit 2) None)
              (Econs (EWrap AddrOf (EList true (Econs (EPath 1) (Econs (EClosure [2%nat]) Enil))) None) Enil)).
Example C128_nontrivial :
  let sig e := match e with EPath _ => false | _ => true end in
  sound plain_env no_calls sig /\ check_stmt sig c128 = NoEffect /\ builtin c128 = true /\ total c128 = true /\
  (forall x, In x (captures c128) -> drops (plain_env x) = []) /\
  stmt plain_env no_calls c128 [Dropped 5] = ([Dropped 5], true).
Proof.
  cbn zeta; split; [|split; [reflexivity|]; split; [reflexivity|]; split; [reflexivity|]; split; [reflexivity | reflexivity]].
  intros e h h' v t Q R; destruct e; try discriminate; injection R as <- <- <-; reflexivity.
Qed.

Definition drop_env (x : nat) : value := VAgg (Some x) [VInt 1].
Definition some_calls (f : nat) (a : list value) (h : list event) : option value := Some (VInt 0).
Lemma all_sound : forall env calls, sound env calls (fun _ => true).
Proof. intros env calls e h h' v t Q; discriminate. Qed.
Definition ints (e : expr) : bool := match e with EPath _ => false | _ => true end.
Lemma ints_sound : forall calls, sound plain_env calls ints.
Proof. intros calls e h h' v t Q R; destruct e; try discriminate; injection R as <- <- <-; reflexivity. Qed.

(* (a + b,); where + is overloaded *)
Theorem no_effect_nested_refuted : exists env calls sig e h, sound env calls sig /\ captures e = [] /\
  check_stmt sig e = NoEffect /\ fst (stmt env calls e h) <> h.
Proof.
  exists plain_env, some_calls, ints, (EList false (Econs (EBin Add (EPath 0) (EPath 1) (Some 7%nat)) Enil)), [].
  split; [apply ints_sound|]; split; [reflexivity|]; split; [reflexivity | vm_compute; discriminate].
Qed.
Print Assumptions no_effect_nested_refuted.
(* a[b]; where indexing is overloaded: unlike other operators, not looked at even at the top *)
Theorem no_effect_index_refuted : exists env calls sig a b f h, sound env calls sig /\
  builtin a = true /\ builtin b = true /\ captures (EIndex a b (Some f)) = [] /\
  check_stmt sig (EIndex a b (Some f)) = NoEffect /\ fst (stmt env calls (EIndex a b (Some f)) h) <> h.
Proof.
  exists plain_env, some_calls, ints, (EPath 0), (EPath 1), 7%nat, [].
  split; [apply ints_sound|]; repeat (split; [reflexivity|]); vm_compute; discriminate.
Qed.
Print Assumptions no_effect_index_refuted.
(* let _x = a + b; where + is overloaded: for bindings not looked at *)
Theorem no_effect_underscore_binding_refuted : exists env calls sig o a b f h, sound env calls sig /\
  builtin a = true /\ builtin b = true /\ captures (EBin o a b (Some f)) = [] /\
  check_let sig (EBin o a b (Some f)) = true /\ check_stmt sig (EBin o a b (Some f)) = Quiet /\
  fst (run env calls false (EBin o a b (Some f)) h) <> h.
Proof.
  exists plain_env, some_calls, ints, Add, (EPath 0), (EPath 1), 7%nat, [].
  split; [apply ints_sound|]; repeat (split; [reflexivity|]); vm_compute; discriminate.
Qed.
Print Assumptions no_effect_underscore_binding_refuted.
(* move || { .. x .. }; drops x *)
Theorem no_effect_closure_refuted : exists env calls sig e h, sound env calls sig /\ builtin e = true /\
  check_stmt sig e = NoEffect /\ fst (stmt env calls e h) <> h.
Proof.
  exists drop_env, some_calls, (fun _ => true), (EClosure [3%nat]), [].
  split; [apply all_sound|]; repeat (split; [reflexivity|]); vm_compute; discriminate.
Qed.
Print Assumptions no_effect_closure_refuted.
(* v[5]; for a shorter v, 1 / x; *)
Theorem no_effect_panic_refuted : exists env calls sig h, sound env calls sig /\
  (exists e, check_stmt sig e = NoEffect /\ builtin e = true /\ captures e = [] /\ snd (stmt env calls e h) = false) /\
  (exists o a b, check_stmt sig (EBin o a b None) = NoEffect /\ builtin (EBin o a b None) = true /\
     snd (stmt env calls (EBin o a b None) h) = false).
Proof.
  exists plain_env, no_calls, ints, []; split; [apply ints_sound|]; split.
  - exists (EIndex (EWrap (Field 1) (EPath 0) None) (ELit 5) None); repeat (split; [reflexivity|]); reflexivity.
  - exists Div, (ELit 1), (ELit 0); repeat (split; [reflexivity|]); reflexivity.
Qed.
Print Assumptions no_effect_panic_refuted.

Lemma reduce_verdict : forall sig e l, check_stmt sig e = Reduce l -> reduce_expression e = Some l.
Proof.
  intros sig e l Q; unfold check_stmt in Q.
  destruct e; try discriminate;
    (destruct (is_operator_overridden _); [discriminate|]; destruct (has_no_effect sig _); [discriminate|]);
    destruct (reduce_expression _) as [q|]; try discriminate; try (injection Q as ->; reflexivity).
  destruct q as [|? [|? [|? ?]]]; discriminate.
Qed.
Lemma assert_verdict : forall sig e a b, check_stmt sig e = Assert a b -> exists ov, e = EIndex a b ov.
Proof.
  intros sig e a b Q; unfold check_stmt in Q.
  destruct e; try discriminate;
    (destruct (is_operator_overridden _); [discriminate|]; destruct (has_no_effect sig _); [discriminate|]);
    try (destruct (reduce_expression _); discriminate).
  cbn [reduce_expression] in Q; injection Q as -> ->; eauto.
Qed.

(* C129.  The statements that unnecessary_operation suggests do what the statement did, in the same order; if the
   operators that go do not panic, the result is the same.  Partial: only without overloaded operators
   (unnecessary_overloaded_refuted) and destructors (unnecessary_order_refuted, unnecessary_moved_refuted); if the
   operators panic, that goes too (unnecessary_panic_refuted). *)
Theorem unnecessary_operation_partial : forall env calls sig e l,
  check_stmt sig e = Reduce l -> builtin e = true -> dropless e = true ->
  (forall x, drops (env x) = []) -> (forall f a h v, calls f a h = Some v -> drops v = []) ->
  forall h, fst (stmts env calls l h) = fst (stmt env calls e h) /\
    (snd (stmt env calls e h) = true -> stmts env calls l h = stmt env calls e h) /\
    (firm e = true -> stmts env calls l h = stmt env calls e h).
Proof.
  intros env calls sig e l Q B D He Hc h; apply reduce_verdict in Q.
  destruct (reduce_ok env calls He Hc e l Q B D h) as [R1 [R2 R3]].
  rewrite (stmt_ok env calls He Hc _ _ D); unfold ok.
  destruct (stmts env calls l h) as [h1 b]; destruct (run env calls false e h) as [h2 [x|]]; cbn [fst snd] in *; subst h2.
  - split; [reflexivity|]; rewrite (R2 ltac:(discriminate)); auto.
  - split; [reflexivity|]; split; [discriminate|]; intro F; destruct b; [destruct (R3 F eq_refl eq_refl) | reflexivity].
Qed.
Print Assumptions unnecessary_operation_partial.

(* For an index of an array, the assertion panics exactly when the index does and does the same otherwise. *)
Theorem unnecessary_index_partial : forall env calls sig e a b,
  check_stmt sig e = Assert a b -> builtin e = true ->
  (forall h h' v t, run env calls true a h = (h', Some (v, t)) -> exists l, v = VSeq l \/ v = VRef (VSeq l)) ->
  (forall h h' v t, run env calls false b h = (h', Some (v, t)) -> exists z, v = VInt z /\ 0 <= z) ->
  forall h, assert_len env calls a b h = stmt env calls e h.
Proof.
  intros env calls sig e a b Q B Ha Hb h; apply assert_verdict in Q; destruct Q as [[f|] ->]; [discriminate|].
  apply assert_ok; assumption.
Qed.
Print Assumptions unnecessary_index_partial.

(* &(f(), !(g() < 2)); *)
Definition c129 : expr :=
  EWrap AddrOf (EList false (Econs (ECall 1 Enil) (Econs (EWrap Not (EBin Lt (ECall 2 Enil) (ELit 2) None) None) Enil))) None.
Example C129_nontrivial :
  exists l, check_stmt (fun _ => true) c129 = Reduce l /\ length l = 2%nat /\ builtin c129 = true /\ dropless c129 = true /\
    firm c129 = true /\ (forall x, drops (plain_env x) = []) /\ (forall f a h v, some_calls f a h = Some v -> drops v = []) /\
    stmts plain_env some_calls l [] = stmt plain_env some_calls c129 [] /\
    stmt plain_env some_calls c129 [] = ([Called 2 []; Called 1 []], true).
Proof.
  eexists; split; [vm_compute; reflexivity|]; repeat (split; [reflexivity|]); split; [|split; reflexivity].
  intros f a h v Q; injection Q as <-; reflexivity.
Qed.
(* v[f()]; *)
Example C129_nontrivial_index :
  let e := EIndex (EPath 0) (ECall 1 Enil) None in
  let env x := VSeq [VInt 4] in
  check_stmt (fun _ => true) e = Assert (EPath 0) (ECall 1 Enil) /\ builtin e = true /\
  assert_len env some_calls (EPath 0) (ECall 1 Enil) [] = ([Called 1 []], true) /\
  assert_len env (fun _ _ _ => Some (VInt 1)) (EPath 0) (ECall 1 Enil) [] = ([Called 1 []], false).
Proof. cbn zeta; repeat (split; [reflexivity|]); reflexivity. Qed.

(* f() / g(); becomes f(); g(); and &v[f()]; becomes v; f(); *)
Theorem unnecessary_panic_refuted : exists env calls sig h,
  (forall x, drops (env x) = []) /\ (forall f a h v, calls f a h = Some v -> drops v = []) /\
  (exists o a b l, check_stmt sig (EBin o a b None) = Reduce l /\ builtin (EBin o a b None) = true /\
     dropless (EBin o a b None) = true /\
     stmts env calls l h <> stmt env calls (EBin o a b None) h) /\
  (exists a b l, check_stmt sig (EWrap AddrOf (EIndex a b None) None) = Reduce l /\ builtin (EIndex a b None) = true /\
     dropless (EIndex a b None) = true /\
     stmts env calls l h <> stmt env calls (EWrap AddrOf (EIndex a b None) None) h).
Proof.
  exists (fun _ => VSeq []), some_calls, (fun _ => true), []; split; [reflexivity|]; split.
  { intros f a h v Q; injection Q as <-; reflexivity. }
  split.
  - exists Div, (ECall 1 Enil), (ECall 2 Enil), [ECall 1 Enil; ECall 2 Enil]; repeat (split; [reflexivity|]); vm_compute; discriminate.
  - exists (EPath 0), (ECall 2 Enil), [EPath 0; ECall 2 Enil]; repeat (split; [reflexivity|]); vm_compute; discriminate.
Qed.
Print Assumptions unnecessary_panic_refuted.
(* &(f() + g()); where + is overloaded becomes f(); g(); and map[f()]; becomes assert!(map.len() > f()); *)
Theorem unnecessary_overloaded_refuted : exists env calls sig h,
  (forall x, drops (env x) = []) /\ (forall f a h v, calls f a h = Some v -> drops v = []) /\
  (exists e l, check_stmt sig e = Reduce l /\ dropless e = true /\ firm e = true /\ fst (stmts env calls l h) <> fst (stmt env calls e h)) /\
  (exists e a b, check_stmt sig e = Assert a b /\ dropless e = true /\ snd (stmt env calls e h) = true /\ snd (assert_len env calls a b h) = false).
Proof.
  exists plain_env, some_calls, (fun _ => true), []; split; [reflexivity|]; split.
  { intros f a h v Q; injection Q as <-; reflexivity. }
  split.
  - exists (EWrap AddrOf (EBin Lt (ECall 1 Enil) (ECall 2 Enil) (Some 7%nat)) None), [ECall 1 Enil; ECall 2 Enil].
    repeat (split; [reflexivity|]); vm_compute; discriminate.
  - exists (EIndex (EPath 0) (ECall 1 Enil) (Some 7%nat)), (EPath 0), (ECall 1 Enil); repeat (split; [reflexivity|]); reflexivity.
Qed.
Print Assumptions unnecessary_overloaded_refuted.
(* (f(), g()); becomes f(); g(); which drops the result of f before g is called *)
Theorem unnecessary_order_refuted : exists env calls sig e l h,
  check_stmt sig e = Reduce l /\ builtin e = true /\ dropless e = true /\ firm e = true /\ (forall x, drops (env x) = []) /\
  fst (stmts env calls l h) <> fst (stmt env calls e h).
Proof.
  exists plain_env, (fun f _ _ => Some (VAgg (Some f) [])), (fun _ => true),
    (EList false (Econs (ECall 1 Enil) (Econs (ECall 2 Enil) Enil))), [ECall 1 Enil; ECall 2 Enil], [].
  repeat (split; [reflexivity|]); vm_compute; discriminate.
Qed.
Print Assumptions unnecessary_order_refuted.
(* x.0; becomes x; which drops x *)
Theorem unnecessary_moved_refuted : exists env calls e l h,
  check_stmt (fun e => match e with EPath _ => true | _ => false end) e = Reduce l /\ builtin e = true /\ dropless e = true /\
  firm e = true /\ (forall f a h v, calls f a h = Some v -> drops v = []) /\
  fst (stmt env calls e h) = h /\ fst (stmts env calls l h) <> h.
Proof.
  exists drop_env, no_calls, (EWrap (Field 0) (EPath 3) None), [EPath 3%nat], [].
  repeat (split; [reflexivity|]); split; [discriminate|]; split; [reflexivity | vm_compute; discriminate].
Qed.
Print Assumptions unnecessary_moved_refuted.
