(** option_if_let_else, if_then_some_else_none: proofs. *)
From Verif Require Export MatProofs2.

Section Mat3.
  Variable w : world.
  Variable fuel : nat.
  Notation st := (state w).
  Notation ev := (eval w fuel).
  Notation ap := (apply w fuel).
  Notation sc := (scoped w fuel).
  Ltac recv r s := let o := fresh "o" in let v := fresh "v" in let s1 := fresh "s1" in
    destruct (ev r s) as [o s1] eqn:?; destruct o as [v| | | | |]; try reflexivity; cbn [andthen] in *.

  Lemma movable_peel : forall b, movable [] b = true -> movable [] (peel_blocks b) = true.
  Proof.
    fix IH 1. intros b H. destruct b as [| | | | | | | | | | | | | |l [|] [a|]| | | | | |]; try exact H.
    cbn [peel_blocks]. apply (IH a). cbn [movable forallb opt_all andb] in H. destruct l; exact H.
  Qed.
  Lemma inner_spec : forall p q k, inner_pat p = Some (q, k) -> exists d, p = PData (KCtor (if k then c_ok else c_some)) [q] d.
  Proof.
    intros p q k H. destruct p as [| |[| |c] [|y [|]] d| | | | |]; try discriminate. cbn in H. exists d.
    destruct (Nat.eqb_spec c c_some); [inversion H; subst; reflexivity|]. destruct (Nat.eqb_spec c c_ok); inversion H; subst. reflexivity.
  Qed.
  Lemma none_or_err_binds : forall p v bs, none_or_err p = true -> match_pat p v = Some bs -> bs = [].
  Proof.
    intros p v bs H M. destruct p as [| |[| |c] [|[] [|]] d| | | | |]; try discriminate.
    - inversion M; reflexivity.
    - destruct d; [discriminate|]. destruct v as [| |k vs| |]; try discriminate. cbn in M. destruct k; try discriminate. destruct (Nat.eqb c c0); [|discriminate].
      destruct vs; inversion M; reflexivity.
    - destruct v as [| |[| |c'] vs| |]; try (destruct d; discriminate). destruct d as [n|]; cbn -[skipn Nat.sub] in M.
      + destruct (Nat.eqb c c' && _); [|discriminate]. destruct (firstn n vs ++ _) as [|z [|]]; inversion M; reflexivity.
      + destruct (Nat.eqb c c'); [|discriminate]. destruct vs as [|z [|]]; inversion M; reflexivity.
  Qed.
  Definition res (k : bool) : rty := if k then TResult else TOption.
  Lemma view_res : forall k v vw, view_of (res k) v = Some vw ->
    (exists y, v = VData (KCtor (good_ctor (res k))) [y] /\ vw = Good y) \/
    (exists us c vs, v = VData (KCtor c) vs /\ vw = Bad us /\ Nat.eqb (good_ctor (res k)) c = false /\
      (if k then exists u, us = [u] /\ v = err_v u else us = [] /\ v = none_v)).
  Proof.
    intros k v vw V. apply view_cases in V. destruct k; cbn [res] in *.
    - destruct V as [(y & -> & ->)|(u & -> & ->)]; [left; exists y; split; reflexivity|right]. exists [u], c_err, [u]. repeat split. eauto.
    - destruct V as [(y & -> & ->)|(-> & ->)]; [left; exists y; split; reflexivity|right]. exists [], c_none, []. repeat split.
  Qed.
  Lemma none_or_err_good : forall p k y, none_or_err p = true -> p <> PWild -> match_pat p (VData (KCtor (good_ctor (res k))) [y]) = None.
  Proof.
    intros p k y H W. destruct p as [| |[| |c] [|[] [|]] d| | | | |]; try discriminate; [tauto| |].
    - destruct d; [discriminate|]. cbn in H. apply Nat.eqb_eq in H. subst c. apply match_other. destruct k; reflexivity.
    - cbn in H. apply Nat.eqb_eq in H. subst c. apply match_other. destruct k; reflexivity.
  Qed.
  Lemma convert_eval : forall e p r a b br x k, convert e = Some (p, r, a, b) -> inner_pat p = Some (PBind br x None, k) -> shadowed e = false ->
    scrutinee e = Some r /\ In (peel_blocks b) (bodies e) /\
    forall s v s1, ev r s = (OVal v, s1) -> ev e s = (OStuck, s1) \/
      ((forall y, view_of (res k) v = Some (Good y) -> ev e s = sc [(x, if br then VRef y else y)] a s1) /\
       (forall us, view_of (res k) v = Some (Bad us) -> ev e s = ev b s1)).
  Proof.
    intros e p r a b br x k C IP SH. apply inner_spec in IP. destruct IP as (d & ->).
    replace (if k then c_ok else c_some) with (good_ctor (res k)) in C by (destruct k; reflexivity).
    destruct e as [| | | | | | | | | | | |p0 c0 a0 [b0|]|[] e0 [|[[p0 [|]] a0] [|[[q0 [|]] b0] [|]]]| | | | | | |]; try discriminate; cbn [convert] in C.
    - inversion C; subst. split; [reflexivity|]. split; [right; left; reflexivity|]. intros s v s1 E. right. rewrite iflet2, E. cbn [andthen]. unfold arms2. split.
      + intros y V. apply view_res in V. destruct V as [(z & -> & V)|(? & ? & ? & ? & V & ?)]; [|discriminate]. inversion V; subst. rewrite match_one. reflexivity.
      + intros us V. apply view_res in V. destruct V as [(z & -> & V)|(us' & c & vs & -> & V & N & _)]; [discriminate|]. rewrite match_other by exact N. apply scoped_nil.
    - destruct (none_or_err q0) eqn:Q.
      + inversion C; subst. split; [reflexivity|]. split; [right; left; reflexivity|]. intros s v s1 E. rewrite match2, E. cbn [andthen]. unfold arms2.
        destruct (match_pat q0 v) as [bs|] eqn:M.
        * apply none_or_err_binds in M; [|exact Q]. subst bs. right. split.
          -- intros y V. apply view_res in V. destruct V as [(z & -> & V)|(? & ? & ? & ? & V & ?)]; [|discriminate]. inversion V; subst. rewrite match_one. reflexivity.
          -- intros us V. apply view_res in V. destruct V as [(z & -> & V)|(us' & c & vs & -> & V & N & _)]; [discriminate|]. rewrite match_other by exact N. apply scoped_nil.
        * destruct (match_pat (PData _ _ _) v) as [bs|] eqn:M2; [|left; reflexivity]. right. split.
          -- intros y V. apply view_res in V. destruct V as [(z & -> & V)|(? & ? & ? & ? & V & ?)]; [|discriminate]. inversion V; subst. rewrite match_one in M2. inversion M2; subst. reflexivity.
          -- intros us V. apply view_res in V. destruct V as [(z & -> & V)|(us' & c & vs & -> & V & N & _)]; [discriminate|]. rewrite match_other in M2 by exact N. discriminate.
      + destruct (none_or_err p0) eqn:P; [|discriminate]. inversion C; subst. split; [reflexivity|]. split; [left; reflexivity|]. intros s v s1 E. rewrite match2, E. cbn [andthen]. unfold arms2.
        assert (W : p0 <> PWild) by (intros ->; discriminate).
        destruct (match_pat p0 v) as [bs|] eqn:M.
        * right. split.
          -- intros y V. apply view_res in V. destruct V as [(z & -> & V)|(? & ? & ? & ? & V & ?)]; [|discriminate]. rewrite none_or_err_good in M by auto. discriminate.
          -- intros us V. apply none_or_err_binds in M; [|exact P]. subst bs. apply scoped_nil.
        * destruct (match_pat (PData _ _ _) v) as [bs|] eqn:M2; [|left; reflexivity]. right. split.
          -- intros y V. apply view_res in V. destruct V as [(z & -> & V)|(? & ? & ? & ? & V & ?)]; [|discriminate]. inversion V; subst. rewrite match_one in M2. inversion M2; subst. reflexivity.
          -- intros us V. apply view_res in V. destruct V as [(z & -> & V)|(us' & c & vs & -> & V & N & _)]; [discriminate|]. rewrite match_other in M2 by exact N. discriminate.
  Qed.

  Theorem option_if_let_else_sound : forall e t m r args, option_if_let_else e = Some (EMeth t m r args) -> shadowed e = false ->
    existsb ctor_call (bodies e) = false ->
    forall s, typed w fuel t s e -> ok w (ev e s) -> ok w (ev (EMeth t m r args) s) -> ev (EMeth t m r args) s = ev e s.
  Proof.
    intros e t m r0 args H SH CC s T N N'. unfold option_if_let_else in H.
    destruct (convert e) as [[[[p r] a] b]|] eqn:C; [|discriminate].
    destruct (inner_pat p) as [[[|br x [|]| | | | | |] k]|] eqn:IP; try discriminate.
    destruct (movable [] a && movable [] b) eqn:MV; [|discriminate]. apply andb_true_iff in MV. destruct MV as [MA MB].
    destruct (convert_eval _ _ _ _ _ _ _ _ C IP SH) as (SCR & IN & EV).
    assert (NC : ctor_call (peel_blocks b) = false) by (rewrite existsb_false in CC; apply CC; exact IN). clear CC.
    fold (res k) in H. set (func := if k then None else match peel_blocks b with ECall f [] => Some (PFn f) | ECallPath p [] => Some p | _ => None end) in *.
    assert (TT : t = res k) by (destruct (eager_call _) in H; inversion H; reflexivity). subst t.
    assert (RR : r0 = if br then EMeth (res k) MAsRef r [] else r) by (destruct (eager_call _) in H; inversion H; reflexivity). subst r0.
    unfold ok in *. destruct (ev r s) as [o s1] eqn:ER.
    assert (SCRE : (forall v, o <> OVal v) -> ev e s = (o, s1)).
    { intros NV. destruct e as [| | | | | | | | | | | |p0 c0 a1 b1|z e0 arms| | | | | | |]; try discriminate; inversion SCR; subst.
      - rewrite eval_iflet, ER. destruct o; try reflexivity. exfalso; eapply NV; reflexivity.
      - rewrite eval_match, ER. destruct o; try reflexivity. exfalso; eapply NV; reflexivity. }
    assert (SCRM : (forall v, o <> OVal v) -> ev (EMeth (res k) m (if br then EMeth (res k) MAsRef r [] else r) args) s = (o, s1)).
    { intros NV. rewrite eval_meth. destruct br; [rewrite meth_0|]; rewrite ER; destruct o; try reflexivity; exfalso; eapply NV; reflexivity. }
    destruct o as [v| | | | |]; try (rewrite SCRE, SCRM by discriminate; reflexivity). clear SCRE SCRM.
    specialize (EV s v s1 ER). specialize (T r v s1 SCR ER). destruct (view_of (res k) v) as [vw|] eqn:V; [|tauto]. clear T.
    destruct EV as [EV|[EG EB]]; [rewrite EV in N; destruct (N eq_refl)|].
    set (y' := fun y => if br then VRef y else y) in *.
    (* the receiver *)
    assert (RV : exists v', ev (if br then EMeth (res k) MAsRef r [] else r) s = (OVal v', s1) /\
      view_of (res k) v' = Some (match vw with Good y => Good (y' y) | Bad us => Bad (map y' us) end)).
    { pose proof V as V0. apply view_res in V. destruct V as [(y & -> & ->)|(us & c & vs & -> & -> & NE & V)]; destruct br.
      - rewrite meth_0, ER. cbn [andthen]. rewrite V0. unfold method. rewrite V0. eexists. split; [reflexivity|]. destruct k; reflexivity.
      - exists (VData (KCtor (good_ctor (res k))) [y]). split; [exact ER|exact V0].
      - rewrite meth_0, ER. cbn [andthen]. rewrite V0. unfold method. rewrite V0. eexists. split; [reflexivity|].
        destruct k; [destruct V as (u & -> & V)|destruct V as [-> V]; rewrite V]; reflexivity.
      - exists (VData (KCtor c) vs). split; [exact ER|]. rewrite V0. unfold y'. rewrite map_id. reflexivity. }
    destruct RV as (v' & RV & VV).
    assert (SF : forall y, Some vw = Some (Good y) -> ap (AC [PBind false x None] (peel_blocks a)) [y' y] s1 = ev e s).
    { intros y Vy. rewrite (EG y Vy). rewrite (movable_apply w fuel _ _ _ [(x, y' y)]) by (first [apply movable_peel; exact MA|reflexivity]).
      unfold scoped. rewrite (peel_movable w fuel a [] MA). reflexivity. }
    assert (OB : forall s, ev (peel_blocks b) s = ev b s) by (intros; eapply peel_movable; eauto).
    destruct (eager_call (peel_blocks b)) eqn:EA.
    - inversion H; subst m args. clear H.
      assert (EA' : eager (peel_blocks b) = true) by (unfold eager_call in EA; apply orb_true_iff in EA; destruct EA as [EA|EA]; [exact EA|unfold ctor_call in NC; rewrite NC in EA; discriminate]).
      assert (F : func = None) by (unfold func; destruct k; [reflexivity|]; destruct (peel_blocks b) as [| | | | |? [|]|? [|]| | | | | | | | | | | | | |]; try reflexivity; discriminate).
      rewrite F in *. clear F. rewrite meth_ef, RV in * by exact I. cbn [andthen] in *. rewrite VV in *.
      destruct (eager_pure w fuel _ s1 EA') as [Z|(u & Z)]; [exfalso; apply N'; destruct (ev (peel_blocks b) s1); cbn in Z; subst; reflexivity|].
      rewrite Z in *. cbn [andthen] in *. unfold method in *. rewrite VV in *. destruct vw as [y|us].
      + apply SF. reflexivity.
      + rewrite (EB us eq_refl), <- OB, Z. reflexivity.
    - inversion H; subst m args. clear H. rewrite meth_ff, RV in * by (first [exact I|destruct func; exact I]). cbn [andthen] in *. rewrite VV in *. unfold method in *. rewrite VV in *.
      destruct vw as [y|us]; [apply SF; reflexivity|]. rewrite (EB us eq_refl).
      assert (BA : forall ps vs, bind_all ps vs = Some [] -> ap (AC ps (peel_blocks b)) vs s1 = ev b s1).
      { intros ps vs B. rewrite (movable_apply w fuel _ _ _ []) by (first [apply movable_peel; exact MB|exact B]). rewrite scoped_nil. apply OB. }
      apply view_res in V. destruct V as [(y & -> & V)|(us' & c & vs & -> & V & NE & VK)]; [discriminate|]. inversion V; subst us'.
      destruct k.
      + cbn [func]. destruct VK as (u & -> & _). apply BA. reflexivity.
      + destruct VK as [-> _]. cbn [map]. destruct func as [f|] eqn:F; [|apply BA; reflexivity]. cbn [apply]. rewrite <- OB. unfold func in F.
        destruct (peel_blocks b) as [| | | | |g [|]|g [|]| | | | | | | | | | | | | |]; try discriminate; inversion F; subst; reflexivity.
  Qed.

  (** ** if_then_some_else_none *)
  Lemma block_some : forall ss a s, ev (EBlock None ss (Some (EData (KCtor c_some) [a]))) s =
    andthen w (ev (EBlock None ss (Some a)) s) (fun v s => (OVal (some_v v), s)).
  Proof.
    intros ss a s. rewrite !eval_block.
    assert (E : forall ss s, estmts w fuel (Some (EData (KCtor c_some) [a])) ss s = andthen w (estmts w fuel (Some a) ss s) (fun v s => (OVal (some_v v), s))).
    { induction ss0 as [|x ss0 IH]; intros s0; cbn [estmts eopt]; [apply eval_ctor|].
      destruct x as [p [i|] els|e|e].
      - destruct (ev i s0) as [[] s1]; try reflexivity. cbn [andthen]. destruct (match_pat p v); [apply IH|].
        destruct els as [b|]; [|reflexivity]. destruct (ev b s1) as [[] ?]; reflexivity.
      - reflexivity.
      - destruct (ev e s0) as [[] s1]; try reflexivity. cbn [andthen]. apply IH.
      - destruct (ev e s0) as [[] s1]; try reflexivity. cbn [andthen]. apply IH. }
    rewrite E. destruct (estmts w fuel (Some a) ss s) as [o s']. destruct o as [v|v|[l|] v| | |]; reflexivity.
  Qed.
  Theorem if_then_some_else_none_sound : forall e e', if_then_some_else_none e = Some e' ->
    forall s, ok w (ev e s) -> ok w (ev e' s) -> ev e' s = ev e s.
  Proof.
    intros e e' H s N N'. unfold if_then_some_else_none in H.
    destruct e as [| | | | | | | | | | |c [| | | | | | | | | | | | | |[|] ss [te|]| | | | | |] [b|]| | | | | | | | |]; try discriminate.
    destruct (as_ctor c_some te) as [a|] eqn:A; [|discriminate]. apply as_ctor_spec in A. subst te.
    destruct (none_body b && negb _) eqn:Z in H; [|discriminate]. apply andb_true_iff in Z. destruct Z as [NB CR]. apply negb_true_iff in CR.
    set (body := match ss with [] => a | _ => EBlock None ss (Some a) end) in *.
    assert (BE : forall s, ev body s = ev (EBlock None ss (Some a)) s).
    { intros s0. unfold body. destruct ss; [|reflexivity]. symmetry. apply (peel_one w fuel). }
    assert (CB : contains_return body = false).
    { unfold body. destruct ss; cbn in CR |- *; rewrite ?orb_false_r in *; exact CR. }
    unfold ok in *. rewrite eval_if in *. cbn [eopt] in *.
    destruct (eager _) eqn:EG in H; inversion H; subst e'; clear H.
    - assert (ES : ss = [] /\ eager a = true).
      { cbn in EG. apply andb_true_iff in EG. destruct EG as [EG _]. apply andb_true_iff in EG. destruct EG as [_ EG].
        destruct ss; [|discriminate]. rewrite andb_true_r in EG. auto. }
      destruct ES as [-> EA]. cbn [body] in *. rewrite meth_e in *. recv c s.
      destruct v as [|[]| | |]; try (destruct (N eq_refl)); cbn [view_of] in *.
      + rewrite block_some in *. rewrite <- BE in *. destruct (eager_pure w fuel a s1 EA) as [Q|(u & Q)]; [exfalso; apply N'; unfold body in *; destruct (ev a s1); cbn in Q; subst; reflexivity|].
        unfold body in *. rewrite Q in *. reflexivity.
      + destruct (eager_pure w fuel a s1 EA) as [Q|(u & Q)]; [exfalso; apply N'; unfold body in *; destruct (ev a s1); cbn in Q; subst; reflexivity|].
        unfold body in *. rewrite Q in *. rewrite none_eval by exact NB. reflexivity.
    - rewrite meth_f in * by exact I. recv c s. destruct v as [|[]| | |]; try (destruct (N eq_refl)); cbn [view_of] in *.
      + unfold method in *. cbn [view_of] in *. rewrite block_some in *. rewrite <- BE in *. rewrite (body_ap w fuel [] body s1 CB); [reflexivity|].
        intros Q. apply N'. destruct (ap (AC [] body) [] s1); cbn in Q; subst; reflexivity.
      + rewrite none_eval by exact NB. reflexivity.
  Qed.
End Mat3.
