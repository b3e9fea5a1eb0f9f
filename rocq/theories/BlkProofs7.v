(** Proofs about counters of `for` loops. *)
From Verif Require Import BlkSpec BlkSpec2 BlkEnv BlkModel BlkProofs BlkProofs2 BlkProofs4 BlkProofs5.

Section Counter.
Variable i : nat.
Notation visit := (visit i).
Notation strip := (strip i).
Notation use_of := (use_of i).
Notation spoil := (spoil i).
Definition rank (v : vstate) : nat := match v with Initial => 0 | IncrOnce => 1 | DontWarn => 2 end.
Definition vst := (vstate * nat)%type.
(** How a visitor moves. *)
Definition mono (f : vst -> vst) : Prop := forall s, rank (fst s) <= rank (fst (f s)) /\ snd s <= snd (f s).
Lemma mono_comp f g : mono f -> mono g -> mono (fun s => g (f s)).
Proof. intros F G s. destruct (F s), (G (f s)). lia. Qed.
Lemma mono_deeper f : mono f -> mono (deeper f).
Proof. intros F s. unfold deeper. destruct (F (fst s, S (snd s))). cbn [fst snd] in *. lia. Qed.
Lemma mono_use on pe y : mono (use_of on pe y).
Proof. intros [v d]. unfold BlkModel.use_of. destruct (here i on y && pe); cbn; destruct v; cbn; lia. Qed.
Lemma mono_spoil on y : mono (spoil on y).
Proof. intros [v d]. unfold BlkModel.spoil. destruct (here i on y); cbn; destruct v; cbn; lia. Qed.
Lemma mono_id : mono (fun s => s).
Proof. intros s. lia. Qed.
Definition asgop (on : bool) (o : op) (y : nat) (a : ex) (r : vst) : vst := 
      if here i on y then
        (match fst r, o with
         | Initial, OAdd => if is_one a && (snd r =? 0) then IncrOnce else DontWarn
         | _, _ => DontWarn end, snd r)
      else r.
Lemma mono_asgop on o y a : mono (asgop on o y a).
Proof. intros [v d]. unfold asgop. destruct (here i on y); cbn; [|lia]. destruct v; cbn; [|lia|lia]. destruct o; cbn; lia. Qed.
(** A property of visitors kept by doing one after the other and by going into a branch is one of all of them. *)
Lemma visit_all (P : (vst -> vst) -> Prop) :
  (forall f g, P f -> P g -> P (fun s => g (f s))) -> (forall f, P f -> P (deeper f)) -> P (fun s => s) -> P (fun s => (fst s, S (snd s))) ->
  (forall on pe y, P (use_of on pe y)) -> (forall on y, P (spoil on y)) -> (forall on o y a, P (asgop on o y a)) ->
  forall e on pe, P (visit on pe e).
Proof.
  intros PC PD P0 PK PU PS PA.
  induction e; intros on pe; cbn [BlkModel.visit];
    try exact P0; try exact PK;
    try (change (P (fun s => asgop on o x e (visit on true e s))));
    repeat first [exact P0 | apply PD | apply PU | apply PS | apply PA | match goal with IH : forall on pe, P (visit on pe ?e) |- P (visit _ _ ?e) => apply IH end
      | match goal with |- P (fun s => asgop ?on ?o ?y ?a (@?f s)) => apply (PC f (asgop on o y a)) end
      | match goal with |- P (fun s => BlkModel.visit i ?on ?pe ?e (@?f s)) => apply (PC f (visit on pe e)) end
      | match goal with |- P (fun s => BlkModel.spoil i ?on ?y (@?f s)) => apply (PC f (spoil on y)) end
      | match goal with |- P (fun s => deeper ?g (@?f s)) => apply (PC f (deeper g)) end ].
Qed.
Lemma mono_visit : forall e on pe, mono (visit on pe e).
Proof.
  apply visit_all; auto using mono_comp, mono_deeper, mono_use, mono_spoil, mono_asgop.
  - intros s. lia.
  - intros s. cbn. lia.
Qed.
(** Only an increment outside every branch, and before any `continue`, counts. *)
Definition top (f : vst -> vst) : Prop := mono f /\ forall s, fst s = Initial -> fst (f s) = IncrOnce -> snd s = 0.
Lemma top_visit : forall e on pe, top (visit on pe e).
Proof.
  apply visit_all.
  - intros f g [F F'] [G G']. split; [now apply mono_comp|]. intros s S H.
    destruct (F s) as [_ Q]. destruct (fst (f s)) eqn:E.
    + specialize (G' _ E H). lia.
    + now apply F'.
    + destruct (G (f s)) as [K _]. rewrite E, H in K. cbn in K. lia.
  - intros f [F F']. split; [now apply mono_deeper|]. intros s S H. specialize (F' (fst s, Datatypes.S (snd s)) S H). discriminate.
  - split; [intros s; lia|]. intros s S H. congruence.
  - split; [intros s; cbn; lia|]. cbn. intros s S H. congruence.
  - intros. split; [apply mono_use|]. intros [v d] S H. unfold BlkModel.use_of in H. cbn in *. subst. destruct (_ && _) in H; discriminate.
  - intros. split; [apply mono_spoil|]. intros [v d] S H. unfold BlkModel.spoil in H. cbn in *. subst. destruct (here _ _ _) in H; discriminate.
  - intros. split; [apply mono_asgop|]. intros [v d] S H. unfold asgop in H. cbn in *. subst. destruct (here _ _ _) in H; [|discriminate]. cbn in H.
    destruct o; try discriminate. destruct (is_one a); [|discriminate]. cbn in H. destruct d; [reflexivity|discriminate].
Qed.
(** Where the name stands for something else nothing counts. *)
Lemma visit_off : forall e pe s, fst (visit false pe e s) = fst s.
Proof.
  induction e; intros pe s; cbn [BlkModel.visit andb]; unfold deeper, BlkModel.use_of, BlkModel.spoil, here; cbn [fst snd andb];
    repeat match goal with H : forall pe s, _ |- _ => rewrite H end; reflexivity.
Qed.
Lemma strip_off : forall e, strip false e = e.
Proof. induction e; cbn [BlkModel.strip andb]; unfold here; cbn [andb]; rewrite ?IHe, ?IHe1, ?IHe2, ?IHe3; try reflexivity. destruct o; reflexivity. Qed.
Lemma here_true y : here i true y = (i =? y).
Proof. apply Nat.eqb_sym. Qed.
Lemma strip_keeps : forall e, changes i e = false -> strip true e = e.
Proof.
  induction e; cbn [BlkModel.strip andb changes]; rewrite ?(Nat.eqb_sym x i); intros H; repeat (apply orb_false_iff in H as [H ?]);
    repeat match goal with K : negb ?m && changes _ _ = false |- _ => destruct m eqn:?; cbn [negb andb] in *; rewrite ?strip_off; [clear K|] end;
    rewrite ?here_true, ?IHe, ?IHe1, ?IHe2, ?IHe3 by assumption; try reflexivity.
  rewrite H. destruct o; reflexivity.
Qed.
Lemma mid (f g : vst -> vst) s : mono f -> mono g -> fst (g (f s)) = fst s -> fst (f s) = fst s.
Proof.
  intros F G E. destruct (F s) as [A _], (G (f s)) as [B _]. rewrite E in B. destruct (fst s), (fst (f s)); cbn in *; try lia; reflexivity.
Qed.
(** What a visitor that does not move has seen. *)
Lemma deeper_fst f s : fst (deeper f s) = fst (f (fst s, S (snd s))).
Proof. reflexivity. Qed.
Definition still (v : vstate) (f : vst -> vst) (s : vst) : Prop := fst s = v /\ fst (f s) = v.
Lemma still_comp v f g s : mono f -> mono g -> still v (fun s => g (f s)) s -> still v f s /\ still v g (f s).
Proof.
  intros F G [A B]. assert (K : fst (f s) = v). { rewrite <- A. apply (mid f g); auto. congruence. }
  repeat split; auto.
Qed.
Lemma still_deeper v f s : still v (deeper f) s -> still v f (fst s, S (snd s)).
Proof. intros H. exact H. Qed.
Ltac mono := repeat first [exact mono_id | apply mono_deeper | apply mono_use | apply mono_spoil | apply mono_asgop | apply mono_visit 
      | match goal with |- mono (fun q => asgop ?on ?o ?y ?a (@?f q)) => apply (mono_comp f (asgop on o y a)) end
      | match goal with |- mono (fun q => BlkModel.visit i ?on ?pe ?e (@?f q)) => apply (mono_comp f (visit on pe e)) end
      | match goal with |- mono (fun q => BlkModel.spoil i ?on ?y (@?f q)) => apply (mono_comp f (spoil on y)) end
      | match goal with |- mono (fun q => deeper ?g (@?f q)) => apply (mono_comp f (deeper g)) end ].
Lemma still_use on pe y s : still IncrOnce (use_of on pe y) s -> here i on y && pe = false.
Proof. intros [A B]. unfold BlkModel.use_of in B. destruct (_ && pe); [|reflexivity]. cbn in B. rewrite A in B. discriminate. Qed.
Lemma still_spoil v on y s : v <> DontWarn -> still v (spoil on y) s -> here i on y = false.
Proof. intros N [A B]. unfold BlkModel.spoil in B. destruct (here _ _ _); [|reflexivity]. cbn in B. congruence. Qed.
Lemma still_asgop v on o y a s : v <> DontWarn -> still v (asgop on o y a) s -> here i on y = false.
Proof.
  intros N [A B]. unfold asgop in B. destruct (here _ _ _); [|reflexivity]. cbn in B. rewrite A in B. destruct v; [|congruence..].
  destruct o; try congruence. destruct (_ && _); congruence.
Qed.
Ltac split_still := repeat match goal with
  | H : still ?v (fun q => BlkModel.visit i ?on ?pe ?e (@?f q)) ?t |- _ => 
      let A := fresh "S" in let B := fresh "S" in
      destruct (still_comp v f (visit on pe e) t ltac:(mono) (mono_visit _ _ _) H) as [A B]; clear H; cbn beta in A, B
  | H : still ?v (fun q => BlkModel.spoil i ?on ?y (@?f q)) ?t |- _ => 
      let A := fresh "S" in let B := fresh "S" in
      destruct (still_comp v f (spoil on y) t ltac:(mono) (mono_spoil _ _) H) as [A B]; clear H; cbn beta in A, B
  | H : still ?v (fun q => asgop ?on ?o ?y ?a (@?f q)) ?t |- _ => 
      let A := fresh "S" in let B := fresh "S" in
      destruct (still_comp v f (asgop on o y a) t ltac:(mono) (mono_asgop _ _ _ _) H) as [A B]; clear H; cbn beta in A, B
  | H : still ?v (fun q => deeper ?g (@?f q)) ?t |- _ => 
      let A := fresh "S" in let B := fresh "S" in
      destruct (still_comp v f (deeper g) t ltac:(mono) (mono_deeper g ltac:(mono)) H) as [A B]; clear H; cbn beta in A, B
  | H : still ?v (fun q => BlkModel.use_of i ?on ?pe ?y q) ?t |- _ => change (still v (use_of on pe y) t) in H
  | H : still _ (deeper _) _ |- _ => apply still_deeper in H
  end.
Lemma mask (m : bool) (u : bool) : (m = false -> u = false) -> negb m && u = false.
Proof. destruct m; cbn; auto. Qed.
Lemma still_changes : forall e pe s, still Initial (visit true pe e) s -> changes i e = false.
Proof.
  induction e; intros pe s H; cbn [BlkModel.visit andb] in H; try (change (still Initial (fun s => asgop true o x e (visit true true e s)) s) in H);
    split_still; cbn [changes].
  all: repeat match goal with H : still _ (BlkModel.spoil i _ _) _ |- _ => apply still_spoil in H; [|discriminate] | H : still _ (asgop _ _ _ _) _ |- _ => apply still_asgop in H; [|discriminate] end.
  all: rewrite ?here_true, ?(Nat.eqb_sym x i) in *; repeat (apply orb_false_iff; split); eauto.
  all: try (apply mask; intros M; rewrite ?M in *; cbn [negb] in *; eauto).
Qed.
Lemma still_uses : forall e pe s, still IncrOnce (visit true pe e) s -> alone i pe e = false -> uses i e = false.
Proof.
  induction e; intros pe s H A; cbn [BlkModel.visit andb] in H; try (change (still IncrOnce (fun s => asgop true o x e (visit true true e s)) s) in H);
    split_still; cbn [uses]; cbn [alone] in A; repeat (apply orb_false_iff in A as [A ?]).
  all: repeat match goal with H : still _ (BlkModel.spoil i _ _) _ |- _ => apply still_spoil in H; [|discriminate] | H : still _ (asgop _ _ _ _) _ |- _ => apply still_asgop in H; [|discriminate]
     | H : still _ (BlkModel.use_of i _ _ _) _ |- _ => apply still_use in H end.
  all: rewrite ?here_true, ?(Nat.eqb_sym x i), ?andb_true_r in *; repeat (apply orb_false_iff; split); eauto.
  all: try (apply mask; intros M; rewrite ?M in *; cbn [negb andb] in *; eauto).
  destruct pe; [|exact A]. destruct (i =? x); [discriminate|reflexivity].
Qed.
(** No `continue` without moving deeper. *)
Fixpoint ncnt (e : ex) : nat :=
  match e with
  | XCnt _ => 1
  | XVal _ | XVar _ | XLen _ | XIsEmpty _ | XPop _ | XSwap _ _ => 0
  | XCall _ a b | XBin _ a b | XAnd a b | XOr a b | X2 _ a b | XEnum a b | XSeq a b | XIf a b | XTest a b | XAsgIdx _ a b
  | XOpIdx _ _ a b | XSwapIdx _ a b | XLet _ a b | XBind _ a b | XFor _ _ a b => ncnt a + ncnt b
  | XNot a | X1 _ a | XArr a | XUnwrap a | XBrace a | XWhen a | XLoop _ a | XWhile _ a | XBlk _ a | XBrk _ a | XRet a | XIdx _ a
  | XAsg _ a | XAsgOp _ _ a | XDecl _ a => ncnt a
  | XLetElse _ a d b | XMatch a _ d _ b => ncnt a + ncnt d + ncnt b
  end.
Lemma visit_ncnt : forall e on pe s, snd (visit on pe e s) = snd s + ncnt e.
Proof.
  assert (U : forall on pe y s, snd (use_of on pe y s) = snd s) by (intros; unfold BlkModel.use_of; destruct (_ && _); reflexivity).
  assert (V : forall on y s, snd (spoil on y s) = snd s) by (intros; unfold BlkModel.spoil; destruct (here _ _ _); reflexivity).
  induction e; intros on pe s; cbn [BlkModel.visit ncnt]; unfold deeper; cbn [fst snd];
    repeat (rewrite ?U, ?V, ?IHe, ?IHe1, ?IHe2, ?IHe3; cbn [fst snd]); try lia.
  destruct (here i on x); cbn; rewrite ?IHe; reflexivity.
Qed.
Variable world : list ev -> option val.
Variable n : nat.
Notation eval := (eval world n).
Definition calm (o : out) : Prop := match o with OCnt _ => False | _ => True end.
Lemma next_calm : forall r k, calm (fst r) -> (forall v s, calm (fst (k v s))) -> calm (fst (next r k)).
Proof. intros [o s] k A B. unfold next. cbn in *. destruct o; auto; cbn; exact Logic.I. Qed.
Lemma bin_calm : forall o v w, calm (bin o v w).
Proof. intros o v w. destruct o, v; cbn; auto; destruct w; cbn; auto. destruct (z0 =? 0)%Z; exact Logic.I. Qed.
Lemma loop_calm : forall l f m s, (forall s, calm (fst (f s))) -> calm (fst (run_loop l f m s)).
Proof.
  intros l f m. induction m as [|m IH]; intros s F; cbn; [exact Logic.I|]. specialize (F s) as G. destruct (f s) as [o t]. cbn in *.
  destruct o; cbn; auto; try contradiction; destruct (hits l l0); cbn; auto.
Qed.
Lemma for_calm : forall l f vs s, (forall v s, calm (fst (f v s))) -> calm (fst (run_for l f vs s)).
Proof.
  intros l f vs. induction vs as [|v vs IH]; intros s F; cbn; [exact Logic.I|]. specialize (F v s) as G. destruct (f v s) as [o t]. cbn in *.
  destruct o; cbn; auto; try contradiction; destruct (hits l l0); cbn; auto.
Qed.
Lemma given_calm : forall v s, calm (fst (given v s)).
Proof. destruct v; cbn; auto. Qed.
Lemma eval_calm : forall e s, ncnt e = 0 -> calm (fst (eval e s)).
Proof.
  induction e; intros s R; cbn [ncnt] in R; repeat match goal with R : _ + _ = 0 |- _ => apply Nat.eq_add_0 in R as [? ?] end; try discriminate; cbn [BlkSpec.eval];
    try (apply next_calm; [auto|]; intros v1 t1; try (apply next_calm; [auto|]; intros v2 t2));
    try (repeat match goal with |- calm (fst (match ?u with _ => _ end)) => destruct u eqn:? end; cbn; auto; try apply bin_calm; apply given_calm; fail).
  - destruct (bin o (fst t1 x) v1) eqn:E; cbn; auto. pose proof (bin_calm o (fst t1 x) v1) as K. now rewrite E in K.
  - destruct (fst t2 x); cbn; auto. destruct v2; cbn; auto. destruct (at_ l z); cbn; auto.
    destruct (bin o v v1) eqn:E; cbn; auto. pose proof (bin_calm o v v1) as K. now rewrite E in K.
  - destruct (pbind p v1 (fst t1)); [cbn; auto|]. apply next_calm; [auto|]. cbn. auto.
  - specialize (IHe1 s H). destruct (eval e1 s) as [o t]. cbn in *. destruct o; cbn; auto.
  - specialize (IHe s R). destruct (eval e s) as [o t]. cbn in *. destruct o; cbn; auto.
  - apply loop_calm. auto.
  - apply loop_calm. intros t. specialize (IHe t R). destruct (eval e t) as [o u]. destruct o; cbn; auto.
  - destruct v1; cbn; auto. apply for_calm. intros v u. destruct (pbind p v (fst u)); [cbn; auto|exact Logic.I].
  - specialize (IHe s R). destruct (eval e s) as [o t]. cbn in IHe. destruct o; cbn; auto. destruct l0; cbn; auto.
    destruct (l =? n0); exact Logic.I.
Qed.

End Counter.
