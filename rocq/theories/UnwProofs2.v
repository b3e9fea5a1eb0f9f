(* What the lint says about calls of unwrap is what happens. *)
From Coq Require Import List ZArith Bool Arith Lia.
Import ListNotations.
From Verif Require Import UnwSpec UnwModel UnwProofs.

Definition place_of_local (l : local) : place := (fst l, rev (snd l)).

Lemma extract_scoped : forall G e l, scoped G e -> extract_local e = Some l -> In (fst l) G.
Proof.
  induction e; intros l S E; cbn in *; try discriminate.
  - injection E as <-. exact S.
  - destruct (extract_local e) as [[x is]|]; [|discriminate]. injection E as <-. apply (IHe (x, is) S eq_refl).
Qed.

Section world.
Variable w : world.
Variable T : place -> kind.
Notation eval := (eval w T).

Lemma bind_val : forall r k v s, bind r k = (OVal v, s) -> exists u s1, r = (OVal u, s1) /\ k u s1 = (OVal v, s).
Proof. intros [o s1] k v s H. destruct o; try discriminate. eauto. Qed.

Lemma collect_scoped : forall G c inv i, scoped G c -> In i (collect T inv c) -> In (fst (fst i)) G.
Proof.
  intros G. induction c; intros inv i0 S H; cbn [collect scoped] in *; try contradiction.
  - destruct (extract_local c) as [l|] eqn:E; [|contradiction].
    destruct (option_or_result_call _ m); [|contradiction]. destruct H as [<-|[]]. eapply extract_scoped; eauto.
  - eauto.
  - destruct S. destruct inv, o; try contradiction; apply in_app_or in H as [H|H]; eauto.
Qed.

(* After the condition came out one way, what was collected for it holds. *)
Lemma condition : forall n G c s inv s' i,
  scoped G c -> std_as_mut T c -> eval n c s = (OVal (VBool (negb inv)), s') ->
  In i (collect T inv c) -> mutated (fst i) c = false -> holds (place_of_local (fst i)) (snd i) s'.
Proof.
  induction n as [|n IH]; intros G c s inv s' i Sc A E I M; [discriminate|].
  destruct c; cbn [collect] in I; try contradiction; cbn [scoped std_as_mut mutated UnwSpec.eval] in *.
  - destruct (extract_local c) as [l|] eqn:X; [|contradiction].
    destruct (option_or_result_call (T (fst l, rev (snd l))) m) as [u|] eqn:O; [|contradiction].
    destruct I as [<-|[]]. cbn [fst snd].
    apply bind_val in E as [v [s1 [E K]]].
    assert (P : place_of c = Some (place_of_local l)) by (rewrite extract_place, X; destruct l; reflexivity).
    destruct (eval_place _ _ _ _ _ _ _ _ P E) as [V [C ->]].
    assert (Z : s' = use (place_of_local l) s /\ exists d y, v = VC d y /\ good d = negb (eqb u inv)).
    { unfold place_of_local in *.
      destruct (T (fst l, rev (snd l))), m; try discriminate O; injection O as <-;
        destruct v as [| | | |d y]; try discriminate C; destruct d; try discriminate C;
        unfold invoke in K; cbn in K; rewrite P in K; injection K as K <-; split; try reflexivity;
        eexists _, _; (split; [reflexivity|]); destruct inv; try discriminate K; reflexivity. }
    destruct Z as [-> [d [y [-> Gd]]]]. split.
    + exists d, y. split; [rewrite at_use; exact V|exact Gd].
    + cbn [loans use]. intros ln J O'. apply filter_In in J as [_ J]. rewrite O' in J. discriminate.
  - apply bind_val in E as [v [s1 [E K]]]. destruct v; try discriminate. injection K as K <-.
    apply (IH G c s (negb inv) s1 i); auto. rewrite negb_involutive, E. f_equal. f_equal. f_equal. destruct b, inv; auto; discriminate.
  - apply orb_false_iff in M as [M1 M2]. destruct Sc as [S1 S2], A as [A1 A2].
    apply bind_val in E as [v [s1 [E K]]].
    assert (Q : exists u, v = VBool (negb inv) /\ eval n c2 s1 = (OVal u, s') /\ u = VBool (negb inv)).
    { destruct inv, o; try contradiction I; destruct v as [|b| | |]; try destruct b; try discriminate K;
        cbn [negb] in *; apply bind_val in K as [u [s2 [K L]]]; destruct u as [|b2| | |]; try destruct b2;
        try discriminate L; injection L as <-; eauto. }
    destruct Q as [u [-> [E2 ->]]].
    assert (J : In i (collect T inv c1 ++ collect T inv c2)) by (destruct inv, o; try contradiction I; exact I).
    apply in_app_or in J as [J|J].
    + assert (H : holds (place_of_local (fst i)) (snd i) s1) by (apply (IH G c1 s inv s1 i); auto).
      change s' with (snd (OVal (VBool (negb inv)), s')). rewrite <- E2.
      apply (preserve w T n G c2 (fst i)); auto. eapply collect_scoped; [exact S1|exact J].
    + apply (IH G c2 s1 inv s' i); auto.
Qed.

(* ---------- traces ---------- *)
Definition says (v : verdict) : bool := match v with Panicking => true | Unnecessary => false end.
Definition traced (is : list nat) (R : list (nat * verdict)) (s s' : st) : Prop :=
  exists new, seen s' = new ++ seen s /\
    forall id b, In (id, b) new -> In id is /\ forall v, In (id, v) R -> b = says v.

Lemma traced_refl : forall is R s s', seen s' = seen s -> traced is R s s'.
Proof. intros. exists []. split; [assumption|]. intros ? ? []. Qed.
Lemma traced_trans : forall is R s1 s2 s3, traced is R s1 s2 -> traced is R s2 s3 -> traced is R s1 s3.
Proof.
  intros is R s1 s2 s3 [a [A P]] [b [B Q]]. exists (b ++ a). split; [rewrite B, A, app_assoc; reflexivity|].
  intros id x I. apply in_app_or in I as [I|I]; auto.
Qed.
Lemma traced_wide : forall is R is' R' s s',
  traced is R s s' -> (forall i, In i is -> In i is') ->
  (forall i v, In i is -> In (i, v) R' -> In (i, v) R) -> traced is' R' s s'.
Proof.
  intros is R is' R' s s' [a [A P]] I J. exists a. split; [assumption|]. intros id b K.
  destruct (P id b K) as [K1 K2]. split; [auto|]. intros v L. apply K2, J; assumption.
Qed.
Lemma traced_seen : forall is R s s' t t', traced is R s s' -> seen s = seen t -> seen s' = seen t' -> traced is R t t'.
Proof. intros is R s s' t t' [a [A P]] E F. exists a. split; [congruence|exact P]. Qed.

Lemma report_id : forall us id m r i v, In (i, v) (report us id m r) -> i = id.
Proof.
  intros us id m r i v H. unfold report in H. destruct (unwraps m); [|contradiction].
  destruct (extract_local _) as [l|]; [|contradiction].
  destruct (find (fun u => local_eq (fst u) l) us); [|contradiction]. destruct H as [H|[]]. congruence.
Qed.
Lemma visit_ids : forall e top us i v, In (i, v) (visit T top us e) -> In i (ids e).
Proof.
  induction e; intros top us j vd H; cbn [visit ids] in *; try contradiction; eauto;
    try (destruct top);
    repeat match goal with
    | X : In _ (_ ++ _) |- _ => apply in_app_or in X; destruct X as [X|X]
    | X : In _ (report _ _ _ _) |- _ => apply report_id in X; subst; left; reflexivity
    | X : In _ [] |- _ => destruct X
    end; rewrite ?in_app_iff; cbn [In]; rewrite ?in_app_iff; eauto 6.
Qed.

Lemma fold_seen : forall r ls s, seen (fold_left (write r) ls s) = seen s.
Proof.
  induction ls as [|l ls IH]; intros s; cbn; [reflexivity|]. rewrite IH. unfold write.
  destruct (writes r (on l)); [|reflexivity]. destruct (inside l); [|reflexivity].
  destruct (at_place s (on l)) as [[]|]; try reflexivity. destruct c; reflexivity.
Qed.
Lemma act_seen : forall f args s, seen (snd (act w f args s)) = seen s.
Proof. intros. unfold act. cbn [snd]. rewrite fold_seen. reflexivity. Qed.
Lemma read_seen : forall q s, seen (snd (read T q s)) = seen s.
Proof. intros. unfold read. destruct (at_place s q); [|reflexivity]. destruct (conforms (T q) v); reflexivity. Qed.

Lemma traced_bind : forall is R s r k,
  traced is R s (snd r) -> (forall v s', r = (OVal v, s') -> traced is R s' (snd (k v s'))) ->
  traced is R s (snd (bind r k)).
Proof. intros is R s [o s1] k H K. destruct o; cbn in *; try exact H. eapply traced_trans; [exact H|]. apply K. reflexivity. Qed.

(* A call: at most one observation, that of the call itself. *)
Lemma invoke_seen : forall id m p v args s,
  seen (snd (invoke w id m p v args s)) = seen s \/
  unwraps m = true /\ exists b, seen (snd (invoke w id m p v args s)) = (id, b) :: seen s /\
    forall c u, v = VC c u -> (if b then std m c u = Some OPanic else exists y, std m c u = Some (OVal y)).
Proof.
  intros id m p v args s.
  assert (N : forall o s1, seen s1 = seen s ->
    seen (snd (noted id m (o, s1))) = seen s \/
    unwraps m = true /\ exists b, seen (snd (noted id m (o, s1))) = (id, b) :: seen s /\
      (if b then o = OPanic else exists y, o = OVal y)).
  { intros o s1 E. unfold noted. destruct (unwraps m); [|left; exact E].
    destruct o; cbn [snd seen note]; rewrite E; auto; right; split; auto;
      [exists false|exists true]; split; eauto. }
  assert (L : forall q i s0, seen (lend q i s0) = seen s0) by reflexivity.
  assert (Q : (forall c u, v = VC c u -> std m c u = None) ->
    let r := noted id m (act w (code m) (v :: args) (match p with Some p => if by_mut m then lend p false s else s | None => s end)) in
    seen (snd r) = seen s \/ unwraps m = true /\ exists b, seen (snd r) = (id, b) :: seen s /\
     forall c u, v = VC c u -> (if b then std m c u = Some OPanic else exists y, std m c u = Some (OVal y))).
  { intros F r. subst r. set (s0 := match p with Some _ => _ | None => _ end).
    assert (E0 : seen s0 = seen s) by (subst s0; destruct p; [destruct (by_mut m)|]; reflexivity).
    assert (E1 := act_seen (code m) (v :: args) s0). destruct (act w (code m) (v :: args) s0) as [o s1]. cbn [snd] in E1.
    destruct (N o s1) as [X|[U [b [X Y]]]]; [congruence|left; exact X|right].
    split; [exact U|]. exists b. split; [exact X|]. intros c u ->. specialize (F c u eq_refl).
    destruct m; try discriminate U; destruct c; discriminate F. }
  unfold invoke. destruct v; try (apply Q; congruence).
  destruct (std m c v) as [o|] eqn:S.
  - match goal with |- context [noted id m (o, ?s1)] => assert (E : seen s1 = seen s) by (destruct p; [destruct m|]; reflexivity);
      destruct (N o s1 E) as [X|[U [b [X Y]]]] end; [left; exact X|right].
    split; [exact U|]. exists b. split; [exact X|]. intros c0 u E0. injection E0 as <- <-. rewrite S.
    destruct b; [congruence|]. destruct Y as [y ->]. eauto.
  - apply Q. intros c0 u E0. injection E0 as <- <-. exact S.
Qed.

Lemma eqs_eq : forall a b, eqs a b = true -> a = b.
Proof.
  induction a as [|x r IH]; intros [|y q] H; cbn in *; try discriminate; [reflexivity|].
  apply andb_true_iff in H as [E H]. apply Nat.eqb_eq in E. f_equal; auto.
Qed.

(* The value unwrapped is of the variant that is known. *)
Lemma report_right : forall us n id m r s v s' (b : bool) vd,
  Forall (fun i => holds (place_of_local (fst i)) (snd i) s) us ->
  eval n r s = (OVal v, s') -> In (id, vd) (report us id m r) ->
  (forall c u, v = VC c u -> (if b then std m c u = Some OPanic else exists y, std m c u = Some (OVal y))) ->
  b = says vd.
Proof.
  intros us n id m r s v s' b vd F E I K. unfold report in I.
  destruct (unwraps m) eqn:U; [|contradiction].
  destruct (extract_local (consume_option_as_ref r)) as [l|] eqn:X; [|contradiction].
  destruct (find (fun u => local_eq (fst u) l) us) as [i|] eqn:Fd; [|contradiction].
  apply find_some in Fd as [Ii L]. destruct I as [I|[]]. injection I as <-.
  apply andb_true_iff in L as [L1 L2]. apply Nat.eqb_eq in L1. apply eqs_eq in L2.
  rewrite Forall_forall in F. specialize (F i Ii).
  assert (P : place_of_local (fst i) = place_of_local l) by (unfold place_of_local; congruence).
  rewrite P in F. destruct F as [[d [y [A Gd]]] _].
  assert (V : v = VC d y).
  { assert (Pl : forall n e s1 v1 s2, extract_local e = Some l -> eval n e s1 = (OVal v1, s2) -> at_place s1 (place_of_local l) = Some v1).
    { intros n0 e s1 v1 s2 X1 E1. eapply eval_place; [|exact E1]. rewrite extract_place, X1. destruct l; reflexivity. }
    assert (Dir : extract_local r = Some l -> v = VC d y).
    { intros X1. assert (B := Pl _ _ _ _ _ X1 E). congruence. }
    destruct r; try (apply Dir; exact X).
    assert (St : forall mm, mm = MAsRef \/ mm = MAsMut -> extract_local r = Some l -> eval n (EMeth0 id0 mm r) s = (OVal v, s') -> v = VC d y).
    { intros mm Hm X1 E1. destruct n as [|n]; [discriminate|]. cbn [UnwSpec.eval] in E1.
      apply bind_val in E1 as [v1 [s1 [E1 K1]]]. assert (B := Pl _ _ _ _ _ X1 E1).
      rewrite A in B. injection B as <-. unfold invoke in K1.
      destruct Hm as [-> | ->]; cbn in K1; congruence. }
    destruct m0; try (apply Dir; exact X); (eapply St; [|exact X|exact E]); auto. }
  specialize (K d y V).
  destruct m; try discriminate U; destruct d; cbn in Gd, K; rewrite <- Gd; cbn;
    destruct b; try reflexivity; try discriminate K; destruct K as [? K]; discriminate K.
Qed.

Definition known (G : list nat) (us : list info) (e : ex) (s : st) : Prop :=
  Forall (fun i => holds (place_of_local (fst i)) (snd i) s /\ In (fst (fst i)) G /\ mutated (fst i) e = false) us.

Lemma NoDup_app_inv : forall (a b : list nat), NoDup (a ++ b) -> NoDup a /\ NoDup b /\ forall x, In x a -> In x b -> False.
Proof.
  induction a as [|x a IH]; intros b H; cbn in *.
  - repeat split; auto using NoDup_nil.
  - inversion H as [|? ? N H']; subst. destruct (IH b H') as [A [B D]]. rewrite in_app_iff in N.
    repeat split; auto; [constructor; tauto|]. intros y [<-|I] J; [tauto|eauto].
Qed.

Lemma known_sub : forall G us e e' s, known G us e s -> (forall l, mutated l e = false -> mutated l e' = false) -> known G us e' s.
Proof. intros G us e e' s K H. unfold known in *. eapply Forall_impl; [|exact K]. cbn. intros i [A [B C]]. auto. Qed.
Lemma known_step : forall n G us e e' s,
  scoped G e' -> std_as_mut T e' -> (forall l, mutated l e = false -> mutated l e' = false) ->
  known G us e s -> known G us e (snd (eval n e' s)).
Proof.
  intros n G us e e' s Sc A M K. unfold known in *. eapply Forall_impl; [|exact K]. cbn. intros i [H [B C]].
  repeat split; auto; eapply preserve with (G := G); eauto.
Qed.
Lemma known_use : forall G us e s x v, known G us e s -> ~ In x G -> known (x :: G) us e (set_place (use (x, []) s) (x, []) v).
Proof.
  intros G us e s x v K N. unfold known in *. eapply Forall_impl; [|exact K]. cbn. intros i [H [B C]].
  split; [apply holds_let; [exact H|cbn; intros E; rewrite E in B; contradiction]|auto].
Qed.

Lemma known_branch : forall n G us c br e inv s s',
  scoped G c -> std_as_mut T c ->
  eval n c s = (OVal (VBool (negb inv)), s') -> known G us e s' ->
  (forall l, mutated l e = false -> mutated l br = false) ->
  known G (us ++ kept T c br inv) br s'.
Proof.
  intros n G us c br e inv s s' Sc A E K M. unfold known. apply Forall_app. split.
  - apply (known_sub _ _ _ _ _ K M).
  - apply Forall_forall. intros i I. unfold kept in I. apply filter_In in I as [I N].
    apply negb_true_iff, orb_false_iff in N as [N1 N2]. repeat split.
    + eapply (proj1 (condition _ _ _ _ _ _ _ Sc A E I N1)).
    + eapply (proj2 (condition _ _ _ _ _ _ _ Sc A E I N1)); eassumption.
    + eapply (proj2 (condition _ _ _ _ _ _ _ Sc A E I N1)); eassumption.
    + eapply collect_scoped; eassumption.
    + exact N2.
Qed.

Ltac sub_mut := intros ? Hm; cbn [mutated] in Hm;
  repeat match goal with X : _ || _ = false |- _ => apply orb_false_iff in X; destruct X end; assumption.

Ltac nd := repeat match goal with
  | X : NoDup (_ ++ _) |- _ => apply NoDup_app_inv in X; destruct X as [? [? ?]]
  | X : NoDup (_ :: _) |- _ => inversion X; clear X; subst
  | X : ~ In _ (_ ++ _) |- _ => rewrite in_app_iff in X
  end.
Ltac apart i := solve [ match goal with D : forall x, In x _ -> In x _ -> False |- False => apply (D i); rewrite ?in_app_iff; tauto end | tauto ].
Ltac reps top := let i := fresh "i" in let v := fresh "v" in let Hi := fresh "Hi" in let Hv := fresh "Hv" in
  intros i v Hi Hv; cbn [visit] in Hv; try destruct top;
  repeat (apply in_app_or in Hv; destruct Hv as [Hv|Hv]);
  first [ exact Hv
        | exfalso; first [apply visit_ids in Hv; apart i | apply report_id in Hv; subst i; apart 0 | destruct Hv] ].
Ltac inids := intros; cbn [ids In]; rewrite ?in_app_iff; tauto.

Theorem run_traced : forall n G e top us s,
  scoped G e -> std_as_mut T e -> NoDup (ids e) -> known G us e s ->
  traced (ids e) (visit T top us e) s (snd (eval n e s)).
Proof.
  induction n as [|n IH]; intros G e top us s Sc A N K; [apply traced_refl; reflexivity|].
  assert (Whole : forall e' s v s', eval n e' s = (OVal v, s') -> scoped G e' -> std_as_mut T e' ->
    (forall l, mutated l e = false -> mutated l e' = false) -> known G us e s -> known G us e s').
  { intros e' s0 v s' E H1 H2 H3 H4. change s' with (snd (OVal v, s')). rewrite <- E. apply known_step; assumption. }
  assert (Part : forall e' top' us' s, scoped G e' -> std_as_mut T e' -> NoDup (ids e') -> known G us' e' s ->
     (forall i, In i (ids e') -> In i (ids e)) ->
     (forall i v, In i (ids e') -> In (i, v) (visit T top us e) -> In (i, v) (visit T top' us' e')) ->
     traced (ids e) (visit T top us e) s (snd (eval n e' s))).
  { intros e' top' us' s0 S1 A1 N1 K1 I1 R1. eapply traced_wide; [apply (IH G e' top' us' s0); assumption|assumption|assumption]. }
  assert (Meth : forall id m r args v s0 s1 s2 b rest,
     e = EMeth0 id m r \/ e = EMeth1 id m r b -> ids e = id :: rest -> ~ In id rest -> eval n r s = (OVal v, s0) ->
     snd (invoke w id m (place_of r) v args s1) = s2 -> traced (ids e) (visit T top us e) s1 s2).
  { intros id m r args v s0 s1 s2 b rest He Hid Hn E <-.
    destruct (invoke_seen id m (place_of r) v args s1) as [X|[U [o [X Y]]]]; [apply traced_refl; exact X|].
    exists [(id, o)]. split; [exact X|]. intros i o' [Q|[]]. injection Q as <- <-.
    split; [rewrite Hid; left; reflexivity|]. intros vd I.
    assert (J : In (id, vd) (report us id m r)).
    { destruct He as [-> | ->]; cbn [visit] in I; apply in_app_or in I as [I|I].
      - destruct top; [exact I|contradiction].
      - exfalso. apply Hn. cbn [ids] in Hid. injection Hid as <-. eapply visit_ids, I.
      - destruct top; [exact I|contradiction].
      - exfalso. apply Hn. cbn [ids] in Hid. injection Hid as <-. apply in_app_iff.
        apply in_app_or in I as [I|I]; [left|right]; eapply visit_ids, I. }
    eapply report_right; [|exact E|exact J|exact Y].
    eapply Forall_impl; [|exact K]. cbn. tauto. }
  destruct e; cbn [UnwSpec.eval]; cbn [scoped std_as_mut] in Sc, A; pose proof N as N0; cbn [ids] in N;
    try (apply traced_refl; reflexivity);
    repeat match goal with X : _ /\ _ |- _ => destruct X end; nd.
  - apply traced_refl, read_seen.
  - destruct (place_of (EField e i)); [apply traced_refl, read_seen|].
    apply traced_bind; [apply (Part e true us); auto|]. intros v s' _. apply traced_refl. destruct (get v [i]); reflexivity.
  - apply traced_bind; [apply (Part e true us); auto; [apply (known_sub _ _ _ _ _ K); sub_mut|inids|reps top]|].
    intros v s' E. apply (Meth id m e [] v s' s' _ EPanic (ids e)); auto.
  - apply traced_bind; [apply (Part e1 true us); auto; [apply (known_sub _ _ _ _ _ K); sub_mut|inids|reps top]|].
    intros v s' E. assert (K1 := Whole _ _ _ _ E ltac:(assumption) ltac:(assumption) ltac:(sub_mut) K).
    apply traced_bind; [apply (Part e2 true us); auto; [apply (known_sub _ _ _ _ _ K1); sub_mut|inids|reps top]|].
    intros u s'' E'. apply (Meth id m e1 [u] v s' s'' _ e2 (ids e1 ++ ids e2)); auto. rewrite in_app_iff. tauto.
  - apply traced_bind; [apply (Part e true us); auto|]. intros. apply traced_refl, act_seen.
  - apply traced_bind; [apply (Part e1 true us); auto; [apply (known_sub _ _ _ _ _ K); sub_mut|inids|reps top]|].
    intros v s' E. assert (K1 := Whole _ _ _ _ E ltac:(assumption) ltac:(assumption) ltac:(sub_mut) K).
    apply traced_bind; [apply (Part e2 true us); auto; [apply (known_sub _ _ _ _ _ K1); sub_mut|inids|reps top]|].
    intros. apply traced_refl. reflexivity.
  - apply traced_bind; [apply (Part e true us); auto; apply (known_sub _ _ _ _ _ K); sub_mut|].
    intros. apply traced_refl. cbn. destruct (place_of e); reflexivity.
  - apply traced_bind; [apply (Part e true us); auto; apply (known_sub _ _ _ _ _ K); sub_mut|].
    intros. apply traced_refl. destruct v; try reflexivity. cbn. destruct (place_of e); reflexivity.
  - apply traced_bind; [apply (Part e true us); auto|]. intros. apply traced_refl. destruct v; reflexivity.
  - apply traced_bind; [apply (Part e1 true us); auto; [apply (known_sub _ _ _ _ _ K); sub_mut|inids|reps top]|].
    intros v s' E. assert (K1 := Whole _ _ _ _ E ltac:(assumption) ltac:(assumption) ltac:(sub_mut) K).
    assert (B : traced (ids (EBin o e1 e2)) (visit T top us (EBin o e1 e2)) s'
                  (snd (bind (eval n e2 s') (fun u s => (both o v u, s))))).
    { apply traced_bind; [apply (Part e2 true us); auto; [apply (known_sub _ _ _ _ _ K1); sub_mut|inids|reps top]|].
      intros. apply traced_refl. reflexivity. }
    destruct o, v as [|b0| | |]; try exact B; destruct b0; first [exact B|apply traced_refl; reflexivity].
  - apply (Part e true us); auto.
  - apply traced_bind; [apply (Part e1 (negb top) us); auto; [apply (known_sub _ _ _ _ _ K); sub_mut|inids|reps top]|].
    intros v s' E. assert (K1 := Whole _ _ _ _ E ltac:(assumption) ltac:(assumption) ltac:(sub_mut) K).
    destruct v as [|b0| | |]; try (apply traced_refl; reflexivity). destruct b0; [|apply traced_refl; reflexivity].
    destruct top.
    + apply (Part e2 false (us ++ kept T e1 e2 false)); auto; [|inids|].
      * eapply known_branch with (inv := false); eauto. sub_mut.
      * intros i v Hi Hv. cbn [visit] in Hv. apply in_app_or in Hv as [Hv|Hv]; [|exact Hv].
        exfalso. apply visit_ids in Hv. apart i.
    + apply (Part e2 true us); auto; [apply (known_sub _ _ _ _ _ K1); sub_mut|inids|].
      intros i v Hi Hv. cbn [visit] in Hv. apply in_app_or in Hv as [Hv|Hv]; [|exact Hv].
      exfalso. apply visit_ids in Hv. apart i.
  - apply traced_bind; [apply (Part e1 (negb top) us); auto; [apply (known_sub _ _ _ _ _ K); sub_mut|inids|reps top]|].
    intros v s' E. assert (K1 := Whole _ _ _ _ E ltac:(assumption) ltac:(assumption) ltac:(sub_mut) K).
    destruct v as [|b0| | |]; try (apply traced_refl; reflexivity). destruct b0, top.
    + apply (Part e2 false (us ++ kept T e1 e2 false)); auto; [|inids|].
      * eapply known_branch with (inv := false); eauto. sub_mut.
      * intros i v Hi Hv. cbn [visit] in Hv. repeat (apply in_app_or in Hv as [Hv|Hv]); try exact Hv;
        exfalso; apply visit_ids in Hv; apart i.
    + apply (Part e2 true us); auto; [apply (known_sub _ _ _ _ _ K1); sub_mut|inids|].
      intros i v Hi Hv. cbn [visit] in Hv. repeat (apply in_app_or in Hv as [Hv|Hv]); try exact Hv;
        exfalso; apply visit_ids in Hv; apart i.
    + apply (Part e3 false (us ++ kept T e1 e3 true)); auto; [|inids|].
      * eapply known_branch with (inv := true); eauto. sub_mut.
      * intros i v Hi Hv. cbn [visit] in Hv. repeat (apply in_app_or in Hv as [Hv|Hv]); try exact Hv;
        exfalso; apply visit_ids in Hv; apart i.
    + apply (Part e3 true us); auto; [apply (known_sub _ _ _ _ _ K1); sub_mut|inids|].
      intros i v Hi Hv. cbn [visit] in Hv. repeat (apply in_app_or in Hv as [Hv|Hv]); try exact Hv;
        exfalso; apply visit_ids in Hv; apart i.
  - destruct (place_of e1); [|apply traced_refl; reflexivity].
    apply traced_bind; [apply (Part e2 true us); auto; [apply (known_sub _ _ _ _ _ K); sub_mut|inids|reps top]|].
    intros. apply traced_refl. reflexivity.
  - apply traced_bind; [apply (Part e1 true us); auto; [apply (known_sub _ _ _ _ _ K); sub_mut|inids|reps top]|].
    intros v s' E. assert (K1 := Whole _ _ _ _ E ltac:(assumption) ltac:(assumption) ltac:(sub_mut) K).
    set (s'' := set_place (use (x, []) s') (x, []) v).
    assert (R : traced (ids e2) (visit T true us e2) s'' (snd (eval n e2 s''))).
    { apply (IH (x :: G)); auto. apply known_use; [|assumption]. apply (known_sub _ _ _ _ _ K1); sub_mut. }
    eapply traced_seen; [|reflexivity|reflexivity]. eapply traced_wide; [exact R|inids|reps top].
  - apply traced_bind; [apply (Part e1 true us); auto; [apply (known_sub _ _ _ _ _ K); sub_mut|inids|reps top]|].
    intros v s' E. assert (K1 := Whole _ _ _ _ E ltac:(assumption) ltac:(assumption) ltac:(sub_mut) K).
    apply (Part e2 true us); auto; [apply (known_sub _ _ _ _ _ K1); sub_mut|inids|reps top].
  - assert (P1 : traced (ids (ELoop e)) (visit T top us (ELoop e)) s (snd (eval n e s))) by (apply (Part e true us); auto).
    assert (K1 : known G us (ELoop e) (snd (eval n e s))) by (apply known_step; auto).
    destruct (eval n e s) as [o s'] eqn:E. cbn [snd] in P1, K1. destruct o; try exact P1;
      (eapply traced_trans; [exact P1|]); apply (IH G (ELoop e)); auto.
  - apply traced_bind; [apply (Part e true us); auto|]. intros. apply traced_refl. reflexivity.
Qed.
End world.
