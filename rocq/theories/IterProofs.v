(** The lints about adaptors: what replaces a chain behaves like it. *)
From Verif Require Export IterModel IterSim CloIdent.

Section Adaptors.
  Variable w : world.
  Variable fuel : nat.
  Notation st := (state w).
  Notation alike := (alike w fuel).
  Notation agree := (agree w).
  Notation sim := (sim w).
  Hint Resolve agree_same agree_out agree_stuck : core.

  Lemma alike_trans : forall a b c, alike a b -> alike b c -> alike a c.
  Proof.
    intros a b c (R & P & Q) (R' & P' & Q'). exists (fun x z => exists y, R x y /\ R' y z). split.
    - intros back d d'' s (d' & H & H').
      destruct (P back d d' s H) as [E|(E & S & K)]; [left; auto|].
      destruct (P' back d' d'' s H') as [E'|(E' & S' & K')]; [left; congruence|].
      right. repeat split; try congruence. rewrite E in *. destruct (fst (fst (pull w fuel back b d' s))); auto.
      + eexists; eauto.
      + eexists; eauto.
    - intros s. destruct (Q s) as [E|[E H]]; [left; auto|]. destruct (Q' s) as [E'|[E' H']].
      + left. destruct (fst (start w fuel a s)), (fst (start w fuel b s)); try tauto; try discriminate. congruence.
      + right. split; [congruence|]. destruct (fst (start w fuel a s)), (fst (start w fuel b s)), (fst (start w fuel c s)); try tauto; try congruence.
        eexists; eauto.
  Qed.

  (** Functions that do the same unless the first gets stuck. *)
  Definition refines (f g : val -> st -> out * st) : Prop := forall v s, fst (f v s) = OStuck \/ f v s = g v s.
  Lemma opened_refines : forall {A} next open open' back, refines open open' ->
    forall n, sim (@eq (list val * A * list val)) (opened w next open back n) (opened w next open' back n).
  Proof.
    intros * O. induction n; intros [[fr d] bk] ? s <-; cbn -[pop].
    - destruct (pop back (if back then bk else fr)) as [[v r]|]; auto.
    - destruct (pop back (if back then bk else fr)) as [[v r]|]; auto.
      destruct (next d s) as [[[v| |o] d1] s1]; auto.
      + destruct (O v s1) as [E|E]; [destruct (open v s1) as [o s2]; cbn in E; subst; auto|rewrite E].
        destruct (open' v s1) as [[u| | | | |] s2]; auto. destruct (items u); auto.
      + destruct (pop back (if back then fr else bk)) as [[v r]|]; auto.
  Qed.

  Lemma ident_refines : forall f, identity_function f = true -> plain_closure f ->
    refines (fun v s => apply w fuel f [v] s) (fun v s => (OVal v, s)).
  Proof.
    intros f I P v s. destruct (apply w fuel f [v] s) as [o s'] eqn:E. destruct o; try (left; reflexivity); right;
      rewrite <- E; apply identity_apply; auto; rewrite E; discriminate.
  Qed.

  Lemma eq_begins : forall c s, begins w eq (start w fuel c s) (start w fuel c s).
  Proof. intros c s. right. split; auto. destruct (fst (start w fuel c s)); auto. Qed.
  Lemma begins_eq : forall {A} (r : (A + out) * st), begins w eq r r.
  Proof. intros A r. right. split; auto. destruct (fst r); auto. Qed.

  Theorem iter_map_identity_alike : forall c c', iter_map_identity c = Some c' ->
    (forall f d, c = IMap f d -> plain_closure f) -> alike c c'.
  Proof.
    intros [] c' H P; try discriminate. cbn in H. unfold given in H. destruct (identity_function f) eqn:I; [|discriminate]. injection H as <-.
    exists eq. split; [|intros; apply begins_eq]. intros b d ? s <-. cbn.
    destruct (pull w fuel b c d s) as [[[v| |o] d1] s1]; cbn; auto.
    destruct (ident_refines f I (P _ _ eq_refl) v s1) as [E|E]; [|rewrite E; cbn; auto].
    destruct (apply w fuel f [v] s1) as [o s2]. cbn in E. subst. cbn. auto.
  Qed.
  Theorem flat_map_identity_alike : forall c c', flat_map_identity c = Some c' ->
    (forall f d, c = IFlatMap f d -> plain_closure f) -> alike c c'.
  Proof.
    intros [] c' H P; try discriminate. cbn in H. unfold given in H. destruct (identity_function f) eqn:I; [|discriminate]. injection H as <-.
    exists eq. split; [|intros; apply begins_eq]. intros b. cbn. apply opened_refines, ident_refines; eauto.
  Qed.

  (** One opened Option at a time: nothing is left over. *)
  Definition closed {A} (d : A) (x : list val * A * list val) : Prop := x = ([], d, []).
  Lemma pop_nil : forall b, pop b [] = None. Proof. destruct b; reflexivity. Qed.
  Lemma pop_one : forall b v, pop b [v] = Some (v, []). Proof. destruct b; reflexivity. Qed.
  Lemma items_view : forall u, match view_of TOption u with
    | Some (Good x) => items u = Some [x] | Some (Bad _) => items u = Some [] | None => True end.
  Proof.
    destruct u as [| |[| |c] [|x []]| |]; cbn; auto.
    - destruct (Nat.eqb_spec c c_none); [subst|]; cbn; auto.
    - destruct (Nat.eqb_spec c c_some); [subst|]; cbn; auto.
  Qed.
  Lemma if_nil : forall (b : bool) (d : list val), (if b then d else d) = d. Proof. destruct b; auto. Qed.
  Lemma until_opened : forall {A} next f back n, sim closed (until w next (keep_map w fuel f (A:=A)) n) (opened w next (fun v s => apply w fuel f [v] s) back n).
  Proof.
    intros. induction n; intros d ? s ->; cbn -[pop view_of]; rewrite if_nil, pop_nil; auto.
    destruct (next d s) as [[[v| |o] d1] s1]; cbn -[pop view_of]; auto.
    2: { apply agree_same. reflexivity. }
    unfold keep_map. destruct (apply w fuel f [v] s1) as [[u| | | | |] s2]; auto.
    pose proof (items_view u) as V. destruct (view_of TOption u) as [[x|es]|]; auto; rewrite V.
    - destruct n; destruct back; cbn; apply agree_same; reflexivity.
    - replace (if back then ([], d1, []) else ([], d1, [])) with (([] : list val), d1, ([] : list val)) by (destruct back; auto). apply IHn. reflexivity.
  Qed.
  (** A function that returns Options. *)
  Definition returns_option (f : arg) : Prop :=
    forall v s u s', apply w fuel f [v] s = (OVal u, s') -> exists vw, view_of TOption u = Some vw.
  Lemma opened_until : forall {A} next f back n, returns_option f ->
    sim (fun (x : list val * A * list val) (d : A) => closed d x) (opened w next (fun v s => apply w fuel f [v] s) back n) (until w next (keep_map w fuel f) n).
  Proof.
    intros * F. induction n; intros xx d s HH; unfold closed in HH; subst xx; cbn -[pop view_of]; rewrite if_nil, pop_nil; auto.
    destruct (next d s) as [[[v| |o] d1] s1]; cbn -[pop view_of]; auto.
    2: { apply agree_same. reflexivity. }
    unfold keep_map. destruct (apply w fuel f [v] s1) as [[u| | | | |] s2] eqn:E; auto.
    destruct (F _ _ _ _ E) as [vw Ev]. pose proof (items_view u) as V. rewrite Ev in *. destruct vw as [x|es]; rewrite V.
    - destruct n; destruct back; cbn; apply agree_same; reflexivity.
    - replace (if back then ([], d1, []) else ([], d1, [])) with (([] : list val), d1, ([] : list val)) by (destruct back; auto). apply IHn. reflexivity.
  Qed.
  Lemma filter_map_flat_map : forall f c, alike (IFilterMap f c) (IFlatMap f c).
  Proof.
    intros f c. exists closed. split; [intros b; cbn; apply until_opened|].
    intros s. cbn. unfold bind_d. destruct (start w fuel c s) as [[d|o] s1]; right; cbn; auto. split; auto. reflexivity.
  Qed.
  Lemma flat_map_filter_map : forall f c, returns_option f -> alike (IFlatMap f c) (IFilterMap f c).
  Proof.
    intros f c F. exists (fun x d => closed d x). split; [intros b; cbn; apply opened_until, F|].
    intros s. cbn. unfold bind_d. destruct (start w fuel c s) as [[d|o] s1]; right; cbn; auto. split; auto. reflexivity.
  Qed.
  Theorem filter_map_identity_alike : forall c c', filter_map_identity c = Some c' ->
    (forall f d, c = IFilterMap f d -> plain_closure f) -> alike c c'.
  Proof.
    intros [] c' H P; try discriminate. eapply alike_trans; [apply filter_map_flat_map|].
    apply flat_map_identity_alike; auto. intros. injection H0 as <- <-. eauto.
  Qed.

  Lemma map_flatten_flat_map : forall f c, alike (IFlatten (IMap f c)) (IFlatMap f c).
  Proof.
    intros f c. exists eq. split; [|intros; apply begins_eq]. intros back. cbn. generalize fuel at 3 6 as n.
    induction n; intros [[fr d] bk] ? s <-; cbn -[pop].
    - destruct (pop back (if back then bk else fr)) as [[v r]|]; auto.
    - destruct (pop back (if back then bk else fr)) as [[v r]|]; auto.
      destruct (pull w fuel back c d s) as [[[v| |o] d1] s1]; cbn -[pop]; auto.
      + destruct (apply w fuel f [v] s1) as [[u| | | | |] s2]; cbn -[pop]; auto. destruct (items u); auto.
      + destruct (pop back (if back then fr else bk)) as [[v r]|]; auto.
  Qed.
  (** What the type checker says is so. *)
  Definition typed (t : types) : Prop := forall f, to_option t f = true -> returns_option f.
  Theorem map_flatten_alike : forall t c c', map_flatten t c = Some c' ->
    (forall f d, c = IFlatten (IMap f d) -> to_option t f = true -> returns_option f) -> alike c c'.
  Proof.
    intros t [] c' H T; try discriminate. destruct c; try discriminate. cbn in H. injection H as <-.
    destruct (to_option t f) eqn:E; [eapply alike_trans; [apply map_flatten_flat_map|apply flat_map_filter_map; eauto]|apply map_flatten_flat_map].
  Qed.
  Theorem flat_map_option_alike : forall t c c', flat_map_option t c = Some c' ->
    (forall f d, c = IFlatMap f d -> to_option t f = true -> returns_option f) -> alike c c'.
  Proof.
    intros t [] c' H T; try discriminate. cbn in H. unfold given in H. destruct (to_option t f) eqn:E; [|discriminate]. injection H as <-.
    apply flat_map_filter_map; eauto.
  Qed.

  (** ** Cloning later *)
  Definition cloned1 {A} (v : val) (d : A) (s : st) : pres * A * st :=
    match v with VRef u => (PVal u, d, s) | _ => (POut OStuck, d, s) end.
  Lemma pull_cloned : forall b c d s, pull w fuel b (ICloned c) d s = with_item w (fun d => d) (pull w fuel b c d s) cloned1.
  Proof. reflexivity. Qed.
  Lemma cloned_skip : forall n c, alike (ISkip n (ICloned c)) (ICloned (ISkip n c)).
  Proof.
    intros n c. exists eq. split; [|intros; apply begins_eq]. intros b [k d] ? s <-. cbn -[advance]. destruct b; auto. cbn [fst snd].
    revert d s. induction k; intros d s.
    - cbn. destruct (pull w fuel false c d s) as [[[v| |o] d1] s1]; cbn; auto. destruct v; auto.
    - cbn. destruct (pull w fuel false c d s) as [[[v| |o] d1] s1]; cbn; auto. destruct v; cbn; auto.
  Qed.
  Lemma cloned_take : forall n c, alike (ITake n (ICloned c)) (ICloned (ITake n c)).
  Proof.
    intros n c. exists eq. split; [|intros; apply begins_eq]. intros b [k d] ? s <-. cbn. destruct b; auto. cbn [fst snd].
    destruct k; [cbn; auto|]. destruct (pull w fuel false c d s) as [[[v| |o] d1] s1]; cbn; auto. destruct v; auto.
  Qed.
  Definition refd {A} (x y : list val * A * list val) : Prop :=
    fst (fst y) = map VRef (fst (fst x)) /\ snd (fst x) = snd (fst y) /\ snd y = map VRef (snd x).
  Lemma pop_map : forall b vs, pop b (map VRef vs) = match pop b vs with Some (v, r) => Some (VRef v, map VRef r) | None => None end.
  Proof.
    intros [] vs; cbn; [|destruct vs; reflexivity]. rewrite <- map_rev. destruct (rev vs); cbn; auto. rewrite map_rev. auto.
  Qed.
  Lemma if_map : forall (b : bool) x y, (if b then map VRef x else map VRef y) = map VRef (if b then x else y).
  Proof. destruct b; auto. Qed.
  Lemma cloned_flatten : forall c, alike (IFlatten (ICloned c)) (ICloned (IFlatten c)).
  Proof.
    intros c. exists refd. split.
    - intros back. change (pull w fuel back (ICloned (IFlatten c))) with
        (fun d s => with_item w (fun d => d) (opened w (pull w fuel back c) (fun v s => (OVal v, s)) back fuel d s) cloned1).
      change (pull w fuel back (IFlatten (ICloned c))) with (opened w (pull w fuel back (ICloned c)) (fun v s => (OVal v, s)) back fuel).
      generalize fuel at 2 4 as n.
      induction n; intros [[fr d] bk] [[fr' d'] bk'] s (E1 & E2 & E3); cbn [fst snd] in E1, E2, E3; subst fr' d' bk';
        cbn [opened]; rewrite if_map, pop_map; destruct (pop back (if back then bk else fr)) as [[v r]|]; cbn -[pop pull]; auto;
        try (apply agree_same; destruct back; repeat split; fail).
      rewrite pull_cloned. destruct (pull w fuel back c d s) as [[[v| |o] d1] s1]; cbn -[pop pull opened items]; auto.
      + destruct v as [| | |u|]; cbn -[pop opened items]; auto. cbn [items]. destruct (items u) as [vs|]; cbn -[opened]; auto.
        apply IHn. destruct back; repeat split.
      + rewrite if_map, pop_map. destruct (pop back (if back then fr else bk)) as [[v r]|]; cbn;
          apply agree_same; destruct back; repeat split.
    - intros s. cbn. unfold bind_d. destruct (start w fuel c s) as [[d|o] s1]; right; cbn; repeat split.
  Qed.
  Lemma leave_one : forall (s : st) b x, leave (length (fst s)) ((b :: fst s, x) : st) = (fst s, x).
  Proof. intros [r y] b x. unfold leave. cbn [fst snd length]. replace (S (length r) - length r) with 1 by lia. reflexivity. Qed.
  Lemma call_path_env : forall p vs (s : st) b, call_path w p vs (b :: fst s, snd s) =
    (fst (call_path w p vs s), (b :: fst (snd (call_path w p vs s)), snd (snd (call_path w p vs s)))) /\ fst (snd (call_path w p vs s)) = fst s.
  Proof.
    intros p vs [r x] b. destruct p; cbn; auto.
    - unfold calls. cbn. destruct (call w f vs x) as [o y]. cbn. auto.
    - destruct vs as [|v []]; cbn; auto.
  Qed.
  Lemma fix_closure_apply : forall f g v s, fix_closure f = Some g -> fst (apply w fuel f [v] s) = OStuck \/ apply w fuel g [VRef v] s = apply w fuel f [v] s.
  Proof.
    intros [e|[|p [|q ps]] b|q] g v s H; try discriminate; injection H as <-.
    - right. cbn [apply]. rewrite !bind_one. reflexivity.
    - left. cbn [apply]. rewrite bind_all_eq. cbn [match_all]. destruct (match_pat p v); reflexivity.
    - right. cbn [apply]. rewrite bind_one. cbn [match_pat]. destruct s as [r x]. unfold enter. cbn [fst snd app].
      cbn [eval]. rewrite Nat.eqb_refl || idtac. cbn [lookup andthen fst snd Nat.eqb].
      destruct (call_path_env q [v] (r, x) (0, v)) as [E K]. cbn [fst snd] in E, K. rewrite E.
      destruct (call_path w q [v] (r, x)) as [o [r' x']] eqn:C. cbn [fst snd] in *. subst r'.
      pose proof (leave_one (r, x) (0, v) x') as LO. cbn [fst snd] in LO. rewrite LO. cbn. f_equal.
      destruct q; cbn in C; [injection C as <- _; reflexivity| |injection C as <- _; reflexivity].
      unfold calls in C. destruct (call w f [v] (snd (r, x))) as [c y]. injection C as <- _. destruct c; reflexivity.
  Qed.
  Lemma cloned_filter : forall f g c, fix_closure f = Some g -> alike (IFilter f (ICloned c)) (ICloned (IFilter g c)).
  Proof.
    intros f g c F. exists eq. split; [|intros; apply begins_eq]. intros back.
    change (pull w fuel back (ICloned (IFilter g c))) with
      (fun d s => with_item w (fun d => d) (until w (pull w fuel back c) (keep w fuel g) fuel d s) cloned1).
    change (pull w fuel back (IFilter f (ICloned c))) with (until w (pull w fuel back (ICloned c)) (keep w fuel f) fuel).
    generalize fuel at 3 6 as n. induction n; intros d ? s <-; cbn [until]; [cbn; auto|].
    rewrite pull_cloned. destruct (pull w fuel back c d s) as [[[v| |o] d1] s1]; cbn -[apply]; auto.
    destruct v as [| | |u|]; cbn -[apply]; auto. unfold keep.
    destruct (fix_closure_apply f g (VRef u) s1 F) as [E|E].
    - destruct (apply w fuel f [VRef u] s1) as [o s2]. cbn in E. subst. cbn. auto.
    - rewrite E. destruct (apply w fuel f [VRef u] s1) as [[x| | | | |] s2]; cbn; auto. destruct x as [|[]| | |]; cbn; auto.
  Qed.
  Theorem overeager_cloned_alike : forall c c', overeager_cloned c = Some c' -> alike c c'.
  Proof.
    intros [] c' H; try discriminate; cbn in H; destruct c; try discriminate.
    - destruct (fix_closure f) eqn:F; [|discriminate]. injection H as <-. apply cloned_filter; auto.
    - injection H as <-. apply cloned_flatten.
    - injection H as <-. apply cloned_skip.
    - injection H as <-. apply cloned_take.
  Qed.
End Adaptors.
