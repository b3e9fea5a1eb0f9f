(** The lints about what consumes an iterator. *)
From Verif Require Export IterProofs.

Section Ends.
  Variable w : world.
  Variable fuel : nat.
  Notation st := (state w).
  Notation ie := (ieval w fuel).

  (** What an iterator gives instead of an item is never a value. *)
  Definition noval {A} (r : pres * A * st) : Prop := match fst (fst r) with POut (OVal _) => False | _ => True end.
  Lemma with_item_noval : forall {A B} (up : A -> B) r k, noval r -> (forall v d s, noval (k v d s)) -> noval (with_item w up r k).
  Proof. intros A B up [[[v| |o] d] s] k N K; cbn in *; auto. Qed.
  Lemma given_noval : forall {A} r (d : A) k, (forall v s, noval (k v s)) -> noval (given_val w r d k).
  Proof. intros A [[v| | | | |] s] d k K; cbn; auto. Qed.
  Lemma until_noval : forall {A} next (k : val -> A -> st -> option (pres * A * st) * st), (forall d s, noval (next d s)) ->
    (forall v d s r s', k v d s = (Some r, s') -> noval r) -> forall n d s, noval (until w next k n d s).
  Proof.
    intros A next k N K. induction n; intros d s; cbn; auto. apply with_item_noval; auto. intros v d1 s1.
    destruct (k v d1 s1) as [[r|] s2] eqn:E; eauto.
  Qed.
  Lemma opened_noval : forall {A} (next : A -> st -> pres * A * st) open back, (forall d s, noval (next d s)) ->
    forall n x s, noval (opened w next open back n x s).
  Proof.
    intros A next open back N. induction n; intros [[fr d] bk] s; cbn -[pop].
    - destruct (pop back (if back then bk else fr)) as [[v r]|]; cbn; auto.
    - destruct (pop back (if back then bk else fr)) as [[v r]|]; cbn -[pop]; auto. specialize (N d s).
      destruct (next d s) as [[[v| |o] d1] s1]; cbn -[pop]; auto.
      + destruct (open v s1) as [[u| | | | |] s2]; cbn; auto. destruct (items u); cbn; auto.
      + destruct (pop back (if back then fr else bk)) as [[v r]|]; cbn; auto.
  Qed.
  Lemma advance_noval : forall {A} (next : A -> st -> pres * A * st), (forall d s, noval (next d s)) ->
    forall n d s, noval (advance w next n d s).
  Proof. intros A next N. induction n; intros d s; cbn; auto. apply with_item_noval; auto. Qed.
  Lemma pull_noval : forall c back d s, noval (pull w fuel back c d s).
  Proof.
    induction c; intros back d s; cbn.
    - destruct d as [vs|n]; cbn -[pop view_of].
      + destruct (pop back vs) as [[v r]|]; cbn; auto.
      + apply given_noval. intros v s1. destruct (view_of TOption v) as [[]|]; cbn; auto.
    - apply with_item_noval; auto. intros. apply given_noval. intros. cbn. auto.
    - apply until_noval; auto. intros v d1 s1 r s2. unfold keep. destruct (apply w fuel f [VRef v] s1) as [[u| | | | |] s3];
        try (intros E; injection E as <- _; cbn; auto; fail). destruct u as [|[]| | |]; intros E; try discriminate; injection E as <- _; cbn; auto.
    - apply until_noval; auto. intros v d1 s1 r s2. unfold keep_map. destruct (apply w fuel f [v] s1) as [[u| | | | |] s3];
        try (intros E; injection E as <- _; cbn; auto; fail). destruct (view_of TOption u) as [[]|]; intros E; try discriminate; injection E as <- _; cbn; auto.
    - apply with_item_noval; auto. intros. apply given_noval. intros. cbn. auto.
    - apply opened_noval; auto.
    - apply opened_noval; auto.
    - apply IHc.
    - apply with_item_noval; auto. intros v d1 s1. destruct v; cbn; auto.
    - destruct back; cbn; auto. pose proof (advance_noval (pull w fuel false c) (IHc false) (fst d) (snd d) s) as N.
      destruct (advance w (pull w fuel false c) (fst d) (snd d) s) as [[p d1] s1]. exact N.
    - destruct back; cbn; auto. destruct (fst d); cbn; auto. specialize (IHc false (snd d) s).
      destruct (pull w fuel false c (snd d) s) as [[p d1] s1]. exact IHc.
    - destruct back; cbn; auto. apply with_item_noval; cbn; auto.
  Qed.

  Lemma start_noval : forall c s o s', start w fuel c s = (inr o, s') -> forall v, o <> OVal v.
  Proof.
    assert (B : forall (A B : Type) (r : (A + out) * st) (k : A -> st -> (B + out) * st) o s',
      (forall o s', r = (inr o, s') -> forall v, o <> OVal v) -> (forall d s o s', k d s = (inr o, s') -> forall v, o <> OVal v) ->
      bind_d w r k = (inr o, s') -> forall v, o <> OVal v).
    { intros A B [[d|o1] s1] k o s' H K E; cbn in E; [eauto|]. injection E as <- <-. eauto. }
    assert (U : forall n s o s', number w fuel n s = (inr o, s') -> forall v, o <> OVal v).
    { intros n s o s'. unfold number. destruct (eval w fuel n s) as [[v| | | | |] s1]; intros E; try (injection E as <- <-; discriminate).
      destruct (usize v); [discriminate|]. injection E as <- <-. discriminate. }
    induction c; intros s o s' E; cbn in E; eauto.
    - destruct (eval w fuel e s) as [[v| | | | |] s1]; try (injection E as <- <-; discriminate).
      destruct (iterate by_ref v); [discriminate|]. injection E as <- <-. discriminate.
    - refine (B _ _ _ _ _ _ _ _ E); [apply IHc|]. intros. discriminate.
    - refine (B _ _ _ _ _ _ _ _ E); [apply IHc|]. intros. discriminate.
    - refine (B _ _ _ _ _ _ _ _ E); [apply IHc|]. intros d s1 o1 s2 E1. refine (B _ _ _ _ _ _ _ _ E1); [apply U|]. intros. discriminate.
    - refine (B _ _ _ _ _ _ _ _ E); [apply IHc|]. intros d s1 o1 s2 E1. refine (B _ _ _ _ _ _ _ _ E1); [apply U|]. intros. discriminate.
    - refine (B _ _ _ _ _ _ _ _ E); [apply IHc|]. intros. discriminate.
  Qed.

  (** Two consumers whose steps correspond. *)
  Section Rel.
    Context {A : Type}.
    Variables (next : A -> st -> pres * A * st) (step step' : val -> val -> st -> (val + out) * st) (fin fin' : val -> out).
    Variable Q : val -> val -> Prop.
    Variable h : out -> out -> Prop.
    Hypothesis noval_next : forall d s, noval (next d s).
    Hypothesis steps : forall a a' v s, Q a a' ->
      match step a v s, step' a' v s with
      | (inl b, t), (inl b', t') => t = t' /\ Q b b'
      | (inr o, t), (inr o', t') => t = t' /\ h o o'
      | _, _ => False
      end.
    Hypothesis ends : forall a a', Q a a' -> h (fin a) (fin' a').
    Hypothesis others : forall o, (forall v, o <> OVal v) -> h o o.
    Lemma drive_rel : forall n d a a' s, Q a a' ->
      let r := drive w next step fin n d a s in let r' := drive w next step' fin' n d a' s in snd r = snd r' /\ h (fst r) (fst r').
    Proof.
      induction n; intros d a a' s H; cbn.
      - split; auto. apply others. discriminate.
      - pose proof (noval_next d s) as N. destruct (next d s) as [[[v| |o] d1] s1]; cbn in *.
        + specialize (steps a a' v s1 H). destruct (step a v s1) as [[b|o] t], (step' a' v s1) as [[b'|o'] t']; cbn; try tauto.
          destruct steps as [-> K]. apply IHn, K.
        + auto.
        + split; auto. apply others. intros v ->. exact N.
    Qed.
  End Rel.

  (** ** `next` *)
  Lemma find_until : forall {A} (next : A -> st -> pres * A * st) k f a n d s, (k = CFind f \/ k = CRFind f) ->
    drive w next (step w fuel k) (fin k) n d a s = first w (until w next (keep w fuel f) n d s).
  Proof.
    intros A next k f a n. induction n; intros d s K; cbn; auto.
    destruct (next d s) as [[[v| |o] d1] s1]; cbn; auto; [|destruct K as [-> | ->]; auto].
    unfold keep. destruct K as [K|K]; rewrite K; cbn [step]; unfold test, asked;
      destruct (apply w fuel f [VRef v] s1) as [[u| | | | |] s2]; cbn; auto; destruct u as [|[]| | |]; cbn; auto;
      rewrite <- K; apply IHn; auto.
  Qed.
  Theorem filter_next_sound : forall e e', filter_next e = Some e' -> forall s, ie e' s = ie e s.
  Proof.
    intros [] e' H s; try discriminate. destruct c; try discriminate. destruct k; try discriminate; injection H as <-; cbn -[drive step].
    - destruct (start w fuel c s) as [[d|o] s1]; auto. cbn -[drive step]. apply find_until. auto.
    - destruct (start w fuel c s) as [[d|o] s1]; auto. cbn -[drive step]. apply find_until. auto.
  Qed.
  Lemma view_some : forall u x, view_of TOption u = Some (Good x) -> u = some_v x.
  Proof.
    intros u x H. destruct u as [| |[| |c] [|y []]| |]; try discriminate; cbn in H.
    - destruct (Nat.eqb_spec c c_none); discriminate.
    - destruct (Nat.eqb_spec c c_some); [|discriminate]. injection H as <-. subst. reflexivity.
  Qed.
  Theorem filter_map_next_sound : forall e e', filter_map_next e = Some e' -> forall s, ie e' s = ie e s.
  Proof.
    intros [] e' H s; try discriminate. destruct c; try discriminate. destruct k; try discriminate; injection H as <-. cbn -[drive step].
    destruct (start w fuel c s) as [[d|o] s1]; auto. cbn -[drive step]. revert d s1. generalize fuel at 3 6 as n.
    induction n; intros d s1; cbn -[view_of]; auto.
    destruct (pull w fuel false c d s1) as [[[v| |o] d1] s2]; cbn -[view_of]; auto. unfold keep_map, asked.
    destruct (apply w fuel f [v] s2) as [[u| | | | |] s3]; cbn -[view_of]; auto.
    destruct (view_of TOption u) as [[x|]|] eqn:V; cbn -[view_of]; auto. rewrite (view_some _ _ V). reflexivity.
  Qed.
  Theorem iter_nth_zero_sound : forall e e', iter_nth_zero e = Some e' -> forall s, ie e' s = ie e s.
  Proof.
    intros [] e' H s; try discriminate. destruct k as [| |n| | | | | | | | | | | | |]; try discriminate. destruct n; try discriminate.
    cbn in H. unfold given in H. destruct (Z.eqb_spec z 0); [|discriminate]. injection H as <-. subst. reflexivity.
  Qed.
  Theorem iter_skip_next_sound : forall e e', iter_skip_next e = Some e' -> forall s, ie e' s = ie e s.
  Proof.
    intros [] e' H s; try discriminate. destruct c; try discriminate. destruct k; try discriminate; injection H as <-. cbn.
    destruct (start w fuel c s) as [[d|o] s1]; auto. cbn. unfold number. destruct (eval w fuel n s1) as [[a| | | | |] s2]; cbn; auto.
    destruct (usize a) as [k|]; cbn; auto. destruct (advance w (pull w fuel false c) k d s2) as [[[] ?] ?]; reflexivity.
  Qed.
  Theorem manual_next_back_sound : forall e e', manual_next_back e = Some e' -> forall s, ie e' s = ie e s.
  Proof.
    intros [] e' H s; try discriminate. destruct c; try discriminate. destruct k; try discriminate; injection H as <-. reflexivity.
  Qed.

  (** ** `map(f).any(identity)` *)
  Definition quant (all : bool) (f : arg) : consumer := if all then CAll f else CAny f.
  Lemma quant_map : forall all f g c n d a s, refines w (fun v s => apply w fuel g [v] s) (fun v s => (OVal v, s)) ->
    fst (drive w (pull w fuel false (IMap f c)) (step w fuel (quant all g)) (fin (quant all g)) n d a s) <> OStuck ->
    drive w (pull w fuel false c) (step w fuel (quant all f)) (fin (quant all f)) n d a s =
    drive w (pull w fuel false (IMap f c)) (step w fuel (quant all g)) (fin (quant all g)) n d a s.
  Proof.
    intros all f g c n d a s G. revert d a s. induction n; intros d a s N; auto.
    cbn [drive pull] in *. destruct (pull w fuel false c d s) as [[[v| |o] d1] s1]; cbn [with_item] in *; [|destruct all; reflexivity|reflexivity].
    unfold given_val in *. destruct (apply w fuel f [v] s1) as [[u| | | | |] s2] eqn:F.
    2-6: destruct all; cbn; rewrite F; reflexivity.
    destruct (G u s2) as [E|E].
    { exfalso. apply N. destruct (apply w fuel g [u] s2) as [o s3] eqn:C. cbn in E. subst o. destruct all; cbn; rewrite C; reflexivity. }
    cbn beta in E. destruct all; cbn [quant step] in *; rewrite F, E in *; unfold test, asked in *; destruct u as [|[]| | |]; auto.
  Qed.
  Theorem map_all_any_identity_sound : forall e e', map_all_any_identity e = Some e' ->
    (forall c f, e = IRun c (CAny f) \/ e = IRun c (CAll f) -> plain_closure f) ->
    forall s, fst (ie e s) <> OStuck -> ie e' s = ie e s.
  Proof.
    intros [] e' H P s N; try discriminate. destruct c; try discriminate.
    destruct k as [| | | | | | |g|g| | | | | | |]; try discriminate; cbn in H; unfold given in H;
      (destruct (identity_function g) eqn:I; [|discriminate]); injection H as <-; cbn -[drive step fin pull] in *;
      destruct (start w fuel c s) as [[d|o] s1]; auto; cbn -[drive step fin pull] in *.
    - apply (quant_map false); auto. apply ident_refines; eauto.
    - apply (quant_map true); auto. apply ident_refines; eauto.
  Qed.

  (** ** Cloning at the end *)
  Lemma clone_opt_some : forall u, clone_opt (some_v (VRef u)) = Some (some_v u). Proof. reflexivity. Qed.
  Definition clone_out (r : out * st) : out * st :=
    andthen w r (fun v s => match clone_opt v with Some u => (OVal u, s) | None => (OStuck, s) end).
  Lemma ieval_clone : forall e s, ie (ICloneOpt e) s = clone_out (ie e s). Proof. reflexivity. Qed.
  Lemma first_cloned : forall {A} (r : pres * A * st), noval r -> fst (first w (with_item w (fun d => d) r (cloned1 w))) <> OStuck ->
    clone_out (first w r) = first w (with_item w (fun d => d) r (cloned1 w)).
  Proof.
    intros A [[[v| |o] d] s] V N; cbn in *; auto.
    - destruct v; cbn in *; auto; destruct (N eq_refl).
    - destruct o; auto. destruct V.
  Qed.
  Lemma advance_cloned : forall c k d s, fst (fst (advance w (pull w fuel false (ICloned c)) k d s)) <> POut OStuck ->
    advance w (pull w fuel false (ICloned c)) k d s = with_item w (fun d => d) (advance w (pull w fuel false c) k d s) (cloned1 w).
  Proof.
    intros c k. induction k; intros d s N; cbn [advance] in *; [apply pull_cloned|].
    rewrite pull_cloned in *. destruct (pull w fuel false c d s) as [[[v| |o] d1] s1]; cbn in *; auto.
    destruct v; cbn in *; auto; destruct (N eq_refl).
  Qed.
  Lemma first_out : forall A (r : pres * A * st) o, fst (fst r) = POut o -> fst (first w r) = o.
  Proof. intros A [[p d] s] o H. cbn in H. subst. reflexivity. Qed.
  Section RelCloned.
    Variable c : chain.
    Variables (step step' : val -> val -> st -> (val + out) * st) (fin fin' : val -> out).
    Variable Q : val -> val -> Prop.
    Variable h : out -> out -> Prop.
    Hypothesis steps : forall a a' u s, Q a a' ->
      match step a u s, step' a' (VRef u) s with
      | (inl b, t), (inl b', t') => t = t' /\ Q b b'
      | (inr o, t), (inr o', t') => o = OStuck \/ (t = t' /\ h o o')
      | (inr o, _), _ => o = OStuck
      | _, _ => False
      end.
    Hypothesis ends : forall a a', Q a a' -> h (fin a) (fin' a').
    Hypothesis others : forall o, (forall v, o <> OVal v) -> h o o.
    Lemma drive_cloned : forall n d a a' s, Q a a' ->
      let r := drive w (pull w fuel false (ICloned c)) step fin n d a s in
      let r' := drive w (pull w fuel false c) step' fin' n d a' s in
      fst r = OStuck \/ (snd r = snd r' /\ h (fst r) (fst r')).
    Proof.
      induction n; intros d a a' s H; cbn [drive].
      - right. split; auto. apply others. discriminate.
      - rewrite pull_cloned. pose proof (pull_noval c false d s) as N. destruct (pull w fuel false c d s) as [[[v| |o] d1] s1]; cbn in *.
        + destruct v as [| | |u|]; cbn; auto.
          specialize (steps a a' u s1 H). destruct (step a u s1) as [[b|o] t], (step' a' (VRef u) s1) as [[b'|o'] t']; cbn; try tauto.
          destruct steps as [-> K]. apply IHn, K.
        + auto.
        + right. split; auto. apply others. intros v ->. exact N.
    Qed.
  End RelCloned.
  (** The value without the reference in it. *)
  Definition uncloned (o o' : out) : Prop :=
    match o' with
    | OVal v => match clone_opt v with Some u => o = OVal u | None => False end
    | _ => o = o'
    end.
  Lemma pair_out : forall r r' : out * st, fst r = fst r' -> snd r = snd r' -> r' = r.
  Proof. intros [] [] ; cbn; congruence. Qed.
  Lemma uncloned_out : forall r r' : out * st, uncloned (fst r) (fst r') -> snd r = snd r' -> clone_out r' = r.
  Proof.
    intros [o s] [o' s']; cbn [fst snd]. intros U ->. unfold uncloned in U. destruct o'; subst; auto. cbn -[clone_opt]. destruct (clone_opt v); [subst; auto|tauto].
  Qed.
  Lemma uncloned_others : forall o, (forall v, o <> OVal v) -> uncloned o o.
  Proof. intros [] H; cbn; auto. destruct (H v eq_refl). Qed.
  Theorem overeager_cloned_end_sound : forall e e', overeager_cloned_end e = Some e' ->
    forall s, fst (ie e s) <> OStuck -> ie e' s = ie e s.
  Proof.
    intros [] e' H s N; try discriminate. destruct c; try discriminate.
    destruct k as [| |n|f| | | | | | | | | | | |]; try discriminate; cbn in H.
    - injection H as <-. rewrite ieval_clone. cbn -[pull] in *. destruct (start w fuel c s) as [[d|o] s1] eqn:S.
      + cbn -[pull] in *. rewrite pull_cloned in *. apply first_cloned; auto. apply pull_noval.
      + pose proof (start_noval _ _ _ _ S) as V. cbn. destruct o; auto. destruct (V v eq_refl).
    - injection H as <-. rewrite ieval_clone. cbn -[pull] in *. destruct (start w fuel c s) as [[d|o] s1] eqn:S.
      + cbn -[pull] in *. destruct (eval w fuel n s1) as [[a| | | | |] s2]; cbn -[pull] in *; auto.
        destruct (usize a) as [k|]; auto.
        assert (M : fst (fst (advance w (pull w fuel false (ICloned c)) k d s2)) <> POut OStuck).
        { intros E. apply N. apply first_out, E. }
        pose proof (advance_cloned c k d s2 M) as A. cbn [D] in *.
        etransitivity; [apply first_cloned; [apply advance_noval; intros; apply pull_noval|]|]; rewrite <- A; auto.
      + pose proof (start_noval _ _ _ _ S) as V. cbn. destruct o; auto. destruct (V v eq_refl).
    - destruct (fix_closure f) as [g|] eqn:F; [|discriminate]. injection H as <-. rewrite ieval_clone. cbn -[pull drive step fin] in *.
      destruct (start w fuel c s) as [[d|o] s1] eqn:S.
      + cbn -[pull drive step fin] in *.
        destruct (drive_cloned c (step w fuel (CFind f)) (step w fuel (CFind g)) (fin (CFind f)) (fin (CFind g)) eq uncloned) with
          (n := fuel) (d := d) (a := VInt 0) (a' := VInt 0) (s := s1) as [E|[E K]]; try tauto.
        * intros a a' u s2 <-. cbn. unfold test, asked. destruct (fix_closure_apply w fuel f g (VRef u) s2 F) as [E|E].
          { destruct (apply w fuel f [VRef u] s2) as [o s3]. cbn in E. subst. destruct (apply w fuel g [VRef (VRef u)] s2) as [[x| | | | |] s4]; auto.
            destruct x as [|[]| | |]; auto. }
          rewrite E. destruct (apply w fuel f [VRef u] s2) as [[x| | | | |] s3]; try (right; split; auto; apply uncloned_others; discriminate).
          destruct x as [|[]| | |]; auto. right. split; auto. reflexivity.
        * intros. reflexivity.
        * apply uncloned_others.
        * exact (uncloned_out _ _ K E).
      + pose proof (start_noval _ _ _ _ S) as V. cbn. destruct o; auto. destruct (V v eq_refl).
    - injection H as <-. cbn -[pull drive step fin] in *. destruct (start w fuel c s) as [[d|o] s1] eqn:S; auto.
      cbn -[pull drive step fin] in *.
      destruct (drive_cloned c (step w fuel CCount) (step w fuel CCount) (fin CCount) (fin CCount) eq eq) with
        (n := fuel) (d := d) (a := VInt 0) (a' := VInt 0) (s := s1) as [E|[E K]]; try tauto; auto.
      + intros a a' u s2 <-. cbn. auto.
      + intros a a' <-. auto.
      + exact (pair_out _ _ K E).
    - injection H as <-. rewrite ieval_clone. cbn -[pull drive step fin] in *.
      destruct (start w fuel c s) as [[d|o] s1] eqn:S.
      + cbn -[pull drive step fin] in *.
        destruct (drive_cloned c (step w fuel CLast) (step w fuel CLast) (fin CLast) (fin CLast) (fun a a' => clone_opt a' = Some a) uncloned) with
          (n := fuel) (d := d) (a := none_v) (a' := none_v) (s := s1) as [E|[E K]]; try tauto.
        * intros a a' u s2 _. cbn. auto.
        * intros a a' E. cbn -[clone_opt]. rewrite E. reflexivity.
        * apply uncloned_others.
        * exact (uncloned_out _ _ K E).
      + pose proof (start_noval _ _ _ _ S) as V. cbn. destruct o; auto. destruct (V v eq_refl).
  Qed.

  (** ** `find(f).is_some()` and `position(f).is_some()` *)
  (** Closures for which the suggestion is made with the right parameter. *)
  Definition searchable (f : arg) : Prop := match f with AC (PRef _ :: _) _ | AC (PWild :: _) _ => True | _ => False end.
  Lemma any_closure_apply : forall f g v s, any_closure f = Some g -> searchable f ->
    apply w fuel g [v] s = apply w fuel f [VRef v] s.
  Proof.
    intros [e|[|p ps] b|q] g v s H S; try contradiction. destruct p; try contradiction; injection H as <-.
    - cbn [apply]. rewrite !bind_all_eq. reflexivity.
    - cbn [apply]. rewrite !bind_all_eq. reflexivity.
  Qed.
  Definition found (o o' : out) : Prop :=
    match o with
    | OVal v => match view_of TOption v with Some (Good _) => o' = OVal (VBool true) | Some (Bad _) => o' = OVal (VBool false) | None => False end
    | _ => o = o'
    end.
  Lemma found_others : forall o, (forall v, o <> OVal v) -> found o o.
  Proof. intros [] H; cbn; auto. destruct (H v eq_refl). Qed.
  Lemma found_out : forall (good : bool) o s o' s', found o o' -> s = s' ->
    (if good then (o', s') else andthen w (o', s') (fun v s => match v with VBool b => (OVal (VBool (negb b)), s) | _ => (OStuck, s) end)) =
    andthen w (o, s) (fun v s => method w TOption (if good then MIsGood else MIsBad) v [] [] s).
  Proof.
    intros good o s o' s' F ->. unfold found in F. destruct o; subst; try (destruct good; reflexivity).
    cbn -[view_of]. unfold method. destruct (view_of TOption v) as [[]|]; try tauto; subst; destruct good; reflexivity.
  Qed.
  Lemma search_any : forall k g c s, (exists f, k = CFind f /\ any_closure f = Some g /\ searchable f) \/ k = CPosition g ->
    snd (ie (IRun c k) s) = snd (ie (IRun c (CAny g)) s) /\ found (fst (ie (IRun c k) s)) (fst (ie (IRun c (CAny g)) s)).
  Proof.
    intros k g c s K. cbn -[drive step fin]. destruct (start w fuel c s) as [[d|o] s1] eqn:S.
    2: { pose proof (start_noval _ _ _ _ S). split; auto. apply found_others; auto. }
    destruct K as [(f & -> & F & P)| ->]; cbn -[drive step fin].
    - apply drive_rel with (Q := eq); auto using found_others.
      + intros. apply pull_noval.
      + intros a a' v s2 <-. cbn. unfold test, asked. rewrite (any_closure_apply f g v s2 F P).
        destruct (apply w fuel f [VRef v] s2) as [[u| | | | |] s3]; try (split; auto; apply found_others; discriminate).
        destruct u as [|[]| | |]; split; auto; reflexivity.
      + intros. reflexivity.
    - apply drive_rel with (Q := fun _ _ => True); auto using found_others.
      + intros. apply pull_noval.
      + intros a a' v s2 _. cbn. unfold test, asked.
        destruct (apply w fuel g [v] s2) as [[u| | | | |] s3]; try (split; auto; apply found_others; discriminate).
        destruct u as [|[]| | |]; split; auto; reflexivity.
      + intros. reflexivity.
  Qed.
  Theorem search_is_some_sound : forall e e', search_is_some e = Some e' ->
    (forall c f m, e = IMeth m (IRun c (CFind f)) [] -> searchable f) -> forall s, ie e' s = ie e s.
  Proof.
    intros e e' H P s. destruct e as [| m e fs | | | |]; try discriminate.
    destruct m; try discriminate; destruct e as [c k| | | | |]; try discriminate; destruct k as [| | |f| | |f| | | | | | | | |]; try discriminate;
      destruct fs; try discriminate; cbn in H.
    - destruct (any_closure f) as [g|] eqn:F; [|discriminate]. injection H as <-.
      destruct (search_any (CFind f) g c s) as [E K]; [left; exists f; repeat split; eauto|].
      change (ie (IMeth MIsGood (IRun c (CFind f)) []) s) with (andthen w (ie (IRun c (CFind f)) s) (fun v s => method w TOption MIsGood v [] [] s)).
      destruct (ie (IRun c (CFind f)) s) as [o1 s1], (ie (IRun c (CAny g)) s) as [o2 s2]. exact (found_out true _ _ _ _ K E).
    - injection H as <-. destruct (search_any (CPosition f) f c s) as [E K]; [right; auto|].
      change (ie (IMeth MIsGood (IRun c (CPosition f)) []) s) with (andthen w (ie (IRun c (CPosition f)) s) (fun v s => method w TOption MIsGood v [] [] s)).
      destruct (ie (IRun c (CPosition f)) s) as [o1 s1], (ie (IRun c (CAny f)) s) as [o2 s2]. exact (found_out true _ _ _ _ K E).
    - destruct (any_closure f) as [g|] eqn:F; [|discriminate]. injection H as <-.
      destruct (search_any (CFind f) g c s) as [E K]; [left; exists f; repeat split; eauto|].
      change (ie (IMeth MIsBad (IRun c (CFind f)) []) s) with (andthen w (ie (IRun c (CFind f)) s) (fun v s => method w TOption MIsBad v [] [] s)).
      change (ie (INot (IRun c (CAny g))) s) with (andthen w (ie (IRun c (CAny g)) s) (fun v s => match v with VBool b => (OVal (VBool (negb b)), s) | _ => (OStuck, s) end)).
      destruct (ie (IRun c (CFind f)) s) as [o1 s1], (ie (IRun c (CAny g)) s) as [o2 s2]. exact (found_out false _ _ _ _ K E).
    - injection H as <-. destruct (search_any (CPosition f) f c s) as [E K]; [right; auto|].
      change (ie (IMeth MIsBad (IRun c (CPosition f)) []) s) with (andthen w (ie (IRun c (CPosition f)) s) (fun v s => method w TOption MIsBad v [] [] s)).
      change (ie (INot (IRun c (CAny f))) s) with (andthen w (ie (IRun c (CAny f)) s) (fun v s => match v with VBool b => (OVal (VBool (negb b)), s) | _ => (OStuck, s) end)).
      destruct (ie (IRun c (CPosition f)) s) as [o1 s1], (ie (IRun c (CAny f)) s) as [o2 s2]. exact (found_out false _ _ _ _ K E).
  Qed.
End Ends.
