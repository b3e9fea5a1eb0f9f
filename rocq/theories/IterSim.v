(** Iterators that behave alike: a relation between what they remember that both keep, item by item.  Adaptors, consumers
    and loops cannot tell such iterators apart. *)
From Verif Require Export IterSpec.

Section Sim.
  Variable w : world.
  Variable fuel : nat.
  Notation st := (state w).

  (** The same answer and state, and related memories if it may go on.  Nothing is asked where the first gets stuck. *)
  Definition agree {A B} (R : A -> B -> Prop) (r : pres * A * st) (r' : pres * B * st) : Prop :=
    fst (fst r) = POut OStuck \/
    (fst (fst r) = fst (fst r') /\ snd r = snd r' /\
     match fst (fst r) with POut _ => True | _ => R (snd (fst r)) (snd (fst r')) end).
  Definition sim {A B} (R : A -> B -> Prop) (next : A -> st -> pres * A * st) (next' : B -> st -> pres * B * st) : Prop :=
    forall d d' s, R d d' -> agree R (next d s) (next' d' s).

  Lemma agree_same : forall {A B} (R : A -> B -> Prop) p d d' s, R d d' -> agree R (p, d, s) (p, d', s).
  Proof. intros. right. cbn. destruct p; auto. Qed.
  Lemma agree_out : forall {A B} (R : A -> B -> Prop) o d d' s, agree R (POut o, d, s) (POut o, d', s).
  Proof. intros. right. cbn. auto. Qed.
  Lemma agree_stuck : forall {A B} (R : A -> B -> Prop) d s r', agree R (POut OStuck, d, s) r'.
  Proof. intros. left. reflexivity. Qed.
  Hint Resolve agree_same agree_out agree_stuck : core.

  Lemma with_item_agree : forall {A B A' B'} (R : A -> A' -> Prop) (Q : B -> B' -> Prop) up up' r r' k k',
    agree R r r' -> (forall d d', R d d' -> Q (up d) (up' d')) ->
    (forall v d d' s, R d d' -> agree Q (k v d s) (k' v d' s)) ->
    agree Q (with_item w up r k) (with_item w up' r' k').
  Proof.
    intros * [E|(E & S & R1)] U K; destruct r as [[p d] s], r' as [[p' d'] s']; cbn in *; subst.
    - left. reflexivity.
    - destruct p'; cbn; auto.
  Qed.
  Lemma given_val_agree : forall {A B} (R : A -> B -> Prop) r d d' k k',
    (forall v s, agree R (k v s) (k' v s)) -> agree R (given_val w r d k) (given_val w r d' k').
  Proof. intros * K. destruct r as [[] s]; cbn; auto. Qed.

  Definition agree_k {A B} (R : A -> B -> Prop) (k : val -> A -> st -> option (pres * A * st) * st) k' : Prop :=
    forall v d d' s, R d d' ->
      match k v d s, k' v d' s with
      | (Some r, _), (Some r', _) => agree R r r'
      | (None, s), (None, s') => s = s'
      | (Some r, _), _ => fst (fst r) = POut OStuck
      | _, _ => False
      end.
  Lemma until_sim : forall {A B} (R : A -> B -> Prop) next next' k k', sim R next next' -> agree_k R k k' ->
    forall n, sim R (until w next k n) (until w next' k' n).
  Proof.
    intros * S K. induction n; intros d d' s H; cbn; auto.
    eapply with_item_agree; eauto. intros v d1 d1' s1 H1. specialize (K v d1 d1' s1 H1).
    destruct (k v d1 s1) as [[r|] s2], (k' v d1' s1) as [[r'|] s2']; subst; auto; try tauto. left. auto.
  Qed.
  Lemma keep_agree : forall f {A B} (R : A -> B -> Prop), agree_k R (keep w fuel f) (keep w fuel f).
  Proof.
    intros f A B R v d d' s H. unfold keep. destruct (apply w fuel f [VRef v] s) as [[u| | | | |] s1]; cbn; auto.
    destruct u as [|[]| | |]; cbn; auto.
  Qed.
  Lemma keep_map_agree : forall f {A B} (R : A -> B -> Prop), agree_k R (keep_map w fuel f) (keep_map w fuel f).
  Proof.
    intros f A B R v d d' s H. unfold keep_map. destruct (apply w fuel f [v] s) as [[u| | | | |] s1]; cbn -[view_of]; auto.
    destruct (view_of TOption u) as [[]|]; cbn; auto.
  Qed.

  Definition both {A B} (R : A -> B -> Prop) (x : list val * A * list val) (y : list val * B * list val) : Prop :=
    fst (fst x) = fst (fst y) /\ R (snd (fst x)) (snd (fst y)) /\ snd x = snd y.
  Lemma opened_sim : forall {A B} (R : A -> B -> Prop) next next' open back, sim R next next' ->
    forall n, sim (both R) (opened w next open back n) (opened w next' open back n).
  Proof.
    intros * S. induction n; intros [[fr d] bk] [[fr' d'] bk'] s (E1 & H & E2); cbn in E1, H, E2; subst fr' bk'; cbn -[pop].
    - destruct (pop back (if back then bk else fr)) as [[v r]|]; auto. apply agree_same. destruct back; unfold both; cbn; auto.
    - destruct (pop back (if back then bk else fr)) as [[v r]|]; [apply agree_same; destruct back; unfold both; cbn; auto|].
      destruct (S d d' s H) as [E|(E & S1 & R1)]; destruct (next d s) as [[p d1] s1], (next' d' s) as [[p' d1'] s1']; cbn in *; subst; auto.
      destruct p' as [v| |o]; auto.
      + destruct (open v s1') as [[u| | | | |] s2]; auto. destruct (items u); auto. apply IHn. destruct back; unfold both; cbn; auto.
      + destruct (pop back (if back then fr else bk)) as [[v r]|]; apply agree_same; unfold both; destruct back; cbn; auto.
  Qed.
  Lemma advance_sim : forall {A B} (R : A -> B -> Prop) next next', sim R next next' ->
    forall n, sim R (advance w next n) (advance w next' n).
  Proof.
    intros * S. induction n; intros d d' s H; cbn; auto. eapply with_item_agree; eauto.
  Qed.

  Definition agree_out_st (r r' : out * st) : Prop := fst r = OStuck \/ r = r'.
  Lemma drive_agree : forall {A B} (R : A -> B -> Prop) next next' step fin, sim R next next' ->
    forall n d d' a s, R d d' -> agree_out_st (drive w next step fin n d a s) (drive w next' step fin n d' a s).
  Proof.
    intros * S. induction n; intros d d' a s H; cbn; [right; auto|].
    destruct (S d d' s H) as [E|(E & S1 & R1)]; destruct (next d s) as [[p d1] s1], (next' d' s) as [[p' d1'] s1']; cbn in *; subst; [left; auto|].
    destruct p' as [v| |o]; [|right; auto|right; auto].
    destruct (step a v s1') as [[a'|o] s2]; [apply IHn; auto|right; auto].
  Qed.
  Lemma loop_agree : forall {A B} (R : A -> B -> Prop) next next' p b, sim R next next' ->
    forall n d d' s, R d d' -> agree_out_st (loop w fuel next p b n d s) (loop w fuel next' p b n d' s).
  Proof.
    intros * S. induction n; intros d d' s H; cbn; [right; auto|].
    destruct (S d d' s H) as [E|(E & S1 & R1)]; destruct (next d s) as [[q d1] s1], (next' d' s) as [[q' d1'] s1']; cbn in *; subst; [left; auto|].
    destruct q' as [v| |o]; [|right; auto|right; auto].
    destruct (match_pat p v) as [bs|]; [|right; auto]. destruct (eval w fuel b (enter bs s1')) as [o s2].
    destruct o as [| |[]| | |]; try (right; reflexivity). apply IHn; auto.
  Qed.

  (** What creating the chain gives. *)
  Definition begins {A B} (R : A -> B -> Prop) (r : (A + out) * st) (r' : (B + out) * st) : Prop :=
    fst r = inr OStuck \/
    (snd r = snd r' /\
     match fst r, fst r' with inl d, inl d' => R d d' | inr o, inr o' => o = o' | _, _ => False end).
  Lemma bind_begins : forall {A B A' B'} (R : A -> A' -> Prop) (Q : B -> B' -> Prop) r r' k k', begins R r r' ->
    (forall d d' s, R d d' -> begins Q (k d s) (k' d' s)) -> begins Q (bind_d w r k) (bind_d w r' k').
  Proof.
    intros * [E|[E H]] K; destruct r as [[d|o] s], r' as [[d'|o'] s']; cbn in *; subst; try tauto; try discriminate; auto;
      try (injection E; intros; subst); try (left; reflexivity). right. cbn. auto.
  Qed.

  Definition alike (c c' : chain) : Prop :=
    exists R : D c -> D c' -> Prop,
      (forall back, sim R (pull w fuel back c) (pull w fuel back c')) /\
      (forall s, begins R (start w fuel c s) (start w fuel c' s)).

  Lemma alike_refl : forall c, alike c c.
  Proof.
    intros c. exists eq. split.
    - intros b d d' s ->. destruct (pull w fuel b c d' s) as [[p x] y]. apply agree_same. reflexivity.
    - intros s. right. split; auto. destruct (fst (start w fuel c s)); auto.
  Qed.

  (** Adaptors. *)
  Lemma alike_map : forall f c c', alike c c' -> alike (IMap f c) (IMap f c').
  Proof.
    intros f c c' (R & P & Q). exists R. split; auto. intros b d d' s H. cbn. eapply with_item_agree; [apply P, H|auto|].
    intros. apply given_val_agree. auto.
  Qed.
  Lemma alike_inspect : forall f c c', alike c c' -> alike (IInspect f c) (IInspect f c').
  Proof.
    intros f c c' (R & P & Q). exists R. split; auto. intros b d d' s H. cbn. eapply with_item_agree; [apply P, H|auto|].
    intros. apply given_val_agree. auto.
  Qed.
  Lemma alike_filter : forall f c c', alike c c' -> alike (IFilter f c) (IFilter f c').
  Proof. intros f c c' (R & P & Q). exists R. split; auto. intros b. apply until_sim; [apply P|apply keep_agree]. Qed.
  Lemma alike_filter_map : forall f c c', alike c c' -> alike (IFilterMap f c) (IFilterMap f c').
  Proof. intros f c c' (R & P & Q). exists R. split; auto. intros b. apply until_sim; [apply P|apply keep_map_agree]. Qed.
  Lemma begins_opened : forall c c' (R : D c -> D c' -> Prop), (forall s, begins R (start w fuel c s) (start w fuel c' s)) ->
    forall s, begins (both R) (start w fuel (IFlatten c) s) (start w fuel (IFlatten c') s).
  Proof. intros c c' R Q s. cbn. eapply bind_begins; [apply Q|]. intros. right. unfold both. cbn. auto. Qed.
  Lemma alike_flat_map : forall f c c', alike c c' -> alike (IFlatMap f c) (IFlatMap f c').
  Proof.
    intros f c c' (R & P & Q). exists (both R). split; [|apply begins_opened, Q]. intros b. apply opened_sim, P.
  Qed.
  Lemma alike_flatten : forall c c', alike c c' -> alike (IFlatten c) (IFlatten c').
  Proof.
    intros c c' (R & P & Q). exists (both R). split; [|apply begins_opened, Q]. intros b. apply opened_sim, P.
  Qed.
  Lemma alike_rev : forall c c', alike c c' -> alike (IRev c) (IRev c').
  Proof. intros c c' (R & P & Q). exists R. split; auto. intros b d d' s H. apply P, H. Qed.
  Lemma alike_cloned : forall c c', alike c c' -> alike (ICloned c) (ICloned c').
  Proof.
    intros c c' (R & P & Q). exists R. split; auto. intros b d d' s H. cbn. eapply with_item_agree; [apply P, H|auto|].
    intros. destruct v; auto.
  Qed.
  Definition paired {A B} (R : A -> B -> Prop) (x : nat * A) (y : nat * B) : Prop := fst x = fst y /\ R (snd x) (snd y).
  Lemma begins_number : forall n c c' (R : D c -> D c' -> Prop), (forall s, begins R (start w fuel c s) (start w fuel c' s)) ->
    forall s, begins (paired R) (start w fuel (ISkip n c) s) (start w fuel (ISkip n c') s).
  Proof.
    intros n c c' R Q s. cbn. eapply bind_begins; [apply Q|]. intros d d' s1 H. eapply (bind_begins (@eq nat)).
    - right. split; auto. destruct (fst (number w fuel n s1)); auto.
    - intros k k' s2 ->. right. unfold paired. cbn. auto.
  Qed.
  Lemma alike_skip : forall n c c', alike c c' -> alike (ISkip n c) (ISkip n c').
  Proof.
    intros n c c' (R & P & Q). exists (paired R). split; [|apply begins_number, Q].
    intros b [k d] [k' d'] s [E H]. cbn in E, H. subst k'. cbn. destruct b; auto.
    destruct (advance_sim R _ _ (P false) k d d' s H) as [E|(E & S1 & R1)];
      destruct (advance w (pull w fuel false c) k d s) as [[p d1] s1], (advance w (pull w fuel false c') k d' s) as [[p' d1'] s1'];
      cbn in *; subst; auto. right. cbn. repeat split; auto. destruct p'; auto; split; auto.
  Qed.
  Lemma alike_take : forall n c c', alike c c' -> alike (ITake n c) (ITake n c').
  Proof.
    intros n c c' (R & P & Q). exists (paired R). split; [|apply (begins_number n _ _ _ Q)].
    intros b [k d] [k' d'] s [E H]. cbn in E, H. subst k'. cbn. destruct b; auto. destruct k; [apply agree_same; split; auto|].
    destruct (P false d d' s H) as [E|(E & S1 & R1)];
      destruct (pull w fuel false c d s) as [[p d1] s1], (pull w fuel false c' d' s) as [[p' d1'] s1'];
      cbn in *; subst; auto. right. cbn. repeat split; auto. destruct p'; auto; split; auto.
  Qed.
  Lemma alike_enumerate : forall c c', alike c c' -> alike (IEnumerate c) (IEnumerate c').
  Proof.
    intros c c' (R & P & Q). exists (paired R). split.
    - intros b [k d] [k' d'] s [E H]. cbn in E, H. subst k'. cbn. destruct b; auto.
      eapply with_item_agree; [apply P, H| |]; intros; cbn; [split; auto|]. apply agree_same. split; auto.
    - intros s. cbn. eapply bind_begins; [apply Q|]. intros. right. cbn. repeat split; auto.
  Qed.

  (** A step taken somewhere inside a chain. *)
  Inductive inside (L : chain -> chain -> Prop) : chain -> chain -> Prop :=
  | In_here c c' : L c c' -> inside L c c'
  | In_map f c c' : inside L c c' -> inside L (IMap f c) (IMap f c')
  | In_filter f c c' : inside L c c' -> inside L (IFilter f c) (IFilter f c')
  | In_filter_map f c c' : inside L c c' -> inside L (IFilterMap f c) (IFilterMap f c')
  | In_inspect f c c' : inside L c c' -> inside L (IInspect f c) (IInspect f c')
  | In_flat_map f c c' : inside L c c' -> inside L (IFlatMap f c) (IFlatMap f c')
  | In_flatten c c' : inside L c c' -> inside L (IFlatten c) (IFlatten c')
  | In_rev c c' : inside L c c' -> inside L (IRev c) (IRev c')
  | In_cloned c c' : inside L c c' -> inside L (ICloned c) (ICloned c')
  | In_skip n c c' : inside L c c' -> inside L (ISkip n c) (ISkip n c')
  | In_take n c c' : inside L c c' -> inside L (ITake n c) (ITake n c')
  | In_enumerate c c' : inside L c c' -> inside L (IEnumerate c) (IEnumerate c').
  Lemma inside_alike : forall (L : chain -> chain -> Prop), (forall c c', L c c' -> alike c c') -> forall c c', inside L c c' -> alike c c'.
  Proof.
    intros L H c c'. induction 1; auto using alike_map, alike_filter, alike_filter_map, alike_inspect, alike_flat_map,
      alike_flatten, alike_rev, alike_cloned, alike_skip, alike_take, alike_enumerate.
  Qed.

  (** Consumers and loops. *)
  Lemma first_agree : forall {A B} (R : A -> B -> Prop) r r', agree R r r' -> agree_out_st (first w r) (first w r').
  Proof.
    intros A B R [[p d] s] [[p' d'] s'] [E|(E & S1 & R1)]; cbn in *; subst; [left; auto|]. destruct p'; right; auto.
  Qed.
  Lemma consume_agree : forall k {A B} (R : A -> B -> Prop) next next', (forall b, sim R (next b) (next' b)) ->
    forall d d' a s, R d d' -> agree_out_st (consume w fuel k next d a s) (consume w fuel k next' d' a s).
  Proof.
    intros k A B R next next' P d d' a s H.
    destruct k; try (apply (drive_agree R); auto); try (apply first_agree with R; apply P; auto).
    cbn. destruct (usize a) as [m|]; [|left; auto]. apply first_agree with R. apply (advance_sim R _ _ (P false)); auto.
  Qed.
  Theorem alike_run : forall c c', alike c c' -> forall k s,
    fst (ieval w fuel (IRun c k) s) <> OStuck -> ieval w fuel (IRun c' k) s = ieval w fuel (IRun c k) s.
  Proof.
    intros c c' (R & P & Q) k s N. cbn in *. destruct (Q s) as [E|[E H]];
      destruct (start w fuel c s) as [[d|o] s1], (start w fuel c' s) as [[d'|o'] s1']; cbn in *; subst; try tauto; try discriminate;
      try (injection E; intros; subst; destruct (N eq_refl)).
    destruct (init w fuel k s1') as [[a| | | | |] s2]; cbn in *; auto.
    destruct (consume_agree k R (fun b => pull w fuel b c) (fun b => pull w fuel b c') P d d' a s2 H) as [E|E]; auto. destruct (N E).
  Qed.
  Theorem alike_for : forall c c', alike c c' -> forall p b s,
    fst (for_loop w fuel p c b s) <> OStuck -> for_loop w fuel p c' b s = for_loop w fuel p c b s.
  Proof.
    intros c c' (R & P & Q) p b s N. unfold for_loop in *. destruct (Q s) as [E|[E H]];
      destruct (start w fuel c s) as [[d|o] s1], (start w fuel c' s) as [[d'|o'] s1']; cbn in *; subst; try tauto; try discriminate;
      try (injection E; intros; subst; destruct (N eq_refl)).
    destruct (loop_agree R _ _ p b (P false) fuel d d' s1' H) as [E|E]; auto. destruct (N E).
  Qed.
End Sim.
