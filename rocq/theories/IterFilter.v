(** `filter` followed by `map`, and what replaces it. *)
From Verif Require Export IterFind.

(** ** Spec *)
(** Calling a method goes through any number of references. *)
Definition autoderef (w : world) : Prop :=
  (forall v, adjust w (VRef v) = adjust w v) /\ (forall k vs, adjust w (VData k vs) = VData k vs).
(** The arguments do nothing but give a value. *)
Definition quiet_args (w : world) (fuel : nat) (args : list arg) : Prop := forall e, In (AE e) args -> just_value w fuel e.
(** The number of fields a pattern with or without `..` takes. *)
Definition fits (n : nat) (dots : option nat) (m : nat) : Prop := match dots with None => m = n | Some i => i <= n <= m end.
(** What a closure's variable stands for, by value or by reference to a variant. *)
Definition variant_item (c n : nat) (dots dots' : option nat) (adj : bool) (v : val) : Prop :=
  exists k vs, v = (if adj then VRef (VData (KCtor k) vs) else VData (KCtor k) vs) /\
    (k = c -> fits n dots (length vs) /\ fits 1 dots' (length vs)).
(** The functions of the library behind `Option::unwrap` and the like. *)
Definition library (w : world) (nm : names) (t : rty) : Prop :=
  (forall g v x, nm MUnwrap g = true -> call w g [v] x = (match view_of t v with Some (Good u) => CVal u | _ => CPanic end, x)) /\
  (forall g v x, nm MIsGood g = true -> view_of t v <> None ->
     call w g [VRef v] x = (CVal (VBool (match view_of t v with Some (Good _) => true | _ => false end)), x)).

Section Filter.
  Variable w : world.
  Variable fuel : nat.
  Notation st := (state w).
  Notation ev := (eval w fuel).
  Notation ie := (ieval w fuel).
  Notation alike := (alike w fuel).

  (** ** What becomes of an item *)
  Inductive kept := Take (v : val) | Skip | Stop (o : out).
  Definition by_filter_map (h : arg) (v : val) (s : st) : kept * st :=
    match apply w fuel h [v] s with
    | (OVal u, s) => (match view_of TOption u with Some (Good x) => Take x | Some (Bad _) => Skip | None => Stop OStuck end, s)
    | (o, s) => (Stop o, s)
    end.
  Definition by_filter (f g : arg) (v : val) (s : st) : kept * st :=
    match apply w fuel f [VRef v] s with
    | (OVal (VBool true), s) => match apply w fuel g [v] s with (OVal u, s) => (Take u, s) | (o, s) => (Stop o, s) end
    | (OVal (VBool false), s) => (Skip, s)
    | (OVal _, s) => (Stop OStuck, s)
    | (o, s) => (Stop o, s)
    end.
  (** The same, unless the first gets stuck. *)
  Definition same_item (a b : kept * st) : Prop := fst a = Stop OStuck \/ a = b.

  Definition pump {A} (next : A -> st -> pres * A * st) (item : val -> st -> kept * st) : nat -> A -> st -> pres * A * st :=
    fix go (n : nat) (d : A) (s : st) :=
      match n with
      | O => (POut ODiverge, d, s)
      | S n =>
          match next d s with
          | (PVal v, d, s) =>
              match item v s with (Take u, s) => (PVal u, d, s) | (Skip, s) => go n d s | (Stop o, s) => (POut o, d, s) end
          | r => r
          end
      end.
  Lemma pump_filter_map : forall {A} (next : A -> st -> pres * A * st) h n d s,
    until w next (keep_map w fuel h) n d s = pump next (by_filter_map h) n d s.
  Proof.
    intros A next h. induction n; intros d s; auto. cbn -[view_of apply]. destruct (next d s) as [[[v| |o] d1] s1]; cbn -[view_of apply]; auto.
    unfold keep_map, by_filter_map. destruct (apply w fuel h [v] s1) as [[u| | | | |] s2]; auto. destruct (view_of TOption u) as [[]|]; auto.
  Qed.
  Lemma pump_filter : forall {A} (next : A -> st -> pres * A * st) f g n d s,
    with_item w (fun d : A => d) (until w next (keep w fuel f) n d s) (fun v d s => given_val w (apply w fuel g [v] s) d (fun u s => (PVal u, d, s)))
    = pump next (by_filter f g) n d s.
  Proof.
    intros A next f g. induction n; intros d s; auto. cbn -[apply]. destruct (next d s) as [[[v| |o] d1] s1]; cbn -[apply]; auto.
    unfold keep, by_filter. destruct (apply w fuel f [VRef v] s1) as [[u| | | | |] s2]; auto. destruct u as [|[]| | |]; auto.
    cbn -[apply]. destruct (apply w fuel g [v] s2) as [[] s3]; auto.
  Qed.
  Definition held {A} (Inv : A -> Prop) (d d' : A) : Prop := d = d' /\ Inv d.
  Lemma pump_sim : forall {A} (next : A -> st -> pres * A * st) (Inv : A -> Prop) (P : val -> Prop) item item',
    (forall d s, Inv d -> match next d s with (PVal v, d', _) => P v /\ Inv d' | (PEnd, d', _) => Inv d' | (POut _, _, _) => True end) ->
    (forall v s, P v -> same_item (item v s) (item' v s)) ->
    forall n, sim w (held Inv) (pump next item n) (pump next item' n).
  Proof.
    intros A next Inv P item item' N I. induction n; intros d ? s [<- ID]; [apply agree_out|]. cbn. specialize (N d s ID).
    destruct (next d s) as [[[v| |o] d1] s1]; [|apply agree_same; split; auto|apply agree_out]. destruct N as [Pv ID1].
    destruct (I v s1 Pv) as [E|E].
    - destruct (item v s1) as [r s2]. cbn in E. subst. apply agree_stuck.
    - rewrite E. destruct (item' v s1) as [[u| |o] s2]; [apply agree_same; split; auto|apply IHn; split; auto|apply agree_out].
  Qed.
  Lemma held_begins : forall (c : chain) (Inv : D c -> Prop), (forall s d s', start w fuel c s = (inl d, s') -> Inv d) ->
    forall s, begins w (held Inv) (start w fuel c s) (start w fuel c s).
  Proof.
    intros c Inv I s. right. split; auto. specialize (I s). destruct (start w fuel c s) as [[d|o] s1]; cbn; auto. split; eauto.
  Qed.
  Lemma filter_to_filter_map : forall f g h c P, gives w fuel c P -> (forall v s, P v -> same_item (by_filter f g v s) (by_filter_map h v s)) ->
    alike (IMap g (IFilter f c)) (IFilterMap h c).
  Proof.
    intros f g h c P (Inv & I0 & N) I. exists (held Inv). split; [|intros s; exact (held_begins c Inv I0 s)].
    intros b d d' s H. cbn [pull]. rewrite pump_filter, pump_filter_map. exact (pump_sim _ Inv P _ _ (N b) I fuel d d' s H).
  Qed.
  Lemma filter_map_to_filter : forall f g h c P, gives w fuel c P -> (forall v s, P v -> same_item (by_filter_map h v s) (by_filter f g v s)) ->
    alike (IFilterMap h c) (IMap g (IFilter f c)).
  Proof.
    intros f g h c P (Inv & I0 & N) I. exists (held Inv). split; [|intros s; exact (held_begins c Inv I0 s)].
    intros b d d' s H. cbn [pull]. rewrite pump_filter, pump_filter_map. exact (pump_sim _ Inv P _ _ (N b) I fuel d d' s H).
  Qed.

  (** ** Seeking the first *)
  Definition seek {A} (next : A -> st -> pres * A * st) (item : val -> st -> kept * st) : nat -> A -> st -> out * st :=
    fix go (n : nat) (d : A) (s : st) :=
      match n with
      | O => (ODiverge, s)
      | S n =>
          match next d s with
          | (PVal v, d, s) =>
              match item v s with (Take u, s) => (OVal (some_v u), s) | (Skip, s) => go n d s | (Stop o, s) => (o, s) end
          | (PEnd, _, s) => (OVal none_v, s)
          | (POut o, _, s) => (o, s)
          end
      end.
  Lemma view_good : forall u x, view_of TOption u = Some (Good x) -> u = some_v x.
  Proof.
    intros u x H. destruct u as [| |[| |c] [|y []]| |]; cbn in H; try discriminate.
    - destruct (c =? c_none); discriminate.
    - destruct (Nat.eqb_spec c c_some); [subst|discriminate]. injection H as ->. reflexivity.
  Qed.
  Lemma seek_find_map : forall {A} (next : A -> st -> pres * A * st) h n d a s,
    drive w next (step w fuel (CFindMap h)) (fin (CFindMap h)) n d a s = seek next (by_filter_map h) n d s.
  Proof.
    intros A next h. induction n; intros d a s; auto. cbn -[view_of apply]. destruct (next d s) as [[[v| |o] d1] s1]; auto.
    unfold by_filter_map, asked. destruct (apply w fuel h [v] s1) as [[u| | | | |] s2]; auto.
    destruct (view_of TOption u) as [[]|] eqn:V; auto. apply view_good in V. subst. reflexivity.
  Qed.
  Lemma seek_find : forall {A} (next : A -> st -> pres * A * st) f g n d a s, (forall d s, noval w (next d s)) ->
    andthen w (drive w next (step w fuel (CFind f)) (fin (CFind f)) n d a s) (fun v s => method w TOption MMap v [] [apply w fuel g] s)
    = seek next (by_filter f g) n d s.
  Proof.
    intros A next f g n d a s N. revert d a s. induction n; intros d a s; auto. cbn -[view_of apply]. specialize (N d s). unfold noval in N. destruct (next d s) as [[[v| |o] d1] s1]; auto.
    2: { cbn in N. destruct o; auto. destruct N. }
    unfold by_filter, test, asked. destruct (apply w fuel f [VRef v] s1) as [[u| | | | |] s2]; auto. destruct u as [|[]| | |]; auto.
    cbn -[apply]. destruct (apply w fuel g [v] s2) as [[] s3]; auto.
  Qed.
  Lemma seek_same : forall {A} (next : A -> st -> pres * A * st) (Inv : A -> Prop) (P : val -> Prop) item item',
    (forall d s, Inv d -> match next d s with (PVal v, d', _) => P v /\ Inv d' | (PEnd, d', _) => Inv d' | (POut _, _, _) => True end) ->
    (forall v s, P v -> same_item (item v s) (item' v s)) ->
    forall n d s, Inv d -> fst (seek next item n d s) <> OStuck -> seek next item' n d s = seek next item n d s.
  Proof.
    intros A next Inv P item item' N I. induction n; intros d s ID; auto. cbn. specialize (N d s ID).
    destruct (next d s) as [[[v| |o] d1] s1]; auto. destruct N as [Pv ID1]. destruct (I v s1 Pv) as [E|E].
    - destruct (item v s1) as [r s2]. cbn in E. subst. cbn. congruence.
    - rewrite E. destruct (item' v s1) as [[u| |o] s2]; auto.
  Qed.
  Lemma find_to_find_map : forall f g h c P, gives w fuel c P -> (forall v s, P v -> same_item (by_filter f g v s) (by_filter_map h v s)) ->
    forall s, fst (ie (IMeth MMap (IRun c (CFind f)) [g]) s) <> OStuck -> ie (IRun c (CFindMap h)) s = ie (IMeth MMap (IRun c (CFind f)) [g]) s.
  Proof.
    intros f g h c P (Inv & I0 & N) I s. specialize (I0 s). cbn [ieval init andthen consume from_back map]. pose proof (start_noval w fuel c s) as V.
    destruct (start w fuel c s) as [[d|o] s1].
    - rewrite seek_find_map, seek_find by (intros; apply pull_noval). exact (seek_same _ Inv P _ _ (N false) I fuel d s1 (I0 _ _ eq_refl)).
    - specialize (V _ _ eq_refl). destruct o; auto. destruct (V v eq_refl).
  Qed.

  (** ** By method *)
  Lemma view_data : forall t v, t <> TBool -> view_of t v <> None -> exists k vs, v = VData k vs.
  Proof. intros [] v B V; try congruence; destruct v as [| |k vs| |]; cbn in V; try congruence; eauto. Qed.
  Lemma eargs_quiet : forall t m x v args s, quiet_args w fuel args -> view_of t v = Some (Good x) -> (m = MUnwrap \/ m = MExpect \/ m = MUnwrapOr) ->
    forall es fs, fst (eargs w fuel t m v args s es fs) = OStuck \/ eargs w fuel t m v args s es fs = (OVal x, s).
  Proof.
    intros t m x v args s Q V M. induction args as [|[e|ps b|p] args IH]; intros es fs.
    - cbn. unfold method. rewrite V. destruct M as [->|[->| ->]]; destruct (rev es) as [|? []], (rev fs) as [|? []]; auto.
    - cbn [eargs]. assert (J : just_value w fuel e) by (apply Q; left; auto). destruct (J s) as [u E]. rewrite E. cbn [andthen]. apply IH. intros e' H. apply Q. right. auto.
    - cbn [eargs]. apply IH. intros e' H. apply Q. right. auto.
    - cbn [eargs]. apply IH. intros e' H. apply Q. right. auto.
  Qed.

  (** What the filter finds in an item, through the adjustment of its variable. *)
  Lemma filter_looks : forall t fp fx (a1 : bool) v s, autoderef w -> t <> TBool ->
    (fp = PBind false fx None \/ fp = PBind true fx None \/ fp = PRef (PBind false fx None) \/ fp = PRef (PBind true fx None)) ->
    let r := apply w fuel (AC [fp] (EMeth t MIsGood (EVar fx a1) [])) [VRef v] s in
    fst r = OStuck \/ exists vw, view_of t (adjust w v) = Some vw /\ r = (OVal (VBool (match vw with Good _ => true | Bad _ => false end)), s).
  Proof.
    intros t fp fx a1 v s [A1 A2] T FP r.
    assert (B : exists u, match_pat fp (VRef v) = Some [(fx, u)] /\ (u = v \/ u = VRef v \/ u = VRef (VRef v))).
    { destruct FP as [->|[->|[->| ->]]]; cbn; eauto. }
    destruct B as (u & B & U). subst r. rewrite (apply_scoped w fuel _ _ _ [(fx, u)]) by (rewrite CloIdent.bind_one; exact B).
    unfold scoped. rewrite eval_meth.
    assert (V : ev (EVar fx a1) (enter [(fx, u)] s) = (OVal (if a1 then adjust w u else u), enter [(fx, u)] s)) by (cbn; rewrite Nat.eqb_refl; reflexivity).
    rewrite V. cbn [andthen]. destruct (view_of t (if a1 then adjust w u else u)) as [vw|] eqn:W; [|left; reflexivity].
    right. exists vw. assert (W' : view_of t (adjust w v) = Some vw).
    { destruct a1.
      - destruct U as [->|[->| ->]]; rewrite ?A1 in W; auto.
      - destruct (view_data t u T) as (k & vs & ->); [congruence|]. destruct U as [<-|[E|E]]; try discriminate. rewrite A2. auto. }
    split; auto. cbn [eargs rev]. unfold method. rewrite W. destruct vw; cbn [caught fst snd]; unfold caught; cbn [fst snd]; rewrite leave_enter; reflexivity.
  Qed.

  (** What the map's receiver is: the parameter, or a reference into it. *)
  Definition receiver_of (t : rty) (mx : nat) (a2 : bool) (a : expr) : Prop := a = EVar mx a2 \/ a = EMeth t MAsRef (EVar mx a2) [].
  Lemma receiver_view : forall t mx (a2 : bool) a v (s : st), t <> TBool -> receiver_of t mx a2 a ->
    match view_of t (if a2 then adjust w v else v) with
    | None => forall m args, fst (ev (EMeth t m a args) (enter [(mx, v)] s)) = OStuck
    | Some vw => exists z, ev a (enter [(mx, v)] s) = (OVal z, enter [(mx, v)] s) /\
        match vw with Good _ => exists x, view_of t z = Some (Good x) | Bad _ => exists l, view_of t z = Some (Bad l) end
    end.
  Proof.
    intros t mx a2 a v s T R. set (y := if a2 then adjust w v else v).
    assert (V : ev (EVar mx a2) (enter [(mx, v)] s) = (OVal y, enter [(mx, v)] s)) by (cbn; rewrite Nat.eqb_refl; reflexivity).
    destruct (view_of t y) as [vw|] eqn:W.
    - destruct R as [->| ->].
      + exists y. split; auto. destruct vw; eauto.
      + rewrite eval_meth, V. cbn [andthen]. rewrite W. cbn [eargs rev]. unfold method. rewrite W. destruct vw as [x|l].
        * eexists. split; [reflexivity|]. exists (VRef x). destruct t; try congruence; reflexivity.
        * destruct l as [|u [|u' l]].
          -- eexists. split; [reflexivity|]. eauto.
          -- eexists. split; [reflexivity|]. exists [VRef u]. destruct t; try congruence; auto. exfalso.
             destruct y as [| |[| |k] [|? []]| |]; cbn in W; try discriminate; destruct (Nat.eqb k _); discriminate.
          -- eexists. split; [reflexivity|]. eauto.
    - intros m args. rewrite eval_meth. destruct R as [->| ->].
      + rewrite V. cbn [andthen]. rewrite W. reflexivity.
      + rewrite eval_meth, V. cbn [andthen]. rewrite W. reflexivity.
  Qed.

  (** Items as the types of the map's receiver say. *)
  Definition item_type (t : rty) (a2 : bool) (v : val) : Prop := a2 = false -> view_of t v <> None.
  Lemma by_method_item : forall t fp fx (a1 r : bool) mx m a a2 args v s, autoderef w -> t <> TBool ->
    (fp = PBind false fx None \/ fp = PBind true fx None \/ fp = PRef (PBind false fx None) \/ fp = PRef (PBind true fx None)) ->
    receiver_of t mx a2 a -> item_type t a2 v -> quiet_args w fuel args -> (m = MUnwrap \/ m = MExpect \/ m = MUnwrapOr) ->
    same_item (by_filter (AC [fp] (EMeth t MIsGood (EVar fx a1) [])) (AC [PBind r mx None] (EMeth t m a args)) v s)
              (by_filter_map (AC [PBind false mx None] (match t with TResult => EMeth TResult MOk a [] | _ => a end)) v s).
  Proof.
    intros t fp fx a1 r mx m a a2 args v s AD T FP R IT QA M. unfold by_filter.
    destruct (filter_looks t fp fx a1 v s AD T FP) as [E|(vw & W & E)].
    { destruct (apply w fuel (AC [fp] (EMeth t MIsGood (EVar fx a1) [])) [VRef v] s) as [o s1]. cbn in E. subst. left. reflexivity. }
    rewrite E.
    assert (Y : view_of t (if a2 then adjust w v else v) = Some vw).
    { destruct a2; auto. destruct (view_data t v T (IT eq_refl)) as (k & vs & ->). rewrite (proj2 AD) in W. auto. }
    (* what replaces both *)
    assert (H : exists o, by_filter_map (AC [PBind false mx None] (match t with TResult => EMeth TResult MOk a [] | _ => a end)) v s = (o, s) /\
      exists z, ev a (enter [(mx, v)] s) = (OVal z, enter [(mx, v)] s) /\
        match vw with Good _ => exists x, view_of t z = Some (Good x) /\ o = Take x | Bad _ => o = Skip end).
    { pose proof (receiver_view t mx a2 a v s T R) as RV. rewrite Y in RV. destruct RV as (z & Ez & Vz).
      unfold by_filter_map. rewrite (apply_scoped w fuel _ _ _ [(mx, v)]) by reflexivity. unfold scoped.
      destruct t; try congruence.
      - rewrite Ez. unfold caught. cbn [fst snd]. rewrite leave_enter. eexists. split; [reflexivity|]. exists z. split; auto.
        destruct vw; [destruct Vz as [x1 ->]; eauto|destruct Vz as [l1 ->]; auto].
      - rewrite eval_meth, Ez. cbn [andthen]. destruct vw as [x0|l0]; destruct Vz as [x1 Vz]; rewrite Vz; cbn [eargs rev]; unfold method; rewrite Vz;
          unfold caught; cbn [fst snd]; rewrite leave_enter; eexists; (split; [reflexivity|]); exists z; (split; [auto|]); eauto. }
    destruct H as (o & -> & z & Ez & O). destruct vw as [x0|l]; [|right; subst; reflexivity].
    destruct O as (x & Vz & ->).
    assert (G : exists vr, match_pat (PBind r mx None) v = Some [(mx, vr)] /\ (vr = v \/ vr = VRef v)) by (destruct r; cbn; eauto).
    destruct G as (vr & Br & Vr). rewrite (apply_scoped w fuel _ _ _ [(mx, vr)]) by (rewrite CloIdent.bind_one; exact Br).
    unfold scoped. pose proof (receiver_view t mx a2 a vr s T R) as RV.
    destruct (view_of t (if a2 then adjust w vr else vr)) as [vw'|] eqn:W'.
    2: { specialize (RV m args). destruct (ev (EMeth t m a args) (enter [(mx, vr)] s)) as [o' s']. cbn in RV. subst. left. reflexivity. }
    destruct RV as (z' & Ez' & _).
    assert (ZZ : z' = z).
    { destruct Vr as [->|Vr]; [congruence|]. subst vr. destruct a2; [|destruct t; try congruence; discriminate].
      rewrite (proj1 AD) in W'. clear - Ez Ez' R AD. destruct R as [->| ->].
      - cbn in Ez, Ez'. rewrite Nat.eqb_refl in *. rewrite (proj1 AD) in Ez'. congruence.
      - rewrite eval_meth in Ez, Ez'.
        assert (V : forall u, ev (EVar mx true) (enter [(mx, u)] s) = (OVal (adjust w u), enter [(mx, u)] s)) by (intros; cbn; rewrite Nat.eqb_refl; reflexivity).
        rewrite V in Ez, Ez'. rewrite (proj1 AD) in Ez'. cbn [andthen] in *. destruct (view_of t (adjust w v)) as [vw|] eqn:W; [|discriminate].
        cbn [eargs rev] in *. unfold method in *. rewrite W in *. destruct vw; congruence. }
    subst z'. rewrite eval_meth, Ez'. cbn [andthen]. rewrite Vz.
    destruct (eargs_quiet t m x z args (enter [(mx, vr)] s) QA Vz M [] []) as [E'|E'].
    - destruct (eargs w fuel t m z args (enter [(mx, vr)] s) [] []) as [o' s']. cbn in E'. subst. left. reflexivity.
    - rewrite E'. unfold caught. cbn [fst snd]. rewrite leave_enter. right. reflexivity.
  Qed.

  Lemma filter_pattern : forall fp fx, match (match fp with PRef p => p | p => p end) with PBind _ y None => y = fx | _ => False end ->
    fp = PBind false fx None \/ fp = PBind true fx None \/ fp = PRef (PBind false fx None) \/ fp = PRef (PBind true fx None).
  Proof.
    intros fp fx H. destruct fp as [|[] y [|]| | | | | |q]; try tauto; try (subst; auto). destruct q as [|[] y [|]| | | | | |]; try tauto; subst; auto.
  Qed.
  Lemma by_method_found : forall fp fx a1 r mx my t t0 m a a2 args h,
    find_or_filter (AC [fp] (EMeth t MIsGood (EVar fx a1) [])) (AC [PBind r mx None] (EMeth t0 m a args)) = Some h -> receiver_of t my a2 a ->
    t0 = t /\ my = mx /\ t <> TBool /\ (fp = PBind false fx None \/ fp = PBind true fx None \/ fp = PRef (PBind false fx None) \/ fp = PRef (PBind true fx None)) /\
    (m = MUnwrap \/ m = MExpect \/ m = MUnwrapOr) /\ h = AC [PBind false mx None] (match t with TResult => EMeth TResult MOk a [] | _ => a end).
  Proof.
    intros fp fx a1 r mx my t t0 m a a2 args h H R. cbn in H.
    set (q := match fp with PRef p => p | p => p end) in H. destruct q as [|? y [|]| | | | | |] eqn:Q; try discriminate.
    assert (T : t <> TBool) by (destruct t; discriminate).
    assert (K : offending_of y (EMeth t MIsGood (EVar fx a1) []) = Some (ByMethod t (EVar fx a1))) by (destruct t; try congruence; reflexivity).
    cbn in K. rewrite K in H. cbn in H. unfold given in H.
    destruct ((meth_eqb m MExpect || meth_eqb m MUnwrap || meth_eqb m MUnwrapOr) && rty_eqb t t0 && (y =? fx)
              && is_local mx (match a with EMeth _ MAsRef b [] => b | _ => a end)) eqn:C; [|discriminate].
    injection H as <-. rewrite !andb_true_iff, !orb_true_iff in C. destruct C as [[[M T0] E] L]. apply Nat.eqb_eq in E. subst y.
    repeat split; auto.
    - destruct t, t0; try discriminate; reflexivity.
    - destruct R as [->| ->]; cbn in L; apply Nat.eqb_eq in L; auto.
    - apply filter_pattern. fold q. rewrite Q. reflexivity.
    - destruct m; cbn in M; intuition discriminate.
  Qed.
  Theorem manual_filter_map_method_alike : forall fp fx a1 r mx my t t0 m a a2 args c c',
    manual_filter_map (IMap (AC [PBind r mx None] (EMeth t0 m a args)) (IFilter (AC [fp] (EMeth t MIsGood (EVar fx a1) [])) c)) = Some c' ->
    autoderef w -> receiver_of t my a2 a -> gives w fuel c (item_type t a2) -> quiet_args w fuel args ->
    alike (IMap (AC [PBind r mx None] (EMeth t0 m a args)) (IFilter (AC [fp] (EMeth t MIsGood (EVar fx a1) [])) c)) c'.
  Proof.
    intros fp fx a1 r mx my t t0 m a a2 args c c' H AD R G QA. cbn [manual_filter_map] in H.
    destruct (find_or_filter _ _) as [h|] eqn:F; [|discriminate]. injection H as <-. destruct (by_method_found _ _ _ _ _ _ _ _ _ _ _ _ _ F R) as (-> & -> & T & FP & M & ->).
    eapply filter_to_filter_map; [exact G|]. intros v s IT. apply (by_method_item t fp fx a1 r mx m a a2 args v s); auto.
  Qed.
  Theorem manual_find_map_method_sound : forall fp fx a1 r mx my t t0 m a a2 args c e',
    manual_find_map (IMeth MMap (IRun c (CFind (AC [fp] (EMeth t MIsGood (EVar fx a1) [])))) [AC [PBind r mx None] (EMeth t0 m a args)]) = Some e' ->
    autoderef w -> receiver_of t my a2 a -> gives w fuel c (item_type t a2) -> quiet_args w fuel args ->
    forall s, fst (ie (IMeth MMap (IRun c (CFind (AC [fp] (EMeth t MIsGood (EVar fx a1) [])))) [AC [PBind r mx None] (EMeth t0 m a args)]) s) <> OStuck ->
      ie e' s = ie (IMeth MMap (IRun c (CFind (AC [fp] (EMeth t MIsGood (EVar fx a1) [])))) [AC [PBind r mx None] (EMeth t0 m a args)]) s.
  Proof.
    intros fp fx a1 r mx my t t0 m a a2 args c e' H AD R G QA. cbn [manual_find_map] in H.
    destruct (find_or_filter _ _) as [h|] eqn:F; [|discriminate]. injection H as <-. destruct (by_method_found _ _ _ _ _ _ _ _ _ _ _ _ _ F R) as (-> & -> & T & FP & M & ->).
    eapply find_to_find_map; [exact G|]. intros v s IT. apply (by_method_item t fp fx a1 r mx m a a2 args v s); auto.
  Qed.

  (** ** By pattern *)
  Lemma match_wild : forall ps, Forall (fun p => p = PWild) ps -> forall vs, length vs = length ps -> match_all ps vs = Some [].
  Proof.
    induction 1; intros [|v vs] L; try discriminate; auto. injection L as L. rewrite match_all_cons, IHForall by auto. subst. reflexivity.
  Qed.
  Lemma match_dots : forall k ps n k' vs, match_pat (PData k ps (Some n)) (VData k' vs) =
    if kind_eqb k k' && (length ps <=? length vs) then match_all ps (firstn n vs ++ skipn (length vs - (length ps - n)) vs) else None.
  Proof. reflexivity. Qed.
  (** The fields a pattern looks at. *)
  Lemma fields_of : forall ps dots vs c, fits (length ps) dots (length vs) ->
    exists us, length us = length ps /\ match_pat (PData (KCtor c) ps dots) (VData (KCtor c) vs) = match_all ps us.
  Proof.
    intros ps [n|] vs c F; cbn in F.
    - eexists. rewrite match_dots. cbn [kind_eqb]. rewrite Nat.eqb_refl. destruct (Nat.leb_spec (length ps) (length vs)); [|lia]. split; [|reflexivity].
      rewrite app_length, firstn_length, skipn_length. lia.
    - exists vs. split; auto. rewrite match_data. cbn. rewrite Nat.eqb_refl. reflexivity.
  Qed.
  Lemma other_variant : forall ps dots c k vs, k <> c -> match_pat (PData (KCtor c) ps dots) (VData (KCtor k) vs) = None.
  Proof.
    intros ps [n|] c k vs N; cbn; destruct (Nat.eqb_spec c k); try congruence; reflexivity.
  Qed.
  (** The match of the map: `if let` or `match`, with anything in its second arm. *)
  Definition picks (b : expr) (mx : nat) (a2 : bool) (p : pat) (th : expr) : Prop :=
    (exists el, b = EIfLet p (EVar mx a2) th (Some el)) \/ (exists el g, b = EMatch false (EVar mx a2) [(p, None, th); (PWild, g, el)]).
  Definition only_variant (fp : pat) (fx : nat) (a1 : bool) (c : nat) (ps : list pat) (dots : option nat) : arg :=
    AC [fp] (EMatch false (EVar fx a1) [(PData (KCtor c) ps dots, None, EBool true); (PWild, None, EBool false)]).
  (** A variable is adjusted where it is a reference. *)
  Definition adjusted (fp : pat) (fx : nat) (a1 a2 : bool) : Prop :=
    (fp = PBind false fx None /\ a1 = true) \/ (fp = PRef (PBind false fx None) /\ a1 = a2).

  Lemma by_pattern_item : forall fp fx (a1 a2 : bool) c ps dots dots' mx rb y th b v s, ergonomic w -> adjusted fp fx a1 a2 ->
    Forall (fun p => p = PWild) ps -> picks b mx a2 (PData (KCtor c) [PBind rb y None] dots') th -> clean th -> peel_blocks th = EVar y false ->
    variant_item c (length ps) dots dots' a2 v ->
    same_item (by_filter (only_variant fp fx a1 c ps dots) (AC [PBind false mx None] b) v s)
              (by_filter_map (AC [PBind false mx None] (variant_match mx a2 (PData (KCtor c) [PBind rb y None] dots') y)) v s).
  Proof.
    intros fp fx a1 a2 c ps dots dots' mx rb y th b v s [G1 G2] AJ WI PK CL TH (k & vs & EV & FI).
    (* what the filter and the map look at *)
    assert (X1 : exists u vs1, match_pat fp (VRef v) = Some [(fx, u)] /\ (if a1 then adjust w u else u) = VData (KCtor k) vs1 /\ length vs1 = length vs).
    { destruct AJ as [[-> ->]|[-> ->]]; cbn [match_pat].
      - destruct a2; subst v; eexists _, _; (split; [reflexivity|]); rewrite ?G2, G1; (split; [reflexivity|]); apply map_length.
      - destruct a2; subst v; eexists _, _; (split; [reflexivity|]); rewrite ?G1; (split; [reflexivity|]); rewrite ?map_length; auto. }
    assert (X2 : exists vs2, (if a2 then adjust w v else v) = VData (KCtor k) vs2 /\ length vs2 = length vs).
    { destruct a2; subst v; [rewrite G1|]; eexists; (split; [reflexivity|]); rewrite ?map_length; auto. }
    destruct X1 as (u & vs1 & B1 & X1 & L1), X2 as (vs2 & X2 & L2).
    assert (V1 : forall x (a : bool) v0 (s0 : st), ev (EVar x a) (enter [(x, v0)] s0) = (OVal (if a then adjust w v0 else v0), enter [(x, v0)] s0)) by (intros; cbn; rewrite Nat.eqb_refl; reflexivity).
    assert (L1' : apply w fuel (only_variant fp fx a1 c ps dots) [VRef v] s = (OVal (VBool (Nat.eqb k c)), s)).
    { unfold only_variant. rewrite (apply_scoped w fuel _ _ _ [(fx, u)]) by (rewrite CloIdent.bind_one; exact B1). unfold scoped. rewrite eval_match, V1, X1. cbn [andthen].
      destruct (Nat.eqb_spec k c) as [->|N].
      - destruct (FI eq_refl) as [F1 _]. rewrite <- L1 in F1. destruct (fields_of ps dots vs1 c F1) as (us & Lu & M1).
        rewrite earms_cons, M1, (match_wild ps WI us Lu). unfold armrun, scoped. change (ev (EBool true) (enter [] (enter [(fx, u)] s))) with (OVal (VBool true), enter [] (enter [(fx, u)] s)).
        cbv beta iota. rewrite leave_enter. unfold caught; cbn [fst snd]. rewrite leave_enter. reflexivity.
      - rewrite earms_cons, other_variant, earms_cons by auto. cbn [match_pat]. unfold armrun, scoped. change (ev (EBool false) (enter [] (enter [(fx, u)] s))) with (OVal (VBool false), enter [] (enter [(fx, u)] s)).
        cbv beta iota. rewrite leave_enter. unfold caught; cbn [fst snd]. rewrite leave_enter. reflexivity. }
    unfold by_filter, by_filter_map. rewrite L1'. unfold variant_match.
    rewrite !(apply_scoped w fuel [PBind false mx None] _ [v] [(mx, v)]) by reflexivity. unfold scoped.
    destruct (Nat.eqb_spec k c) as [->|N].
    - destruct (FI eq_refl) as [_ F2]. rewrite <- L2 in F2. destruct (fields_of [PBind rb y None] dots' vs2 c F2) as (us & Lu & M2).
      destruct us as [|u0 [|]]; try discriminate. set (z := if rb then VRef u0 else u0).
      assert (M3 : match_all [PBind rb y None] [u0] = Some [(y, z)]) by reflexivity. rewrite M3 in M2.
      assert (TE : ev th (enter [(y, z)] (enter [(mx, v)] s)) = (OVal z, enter [(y, z)] (enter [(mx, v)] s))).
      { rewrite <- peel_eval by auto. rewrite TH, V1. reflexivity. }
      assert (BE : ev b (enter [(mx, v)] s) = (OVal z, enter [(mx, v)] s)).
      { destruct PK as [[el ->]|(el & g & ->)].
        - rewrite eval_iflet, V1, X2. cbn [andthen]. rewrite M2. rewrite TE. cbv beta iota. rewrite leave_enter. reflexivity.
        - rewrite eval_match, V1, X2. cbn [andthen]. rewrite earms_cons. rewrite M2. unfold armrun, scoped. rewrite TE. cbv beta iota. rewrite leave_enter. reflexivity. }
      assert (HE : ev (EMatch false (EVar mx a2) [(PData (KCtor c) [PBind rb y None] dots', None, some_e (EVar y false)); (PWild, None, none_e)]) (enter [(mx, v)] s) = (OVal (some_v z), enter [(mx, v)] s)).
      { rewrite eval_match, V1, X2. cbn [andthen]. rewrite earms_cons. rewrite M2. unfold armrun, scoped, some_e. rewrite eval_data. cbn [evals]. rewrite V1. cbn [andthen]. cbv beta iota. rewrite leave_enter. reflexivity. }
      rewrite BE, HE. unfold caught; cbn [fst snd]. rewrite !leave_enter. right. reflexivity.
    - assert (HE : ev (EMatch false (EVar mx a2) [(PData (KCtor c) [PBind rb y None] dots', None, some_e (EVar y false)); (PWild, None, none_e)]) (enter [(mx, v)] s) = (OVal none_v, enter [(mx, v)] s)).
      { rewrite eval_match, V1, X2. cbn [andthen]. rewrite earms_cons, other_variant, earms_cons by auto. cbn [match_pat]. unfold armrun, scoped.
        change (ev none_e (enter [] (enter [(mx, v)] s))) with (OVal none_v, enter [] (enter [(mx, v)] s)). cbv beta iota. rewrite leave_enter. reflexivity. }
      rewrite HE. unfold caught; cbn [fst snd]. rewrite leave_enter. right. reflexivity.
  Qed.
  Lemma by_pattern_found : forall fp fx a1 a2 c ps dots mx my b c2 rb y y2 dots' th h,
    find_or_filter (only_variant fp fx a1 c ps dots) (AC [PBind false mx None] b) = Some h ->
    picks b my a2 (PData (KCtor c2) [PBind rb y None] dots') th -> clean th -> peel_blocks th = EVar y2 false ->
    my = mx /\ y2 = y /\ (forall fz, adjusted fp fz a1 a2 -> fz = fx) /\ c2 = c /\ h = AC [PBind false mx None] (variant_match mx a2 (PData (KCtor c2) [PBind rb y None] dots') y).
  Proof.
    intros fp fx a1 a2 c ps dots mx my b c2 rb y y2 dots' th h H PK CL TH. unfold only_variant in H. cbn in H.
    destruct (match fp with PRef p => p | p => p end) as [|? z [|]| | | | | |] eqn:FP; try discriminate.
    unfold given in H. destruct (Nat.eqb_spec z fx); try discriminate. subst z.
    assert (FZ : forall fz, adjusted fp fz a1 a2 -> fz = fx) by (intros fz [[-> _]|[-> _]]; cbn in FP; congruence).
    destruct PK as [[el ->]|(el & g & ->)]; cbn in H; unfold given in H.
    - rewrite TH in H. cbn in H. destruct ((y =? y2) && (c2 =? c)) eqn:C; [|discriminate]. destruct ((my =? mx) && is_panic el) eqn:E; [|discriminate]. injection H as <-.
      apply andb_true_iff in C, E. destruct C as [C0 C], E as [E _]. apply Nat.eqb_eq in C0, C, E. subst. auto.
    - rewrite TH in H. cbn in H. destruct ((y =? y2) && (c2 =? c)) eqn:C; [|discriminate]. destruct ((my =? mx) && is_panic el) eqn:E; [|discriminate]. injection H as <-.
      apply andb_true_iff in C, E. destruct C as [C0 C], E as [E _]. apply Nat.eqb_eq in C0, C, E. subst. auto.
  Qed.
  Theorem manual_filter_map_pattern_alike : forall fp fx fz a1 a2 c ps dots mx my b c2 rb y y2 dots' th c0 c',
    manual_filter_map (IMap (AC [PBind false mx None] b) (IFilter (only_variant fp fx a1 c ps dots) c0)) = Some c' ->
    ergonomic w -> adjusted fp fz a1 a2 -> Forall (fun p => p = PWild) ps ->
    picks b my a2 (PData (KCtor c2) [PBind rb y None] dots') th -> clean th -> peel_blocks th = EVar y2 false ->
    gives w fuel c0 (variant_item c (length ps) dots dots' a2) ->
    alike (IMap (AC [PBind false mx None] b) (IFilter (only_variant fp fx a1 c ps dots) c0)) c'.
  Proof.
    intros fp fx fz a1 a2 c ps dots mx my b c2 rb y y2 dots' th c0 c' H E AJ WI PK CL TH G. cbn [manual_filter_map] in H.
    destruct (find_or_filter _ _) as [h|] eqn:F; [|discriminate]. injection H as <-. destruct (by_pattern_found _ _ _ _ _ _ _ _ _ _ _ _ _ _ _ _ _ F PK CL TH) as (-> & -> & FZ & -> & ->). rewrite (FZ _ AJ) in AJ.
    eapply filter_to_filter_map; [exact G|]. intros v s IT. apply (by_pattern_item fp fx a1 a2 c ps dots dots' mx rb y th b v s); auto.
  Qed.
  Theorem manual_find_map_pattern_sound : forall fp fx fz a1 a2 c ps dots mx my b c2 rb y y2 dots' th c0 e',
    manual_find_map (IMeth MMap (IRun c0 (CFind (only_variant fp fx a1 c ps dots))) [AC [PBind false mx None] b]) = Some e' ->
    ergonomic w -> adjusted fp fz a1 a2 -> Forall (fun p => p = PWild) ps ->
    picks b my a2 (PData (KCtor c2) [PBind rb y None] dots') th -> clean th -> peel_blocks th = EVar y2 false ->
    gives w fuel c0 (variant_item c (length ps) dots dots' a2) ->
    forall s, fst (ie (IMeth MMap (IRun c0 (CFind (only_variant fp fx a1 c ps dots))) [AC [PBind false mx None] b]) s) <> OStuck ->
      ie e' s = ie (IMeth MMap (IRun c0 (CFind (only_variant fp fx a1 c ps dots))) [AC [PBind false mx None] b]) s.
  Proof.
    intros fp fx fz a1 a2 c ps dots mx my b c2 rb y y2 dots' th c0 e' H E AJ WI PK CL TH G. cbn [manual_find_map] in H.
    destruct (find_or_filter _ _) as [h|] eqn:F; [|discriminate]. injection H as <-. destruct (by_pattern_found _ _ _ _ _ _ _ _ _ _ _ _ _ _ _ _ _ F PK CL TH) as (-> & -> & FZ & -> & ->). rewrite (FZ _ AJ) in AJ.
    eapply find_to_find_map; [exact G|]. intros v s IT. apply (by_pattern_item fp fx a1 a2 c ps dots dots' mx rb y th b v s); auto.
  Qed.

  (** ** `is_some` and `unwrap`: to `flatten` *)
  Definition tests (t : rty) (f : arg) : Prop :=
    (exists g, f = AP (PFn g)) \/
    (exists r x y a b, f = AC [PBind r x None] b /\ clean b /\ peel_blocks b = EMeth t MIsGood (EVar y a) []).
  Definition unwraps (t : rty) (f : arg) : Prop :=
    (exists g, f = AP (PFn g)) \/
    (exists r x y a b m, f = AC [PBind r x None] b /\ clean b /\ peel_blocks b = EMeth t m (EVar y a) []).
  Lemma apply_peel : forall ps b vs s, clean b -> apply w fuel (AC ps (peel_blocks b)) vs s = apply w fuel (AC ps b) vs s.
  Proof.
    intros ps b vs s C. destruct (bind_all ps vs) as [bs|] eqn:B; [|cbn [apply]; rewrite B; reflexivity].
    rewrite !(apply_scoped w fuel ps _ vs bs) by auto. rewrite scoped_peel by auto. reflexivity.
  Qed.
  Lemma unwrap_item : forall nm t f g v s, t <> TBool -> autoderef w -> library w nm t -> tests t f -> unwraps t g ->
    is_method nm None MUnwrap g = true -> is_method nm (Some TOption) MIsGood f || is_method nm (Some TResult) MIsGood f = true -> view_of t v <> None ->
    same_item (by_filter f g v s) (match view_of t v with Some (Good x) => Take x | _ => Skip end, s).
  Proof.
    intros nm t f g v s T AD [L1 L2] TF UG IU IG V.
    assert (AV : adjust w v = v) by (destruct (view_data t v T V) as (k & vs & ->); apply AD).
    assert (F : fst (apply w fuel f [VRef v] s) = OStuck \/ apply w fuel f [VRef v] s = (OVal (VBool (match view_of t v with Some (Good _) => true | _ => false end)), s)).
    { destruct TF as [[h ->]|(r & x & y & a & b & -> & C & P)].
      - assert (N : nm MIsGood h = true) by (cbn in IG; destruct (nm MIsGood h); auto). right. destruct s as [r x]. cbn [apply call_path]. unfold calls. cbn [fst snd]. rewrite (L2 h v x N V). reflexivity.
      - cbn in IG. rewrite P in IG. assert (x = y) as <- by (apply orb_true_iff in IG; destruct IG as [IG|IG]; rewrite !andb_true_iff in IG; destruct IG as [[_ E] _]; apply Nat.eqb_eq; auto).
        rewrite <- apply_peel by auto. rewrite P. destruct (filter_looks t (PBind r x None) x a v s AD T) as [E|(vw & W & E)]; [destruct r; auto|left; exact E|].
        right. rewrite AV in W. rewrite W. exact E. }
    assert (G : view_of t v = Some (Bad []) \/ (exists l, view_of t v = Some (Bad l)) \/ exists x, view_of t v = Some (Good x) /\ (fst (apply w fuel g [v] s) = OStuck \/ apply w fuel g [v] s = (OVal x, s))).
    { destruct (view_of t v) as [[x|l]|] eqn:W; try congruence; eauto. right. right. exists x. split; auto.
      destruct UG as [[h ->]|(r & y & z & a & b & m & -> & C & P)].
      - assert (N : nm MUnwrap h = true) by exact IU. right. destruct s as [e z]. cbn [apply call_path]. unfold calls. cbn [fst snd]. rewrite (L1 h v z N), W. reflexivity.
      - cbn in IU. rewrite P in IU. rewrite !andb_true_iff in IU. destruct IU as [[E1 E2] _]. apply Nat.eqb_eq in E2. subst z. assert (m = MUnwrap) as -> by (destruct m; try discriminate; auto).
        rewrite <- apply_peel by auto. rewrite P. rewrite (apply_scoped w fuel _ _ _ [(y, if r then VRef v else v)]) by (destruct r; reflexivity).
        unfold scoped. rewrite eval_meth.
        assert (VV : ev (EVar y a) (enter [(y, if r then VRef v else v)] s) = (OVal (if a then adjust w (if r then VRef v else v) else (if r then VRef v else v)), enter [(y, if r then VRef v else v)] s)) by (cbn; rewrite Nat.eqb_refl; reflexivity).
        rewrite VV. cbn [andthen].
        destruct (view_of t (if a then adjust w (if r then VRef v else v) else (if r then VRef v else v))) as [vw|] eqn:W'; [|left; reflexivity].
        right. assert (vw = Good x) as ->.
        { destruct a, r; rewrite ?(proj1 AD), ?AV in W'; try congruence. destruct t; try congruence; discriminate. }
        cbn [eargs rev]. unfold method. rewrite W'. unfold caught. cbn [fst snd]. rewrite leave_enter. reflexivity. }
    unfold by_filter. destruct F as [F|F]; [destruct (apply w fuel f [VRef v] s); cbn in F; subst; left; reflexivity|]. rewrite F.
    destruct G as [-> |[[l ->]|(x & -> & [E|E])]]; try (right; reflexivity).
    - destruct (apply w fuel g [v] s); cbn in E; subst; left; reflexivity.
    - rewrite E. right. reflexivity.
  Qed.
  Definition opened_held {A} (Inv : A -> Prop) (d : A) (x : list val * A * list val) : Prop := x = ([], d, []) /\ Inv d.
  Lemma view_items : forall t v, t <> TBool -> view_of t v <> None ->
    items v = Some (match view_of t v with Some (Good x) => [x] | _ => [] end).
  Proof.
    intros [] v T V; try congruence; destruct v as [| |[| |k] [|x []]| |]; cbn in *; try congruence.
    - destruct (Nat.eqb_spec k c_none); [subst; reflexivity|congruence].
    - destruct (Nat.eqb_spec k c_some); [subst; reflexivity|congruence].
    - destruct (Nat.eqb_spec k c_ok); [subst; reflexivity|]. destruct (Nat.eqb_spec k c_err); [subst; reflexivity|congruence].
  Qed.
  Lemma pump_opened : forall {A} (next : A -> st -> pres * A * st) (Inv : A -> Prop) t item back, t <> TBool ->
    (forall d s, Inv d -> match next d s with (PVal v, d', _) => view_of t v <> None /\ Inv d' | (PEnd, d', _) => Inv d' | (POut _, _, _) => True end) ->
    (forall v s, view_of t v <> None -> same_item (item v s) (match view_of t v with Some (Good x) => Take x | _ => Skip end, s)) ->
    forall n, sim w (opened_held Inv) (pump next item n) (opened w next (fun v s => (OVal v, s)) back n).
  Proof.
    intros A next Inv t item back T N I. induction n; intros d ? s [-> ID]; cbn -[pop]; rewrite if_nil, pop_nil; [apply agree_out|].
    specialize (N d s ID). destruct (next d s) as [[[v| |o] d1] s1]; [| |apply agree_out].
    2: { apply agree_same. split; auto. }
    destruct N as [V ID1]. rewrite (view_items t v T V). destruct (I v s1 V) as [E|E].
    { destruct (item v s1) as [r s2]. cbn in E. subst. apply agree_stuck. }
    rewrite E. destruct (view_of t v) as [[x|l]|] eqn:W; try congruence.
    - destruct n; destruct back; cbn; apply agree_same; split; auto.
    - replace (if back then ([], d1, []) else ([], d1, [])) with (([] : list val), d1, ([] : list val)) by (destruct back; auto). apply IHn. split; auto.
  Qed.
  Theorem option_filter_map_alike : forall nm t f g c c', option_filter_map nm (IMap g (IFilter f c)) = Some c' ->
    t <> TBool -> autoderef w -> library w nm t -> tests t f -> unwraps t g -> gives w fuel c (fun v => view_of t v <> None) ->
    alike (IMap g (IFilter f c)) c'.
  Proof.
    intros nm t f g c c' H T AD L TF UG (Inv & I0 & N). cbn [option_filter_map] in H. unfold given in H.
    destruct (is_method nm None MUnwrap g && _) eqn:Q; [|discriminate]. apply andb_true_iff in Q. destruct Q as [Q1 Q2]. injection H as <-.
    exists (opened_held Inv). split.
    - intros b d d' s R. cbn [pull]. rewrite pump_filter. refine (pump_opened (pull w fuel b c) Inv t (by_filter f g) b T (N b) _ fuel d d' s R).
      intros v s0 V. apply (unwrap_item nm t); auto.
    - intros s. specialize (I0 s). cbn [start]. unfold bind_d. destruct (start w fuel c s) as [[d|o] s1]; right; cbn; auto. split; auto. split; eauto.
  Qed.

  (** ** `filter_map` with `then` *)
  Lemma K_fixed : forall may bs bs', K may bs bs' -> (forall x, In x (map fst bs) -> may x = false) -> bs' = bs.
  Proof.
    intros may bs bs' H. induction H as [|[x u] [y v] l l' [A B] H IH]; intros N; auto. cbn in *. subst y. rewrite IH by auto. rewrite B; auto.
  Qed.
  Lemma scope_kept : forall r bs (s : st), (forall x, In x (map fst bs) -> assigned x r = false) ->
    exists t, snd (ev r (enter bs s)) = enter bs t /\ length (fst t) = length (fst s).
  Proof.
    intros r bs s NA. set (may := fun y => negb (existsb (Nat.eqb y) (map fst bs))).
    assert (Km : KS w may (enter bs s) (snd (ev r (enter bs s)))).
    { apply eval_keeps. intros x M. apply NA. unfold may in M. apply negb_false_iff, existsb_exists in M. destruct M as (y & I & E). apply Nat.eqb_eq in E. subst. auto. }
    destruct (snd (ev r (enter bs s))) as [e x]. unfold KS in Km. cbn [fst enter] in Km.
    apply Forall2_app_inv_l in Km. destruct Km as (l1 & l2 & H1 & H2 & E). apply K_fixed in H1.
    2: { intros y I. unfold may. apply negb_false_iff, existsb_exists. exists y. split; auto. apply Nat.eqb_refl. }
    exists (l2, x). unfold enter. cbn in *. subst. split; auto. symmetry. exact (K_len _ _ _ H2).
  Qed.
  Lemma then_item : forall p b r th v s, clean b -> clean th -> peel_blocks b = EMeth TBool MThen r [AC [] th] -> contains_return r = false ->
    (forall x, In x (pat_vars p) -> assigned x r = false) ->
    same_item (by_filter_map (AC [p] b) v s) (by_filter (AC [PRef p] r) (AC [p] (peel_blocks th)) v s).
  Proof.
    intros p b r th v s C Ct P NR NA. unfold by_filter_map, by_filter. rewrite <- (apply_peel [p] b) by auto. rewrite P.
    destruct (match_pat p v) as [bs|] eqn:M.
    2: { left. cbn [apply]. rewrite CloIdent.bind_one, M. reflexivity. }
    rewrite !(apply_scoped w fuel _ _ _ bs) by (rewrite CloIdent.bind_one; exact M). unfold scoped at 1 2. rewrite eval_meth.
    destruct (scope_kept r bs s) as (t & Kt & Lt). { intros x I. apply NA. rewrite <- (match_keys p v bs M). exact I. }
    pose proof (no_return_quiet w fuel r NR (enter bs s)) as Q.
    destruct (ev r (enter bs s)) as [o t']. cbn [snd] in Kt. subst t'.
    assert (LV : leave (length (fst s)) (enter bs t) = t) by (rewrite <- Lt; apply leave_enter).
    destruct o as [u| | | | |]; cbn [andthen]; unfold caught; cbn [fst snd]; rewrite ?LV; try (right; reflexivity); try (left; reflexivity).
    - destruct (view_of TBool u) as [vw|] eqn:W.
      2: { left. reflexivity. }
      destruct u as [|[]| | |]; try discriminate; cbn in W; injection W as <-; cbn [eargs rev app]; unfold method; cbn [view_of].
      + right. rewrite (apply_scoped w fuel [] th [] []) by reflexivity. rewrite !(apply_scoped w fuel [p] _ [v] bs) by (rewrite CloIdent.bind_one; exact M).
        rewrite scoped_peel by auto. unfold scoped. cbn [enter app]. 
        assert (EN : enter [] (enter bs t) = enter bs t) by (destruct t; reflexivity). rewrite EN.
        pose proof (leave_eval w fuel th (enter bs t)) as LE. destruct (ev th (enter bs t)) as [o t2]. cbn [snd] in LE. rewrite LE.
        unfold caught. destruct o; cbn [andthen fst snd]; rewrite <- ?Lt; reflexivity.
      + right. cbn [fst snd]. rewrite LV. reflexivity.
    - destruct (Q v0 eq_refl).
  Qed.
  Theorem filter_map_bool_then_alike : forall p b r th c c', filter_map_bool_then (IFilterMap (AC [p] b) c) = Some c' ->
    peel_blocks b = EMeth TBool MThen r [AC [] th] -> clean b -> clean th -> (forall x, In x (pat_vars p) -> assigned x r = false) ->
    alike (IFilterMap (AC [p] b) c) c'.
  Proof.
    intros p b r th c c' H P C Ct NA. cbn [filter_map_bool_then] in H. rewrite P in H. unfold given in H.
    destruct (contains_return r) eqn:R; [discriminate|]. injection H as <-.
    apply (filter_map_to_filter _ _ _ c (fun _ => True)).
    - exists (fun _ => True). split; auto. intros b0 d s _. destruct (pull w fuel b0 c d s) as [[[] ?] ?]; auto.
    - intros v s _. apply then_item; auto.
  Qed.
End Filter.
