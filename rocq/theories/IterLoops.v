(** Loops over iterators: an index that is not used, `if let` in the body, a search. *)
From Verif Require Export IterFold.

(** ** Spec *)
(** Whatever the chain gives, from either end, is as the type checker says: what it remembers keeps [Inv]. *)
Definition gives (w : world) (fuel : nat) (c : chain) (P : val -> Prop) : Prop :=
  exists Inv : D c -> Prop,
    (forall s d s', start w fuel c s = (inl d, s') -> Inv d) /\
    (forall back d s, Inv d ->
       match pull w fuel back c d s with (PVal v, d', _) => P v /\ Inv d' | (PEnd, d', _) => Inv d' | (POut _, _, _) => True end).
(** A match on a reference binds references to the payload. *)
Definition ergonomic (w : world) : Prop :=
  (forall k vs, adjust w (VRef (VData k vs)) = VData k (map VRef vs)) /\ (forall v, adjust w (VRef (VRef v)) = adjust w (VRef v)).
(** An Option or a Result, by value, by reference or by reference to a reference. *)
Definition holder (t : rty) (copied adj : bool) (v : val) : Prop :=
  match copied, adj with
  | false, false => view_of t v <> None
  | false, true => exists u, v = VRef u /\ view_of t u <> None
  | true, true => exists u, v = VRef (VRef u) /\ view_of t u <> None
  | true, false => False
  end.
(** The payload of what is matched. *)
Definition inside_of (w : world) (c : nat) (adj : bool) (v : val) : option val :=
  match (if adj then adjust w v else v) with VData (KCtor d) [u] => if Nat.eqb d c then Some u else None | _ => None end.
(** The function that ends with the loop and [tail] returns this. *)
Definition loop_fn (w : world) (fuel : nat) (l : for_loop_e) (tail : expr) (s : state w) : out * state w :=
  match for_loop w fuel (for_pat l) (for_iter l) (for_body l) s with
  | (OVal _, s) => eval w fuel tail s
  | (ORet v, s) => (OVal v, s)
  | (OBrk _ _, s) => (OStuck, s)
  | r => r
  end.

Section Loops.
  Variable w : world.
  Variable fuel : nat.
  Notation st := (state w).
  Notation ev := (eval w fuel).
  Notation ie := (ieval w fuel).
  Notation alike := (alike w fuel).

  (** ** Blocks around the body *)
  Definition forget (r : out * st) : out * st := (match fst r with OVal _ => OVal unit_v | o => o end, snd r).
  Lemma forget_leave : forall n r r', forget r = forget r' -> forget (let '(o, s) := r in (o, leave n s)) = forget (let '(o, s) := r' in (o, leave n s)).
  Proof. intros n [o s] [o' s'] H. unfold forget in *. cbn [fst snd] in *. injection H as H <-. rewrite H. reflexivity. Qed.
  Lemma one_stmt : forall a s, forget (ev (EBlock None [SExpr a] None) s) = forget (ev a s) /\ forget (ev (EBlock None [SSemi a] None) s) = forget (ev a s).
  Proof.
    intros a s. rewrite !eval_block. cbn [estmts eopt]. pose proof (leave_eval w fuel a s) as L. destruct (ev a s) as [o t]. cbn [snd] in L.
    destruct o; cbn [andthen unlabel]; rewrite L; auto.
  Qed.
  Lemma peel_stmt_eval : forall b, clean b -> forall s, forget (ev (peel_blocks_with_stmt b) s) = forget (ev b s).
  Proof.
    fix IH 1. intros b H s. destruct b as [| | | | | | | | | | | | | |l ss t| | | | | |]; try reflexivity.
    unfold clean in H. destruct l; [discriminate|]. cbn in H. destruct ss as [|x ss].
    - destruct t as [a|]; [|reflexivity]. cbn [peel_blocks_with_stmt]. rewrite peel_one. apply IH. exact H.
    - destruct ss as [|y ss]; [|destruct x; reflexivity]. destruct t; [destruct x; reflexivity|]. cbn in H. rewrite !orb_false_r in H.
      destruct x as [p i b|a|a]; [reflexivity| |]; cbn [peel_blocks_with_stmt]; destruct (one_stmt a s) as [E1 E2]; rewrite ?E1, ?E2; apply IH; exact H.
  Qed.
  (** One round of a loop. *)
  Definition round (p : pat) (b : expr) (v : val) (s : st) : out * st :=
    match match_pat p v with Some bs => scoped w fuel bs b s | None => (OStuck, s) end.
  Lemma loop_S : forall A (next : A -> st -> pres * A * st) p b n d s, loop w fuel next p b (S n) d s =
    match next d s with
    | (PVal v, d, s) => match round p b v s with
                        | (OVal _, s) => loop w fuel next p b n d s
                        | (OBrk None _, s) => (OVal unit_v, s)
                        | r => r
                        end
    | (PEnd, _, s) => (OVal unit_v, s)
    | (POut o, _, s) => (o, s)
    end.
  Proof.
    intros. cbn [loop]. destruct (next d s) as [[[v| |o] d1] s1]; auto. unfold round, scoped. destruct (match_pat p v) as [bs|]; auto.
    destruct (ev b (enter bs s1)) as [[| |[]| | |] t]; reflexivity.
  Qed.
  Definition again (r : out * st) (k : st -> out * st) : out * st :=
    match forget r with (OVal _, s) => k s | (OBrk None _, s) => (OVal unit_v, s) | r => r end.
  Lemma loop_again : forall A (next : A -> st -> pres * A * st) p b n d s, loop w fuel next p b (S n) d s =
    match next d s with
    | (PVal v, d, s) => again (round p b v s) (loop w fuel next p b n d)
    | (PEnd, _, s) => (OVal unit_v, s)
    | (POut o, _, s) => (o, s)
    end.
  Proof.
    intros. rewrite loop_S. destruct (next d s) as [[[v| |o] d1] s1]; auto. destruct (round p b v s1) as [[| |[]| | |] t]; reflexivity.
  Qed.
  Lemma round_peel : forall p b v s, clean b -> forget (round p (peel_blocks_with_stmt b) v s) = forget (round p b v s).
  Proof.
    intros p b v s C. unfold round, scoped. destruct (match_pat p v) as [bs|]; auto. apply forget_leave. apply peel_stmt_eval; auto.
  Qed.

  (** ** Indices that are not used *)
  Lemma tuple2 : forall i p d a b, match_pat (PData KTup [i; p] d) (VData KTup [a; b]) =
    match match_pat i a, match_pat p b with Some x, Some y => Some (x ++ y) | _, _ => None end.
  Proof.
    intros i p [n|] a b; cbn; rewrite ?app_nil_r.
    - assert (E : firstn n [a; b] ++ skipn (2 - (2 - n)) [a; b] = [a; b] \/ 2 < n) by (destruct n as [|[|[|]]]; auto; right; lia).
      destruct n as [|[|[|n]]]; cbn; destruct (match_pat i a); auto; destruct (match_pat p b); rewrite ?app_nil_r; auto.
    - destruct (match_pat i a); auto. destruct (match_pat p b); rewrite ?app_nil_r; auto.
  Qed.
  Lemma wild_bind : forall i b a, pat_is_wild i b = true -> exists bs, match_pat i a = Some bs /\
    (bs = [] \/ exists x v, bs = [(x, v)] /\ local_used x b = false).
  Proof.
    intros i b a H. destruct i as [|r x [q|]| | | | | |]; try discriminate; cbn in H.
    - exists []. auto.
    - apply negb_true_iff in H. exists [(x, if r then VRef a else a)]. split; auto. right. eauto.
  Qed.
  Lemma index_scoped : forall i b a bs0 bs s, pat_is_wild i b = true -> match_pat i a = Some bs0 ->
    scoped w fuel (bs0 ++ bs) b s = scoped w fuel bs b s.
  Proof.
    intros i b a bs0 bs s H M. destruct (wild_bind i b a H) as (bs1 & M1 & E). rewrite M in M1. injection M1 as <-.
    destruct E as [-> |(x & v & -> & U)]; [reflexivity|].
    apply (scoped_same w fuel (fun y => Nat.eqb y x) (SL :: repeat SB (length bs))).
    - constructor; [apply Nat.eqb_refl|apply F_refl].
    - intros y Y. apply Nat.eqb_eq in Y. subst. exact U.
  Qed.
  Theorem unused_enumerate_for_sound : forall l l', unused_enumerate_for l = Some l' ->
    forall s, for_loop w fuel (for_pat l') (for_iter l') (for_body l') s = for_loop w fuel (for_pat l) (for_iter l) (for_body l) s.
  Proof.
    intros [p c b] l' H s. unfold unused_enumerate_for in H. cbn in H. destruct p as [| |k ps dots| | | | |]; try discriminate.
    destruct k; try discriminate. destruct ps as [|i [|p [|]]]; try discriminate. destruct c; try discriminate.
    unfold given in H. destruct (pat_is_wild i b) eqn:Wi; [|discriminate]. injection H as <-. cbn [for_pat for_iter for_body]. unfold for_loop. cbn [start].
    destruct (start w fuel c s) as [[d|o] s1]; cbn [bind_d]; auto.
    assert (E : forall n k d s, loop w fuel (pull w fuel false (IEnumerate c)) (PData KTup [i; p] dots) b n (k, d) s = loop w fuel (pull w fuel false c) p b n d s).
    { induction n; intros k d0 s0; auto. rewrite !loop_again. cbn [pull fst snd]. destruct (pull w fuel false c d0 s0) as [[[v| |o] d1] s2]; cbn [with_item]; auto.
      assert (R : round (PData KTup [i; p] dots) b (VData KTup [VInt (Z.of_nat k); v]) s2 = round p b v s2).
      { unfold round. rewrite tuple2. destruct (wild_bind i b (VInt (Z.of_nat k)) Wi) as (bs0 & M & _). rewrite M.
        destruct (match_pat p v) as [bs|]; auto. apply (index_scoped i b _ bs0 bs s2 Wi M). }
      rewrite R. unfold again. destruct (forget (round p b v s2)) as [[| |[]| | |] t]; auto. }
    symmetry. apply (E fuel 0 d s1).
  Qed.
  Lemma without_index_apply : forall f g k v s, without_index f = Some g -> apply w fuel g [v] s = apply w fuel f [VData KTup [VInt k; v]] s.
  Proof.
    intros f g k v s H. unfold without_index in H. destruct f as [|[|p [|]] b|]; try discriminate. all: destruct p as [| |kd ps dots| | | | |]; try discriminate.
    all: destruct kd; try discriminate; destruct ps as [|i [|p [|]]]; try discriminate.
    unfold given in H. destruct (pat_is_wild i b) eqn:Wi; [|discriminate]. injection H as <-.
    destruct (wild_bind i b (VInt k) Wi) as (bs0 & M & _).
    assert (B : bind_all [PData KTup [i; p] dots] [VData KTup [VInt k; v]] = match match_pat p v with Some bs => Some (bs0 ++ bs) | None => None end).
    { rewrite bind_one, tuple2, M. destruct (match_pat p v); auto. }
    destruct (match_pat p v) as [bs|] eqn:P.
    - rewrite (apply_scoped w fuel _ b _ _ s B), (apply_scoped w fuel [p] b [v] bs); [|rewrite bind_one, P; auto].
      rewrite (index_scoped i b _ bs0 bs s Wi M). reflexivity.
    - cbn [apply]. rewrite B, bind_one, P. reflexivity.
  Qed.
  Definition numbered {A} (x : nat * A) (d : A) : Prop := snd x = d.
  Lemma begins_numbered : forall c s, begins w numbered (start w fuel (IEnumerate c) s) (start w fuel c s).
  Proof. intros c s. right. cbn. destruct (start w fuel c s) as [[d|o] s1]; cbn; split; auto. reflexivity. Qed.
  Theorem unused_enumerate_chain_alike : forall c c', unused_enumerate_chain c = Some c' -> alike c c'.
  Proof.
    intros c c' H. destruct c; try discriminate; destruct c; try discriminate; cbn in H; destruct (without_index f) as [g|] eqn:F; try discriminate; injection H as <-.
    - exists numbered. split; [|intros s; exact (begins_numbered c s)]. intros b [k d] d' s E. unfold numbered in E. cbn in E. subst. cbn.
      destruct b; [left; reflexivity|]. cbn. destruct (pull w fuel false c d' s) as [[[v| |o] d1] s1]; cbn; [|right; cbn; repeat split; auto..].
      rewrite <- (without_index_apply f g _ v s1 F). destruct (apply w fuel g [v] s1) as [[] s2]; right; cbn; repeat split; auto.
    - exists numbered. split; [|intros s; exact (begins_numbered c s)]. intros b x d' s E. cbn. destruct b.
      + destruct fuel; [right; cbn; auto|left; reflexivity].
      + revert x d' s E. generalize fuel at 3 6 as n. induction n; intros [k d] d' s E; unfold numbered in E; cbn in E; subst; [right; cbn; auto|].
        cbn [until with_item]. cbn [pull fst snd]. destruct (pull w fuel false c d' s) as [[[v| |o] d1] s1]; cbn [with_item]; [|right; cbn; repeat split; auto..].
        unfold keep_map. rewrite <- (without_index_apply f g _ v s1 F). destruct (apply w fuel g [v] s1) as [[u| | | | |] s2]; try (right; cbn; repeat split; auto; fail).
        destruct (view_of TOption u) as [[]|]; try (right; cbn; repeat split; auto; fail). apply IHn. reflexivity.
    - exists (fun x y => fst (fst x) = fst (fst y) /\ numbered (snd (fst x)) (snd (fst y)) /\ snd x = snd y). split.
      2: { intros s. right. cbn. destruct (start w fuel c s) as [[d|o] s1]; cbn; repeat split; auto. }
      intros b x y s E. cbn [pull].
      revert x y s E. generalize fuel at 3 6 as n. induction n; intros [[fr [k d]] bk] [[fr' d'] bk'] s (E1 & E2 & E3); unfold numbered in E2; cbn in E1, E2, E3; subst; cbn [opened].
      + destruct (pop b (if b then bk' else fr')) as [[v r]|]; right; cbn; auto. destruct b; cbn; repeat split; auto.
      + destruct (pop b (if b then bk' else fr')) as [[v r]|]; [right; cbn; destruct b; cbn; repeat split; auto|].
        destruct b; [left; reflexivity|]. cbn [pull fst snd]. destruct (pull w fuel false c d' s) as [[[v| |o] d1] s1]; cbn [with_item].
        * rewrite <- (without_index_apply f g _ v s1 F). destruct (apply w fuel g [v] s1) as [[u| | | | |] s2]; try (right; cbn; repeat split; auto; fail).
          destruct (items u) as [vs|]; [|left; reflexivity]. apply IHn. cbn. repeat split; auto.
        * destruct (pop false bk') as [[v r]|]; right; cbn; repeat split; auto.
        * right. cbn. auto.
  Qed.
  Theorem unused_enumerate_end_sound : forall e e', unused_enumerate_end e = Some e' -> forall s, ie e' s = ie e s.
  Proof.
    intros e e' H s. destruct e as [c k| | | | |]; try discriminate. destruct c; try (destruct k; discriminate).
    assert (G : forall k k', init w fuel k s = (OVal (VInt 0), s) -> (forall s, init w fuel k s = (OVal (VInt 0), s)) -> (forall s, init w fuel k' s = (OVal (VInt 0), s)) ->
      (forall d a s, consume w fuel k (fun b => pull w fuel b (IEnumerate c)) d a s = drive w (pull w fuel false (IEnumerate c)) (step w fuel k) (fin k) fuel d a s) ->
      (forall d a s, consume w fuel k' (fun b => pull w fuel b c) d a s = drive w (pull w fuel false c) (step w fuel k') (fin k') fuel d a s) ->
      (forall a i v s, step w fuel k' a v s = step w fuel k a (VData KTup [VInt i; v]) s) -> (forall a, fin k' a = fin k a) ->
      ie (IRun c k') s = ie (IRun (IEnumerate c) k) s).
    { clear. intros k k' _ I I' C C' S F. cbn [ieval start]. destruct (start w fuel c s) as [[d|o] s1]; cbn [bind_d]; auto. rewrite I, I'. cbn [andthen]. rewrite C, C'.
      assert (E : forall n i d a s, drive w (pull w fuel false c) (step w fuel k') (fin k') n d a s = drive w (pull w fuel false (IEnumerate c)) (step w fuel k) (fin k) n (i, d) a s).
      { induction n; intros i d0 a s0; auto. cbn [drive pull fst snd]. destruct (pull w fuel false c d0 s0) as [[[v| |o] d1] s2]; cbn [with_item]; auto.
        - rewrite (S a (Z.of_nat i) v s2). destruct (step w fuel k a (VData KTup [VInt (Z.of_nat i); v]) s2) as [[b|o] t]; auto.
        - rewrite F. reflexivity. }
      apply E. }
    destruct k; try discriminate; cbn in H; destruct (without_index f) as [g|] eqn:F; try discriminate; injection H as <-;
      apply G; auto; intros a i v t; cbn [step]; rewrite (without_index_apply f g i v t F); reflexivity.
  Qed.

  (** ** `if let` in the body *)
  Definition payload_of (c : nat) (adj : bool) (v : val) : list val := match inside_of w c adj v with Some u => [u] | None => [] end.
  Lemma holder_items : forall t c (adj : bool) v, ergonomic w -> (c = c_some /\ t = TOption) \/ (c = c_ok /\ t = TResult) -> holder t false adj v ->
    items v = Some (payload_of c adj v) /\
    forall q d, match_pat (PData (KCtor c) [q] d) (if adj then adjust w v else v) = match inside_of w c adj v with Some u => match_pat q u | None => None end.
  Proof.
    intros t c adj v [G _] CT H.
    assert (V : forall u, view_of t u <> None -> exists us, u = VData (KCtor (match us with [_] => match view_of t u with Some (Good _) => c | _ => c_err end | _ => c_none end)) us /\
       (us = [] /\ t = TOption \/ exists x, us = [x])).
    { intros u U. destruct t; destruct u as [| |[| |k] us| |]; cbn in U; try congruence.
      - destruct us as [|x [|]]; try congruence.
        + destruct (Nat.eqb_spec k c_none); [|congruence]. subst. exists []. auto.
        + destruct (Nat.eqb_spec k c_some); [|congruence]. subst. exists [x]. split; [|eauto]. cbn. destruct CT as [[-> _]|[_ ?]]; [reflexivity|discriminate].
      - destruct us as [|x [|]]; try congruence. destruct (Nat.eqb_spec k c_ok).
        + subst. exists [x]. split; [|eauto]. cbn. destruct CT as [[_ ?]|[-> _]]; [discriminate|reflexivity].
        + destruct (Nat.eqb_spec k c_err); [|congruence]. subst. exists [x]. split; [|eauto]. reflexivity.
      - destruct CT as [[_ ?]|[_ ?]]; discriminate. }
    assert (M : forall q d k u, match_pat (PData (KCtor c) [q] d) (VData (KCtor k) [u]) = if Nat.eqb k c then match_pat q u else None).
    { intros q [[|n]|] k u; cbn; rewrite (Nat.eqb_sym c k); destruct (Nat.eqb k c); cbn; auto; destruct (match_pat q u); rewrite ?app_nil_r; auto.
      all: destruct n; cbn; try destruct (match_pat q u); rewrite ?app_nil_r; auto. }
    assert (M0 : forall q d k, match_pat (PData (KCtor c) [q] d) (VData (KCtor k) []) = None).
    { intros q [n|] k; cbn; destruct (c =? k); reflexivity. }
    destruct adj; cbn in H.
    - destruct H as (u & -> & U). destruct (V u U) as (us & E & [[-> T]|[x ->]]); rewrite E in *; clear E.
      + unfold payload_of, inside_of. rewrite G. cbn [map]. split; [reflexivity|]. intros. rewrite M0. reflexivity.
      + unfold payload_of, inside_of. rewrite G. cbn [map]. destruct CT as [[-> ->]|[-> ->]]; destruct (view_of _ u) as [[]|]; split; try reflexivity; intros; rewrite M; reflexivity.
    - destruct (V v H) as (us & E & [[-> T]|[x ->]]); rewrite E in *; clear E.
      + unfold payload_of, inside_of. split; [reflexivity|]. intros. rewrite M0. reflexivity.
      + unfold payload_of, inside_of. destruct CT as [[-> ->]|[-> ->]]; destruct (view_of _ v) as [[]|]; split; try reflexivity; intros; rewrite M; reflexivity.
  Qed.
  Lemma flat_round : forall c (adj : bool) q dots x th v s, local_used x th = false ->
    (match_pat (PData (KCtor c) [q] dots) (if adj then adjust w v else v) = match inside_of w c adj v with Some u => match_pat q u | None => None end) ->
    (forall u, inside_of w c adj v = Some u -> match_pat q u <> None) ->
    forget (round (PBind false x None) (EIfLet (PData (KCtor c) [q] dots) (EVar x adj) th None) v s) =
    forget (match inside_of w c adj v with Some u => round q th u s | None => (OVal unit_v, s) end).
  Proof.
    intros c adj q dots x th v s U M I. unfold round at 1. cbn [match_pat]. unfold scoped at 1. rewrite eval_iflet.
    assert (V : ev (EVar x adj) (enter [(x, v)] s) = (OVal (if adj then adjust w v else v), enter [(x, v)] s)) by (cbn; rewrite Nat.eqb_refl; reflexivity).
    rewrite V. cbn [andthen]. rewrite M. destruct (inside_of w c adj v) as [u|] eqn:IN.
    2: { cbn [eopt]. rewrite leave_enter. reflexivity. }
    specialize (I u eq_refl). unfold round. destruct (match_pat q u) as [bs|]; [|congruence].
    assert (E : (let '(o, t) := ev th (enter bs (enter [(x, v)] s)) in (o, leave (length (fst s)) t)) = scoped w fuel bs th s).
    { apply (body_same w fuel (fun y => Nat.eqb y x) (repeat SB (length bs) ++ [SL])).
      - split; auto. cbn [fst enter snd]. rewrite <- app_assoc. apply F_app; [apply F_refl|]. cbn. constructor; [apply Nat.eqb_refl|apply F_refl].
      - intros y Y. apply Nat.eqb_eq in Y. subst. exact U. }
    rewrite <- E. pose proof (eval_len w fuel th (enter bs (enter [(x, v)] s))) as L. destruct (ev th (enter bs (enter [(x, v)] s))) as [o t].
    f_equal. f_equal. apply leave_leave; [cbn; lia|]. cbn [snd] in L. rewrite L. cbn [fst enter]. rewrite !app_length. cbn. lia.
  Qed.
  Section Flat.
    Variables (A : Type) (next next' : A -> st -> pres * A * st) (c : nat) (adj : bool) (q : pat) (dots : option nat) (x : nat) (th b : expr).
    Hypothesis b_is : peel_blocks_with_stmt b = EIfLet (PData (KCtor c) [q] dots) (EVar x adj) th None.
    Hypothesis b_clean : clean b.
    Hypothesis unused_x : local_used x th = false.
    (** The flattened iterator opens the payload of the same values. *)
    Variable Inv : A -> Prop.
    Hypothesis follows : forall d s, Inv d ->
      match next d s with
      | (PVal v, d1, s1) => exists v', next' d s = (PVal v', d1, s1) /\ Inv d1 /\ items v' = Some (payload_of c adj v) /\
          match_pat (PData (KCtor c) [q] dots) (if adj then adjust w v else v) = (match inside_of w c adj v with Some u => match_pat q u | None => None end) /\
          (forall u, inside_of w c adj v = Some u -> match_pat q u <> None)
      | r => next' d s = r
      end.
    Notation flat j := (opened w next' (fun v s => (OVal v, s)) false j).
    Definition flat_from (j k : nat) (d : A) (s : st) : out * st :=
      match flat j ([], d, []) s with
      | (PVal v, d, s) => again (round q th v s) (loop w fuel (flat fuel) q th k d)
      | (PEnd, _, s) => (OVal unit_v, s)
      | (POut o, _, s) => (o, s)
      end.
    Lemma flat_loop : forall n j k d s, Inv d -> n <= j -> n <= S k -> n <= fuel -> fst (loop w fuel next (PBind false x None) b n d s) <> ODiverge ->
      flat_from j k d s = loop w fuel next (PBind false x None) b n d s.
    Proof.
      induction n; intros j k d s ID J K Fu ND; [cbn in ND; congruence|]. rewrite loop_again in *. destruct j as [|j]; [lia|].
      unfold flat_from. cbn [opened pop]. specialize (follows d s ID). destruct (next d s) as [[[v| |o] d1] s1].
      - destruct follows as (v' & -> & ID1 & IT & M & I). rewrite IT.
        assert (R : forget (round (PBind false x None) b v s1) = forget (match inside_of w c adj v with Some u => round q th u s1 | None => (OVal unit_v, s1) end)).
        { rewrite <- round_peel by auto. rewrite b_is. apply flat_round; auto. }
        unfold again at 2. unfold again at 1 in ND. rewrite R in *. unfold payload_of. destruct (inside_of w c adj v) as [u|].
        + destruct j as [|j]; cbn [opened pop].
          all: unfold again; destruct (forget (round q th u s1)) as [[| |[]| | |] t]; auto.
          all: destruct k as [|k]; [assert (n = 0) by lia; subst; cbn in ND; congruence|].
          all: rewrite loop_again; rewrite <- (IHn fuel k d1 t); auto; try lia; unfold flat_from; reflexivity.
        + unfold forget in *. cbn [fst snd] in *. rewrite <- (IHn j k d1 s1); auto; try lia. 
      - rewrite follows. reflexivity.
      - rewrite follows. reflexivity.
    Qed.
    Lemma flat_all : forall d s, Inv d -> fst (loop w fuel next (PBind false x None) b fuel d s) <> ODiverge ->
      loop w fuel (flat fuel) q th fuel ([], d, []) s = loop w fuel next (PBind false x None) b fuel d s.
    Proof.
      intros d s ID. assert (G : forall n, n <= fuel -> fst (loop w fuel next (PBind false x None) b n d s) <> ODiverge ->
        loop w fuel (flat fuel) q th n ([], d, []) s = loop w fuel next (PBind false x None) b n d s); [|apply G; auto].
      intros [|n] L ND; [cbn in ND; congruence|]. transitivity (flat_from fuel n d s); [unfold flat_from; apply loop_again|apply flat_loop; auto].
    Qed.
  End Flat.
  Theorem manual_flatten_sound : forall refutable copied l l' t (adj : bool) x th c q dots, manual_flatten refutable copied l = Some l' ->
    ergonomic w -> for_pat l = PBind false x None -> clean (for_body l) ->
    peel_blocks_with_stmt (for_body l) = EIfLet (PData (KCtor c) [q] dots) (EVar x adj) th None ->
    (c = c_some /\ t = TOption) \/ (c = c_ok /\ t = TResult) ->
    gives w fuel (for_iter l) (fun v => holder t copied adj v /\ (forall u, inside_of w c adj v = Some u -> match_pat q u <> None)) ->
    forall s, fst (for_loop w fuel (for_pat l) (for_iter l) (for_body l) s) <> ODiverge ->
    for_loop w fuel (for_pat l') (for_iter l') (for_body l') s = for_loop w fuel (for_pat l) (for_iter l) (for_body l) s.
  Proof.
    intros refutable copied [p c0 b] l' t adj x th c q dots H G P C B CT Y s ND. cbn [for_pat for_iter for_body] in *. subst p.
    unfold manual_flatten in H. cbn [for_pat for_iter for_body] in H. rewrite B in H. unfold given in H.
    destruct (is_local x (EVar x adj) && (Nat.eqb c c_some || Nat.eqb c c_ok) && negb (local_used x th) && negb (refutable q)) eqn:Q; [|discriminate].
    injection H as <-. cbn [for_pat for_iter for_body]. rewrite !andb_true_iff, !negb_true_iff in Q. destruct Q as [[_ U] _].
    unfold for_loop in *.
    destruct Y as (Inv & I0 & Y). specialize (I0 s).
    destruct copied; cbn [start] in *; destruct (start w fuel c0 s) as [[d|o] s1]; cbn [bind_d] in *; auto; specialize (I0 _ _ eq_refl).
    - apply (flat_all (D c0) (pull w fuel false c0) (pull w fuel false (ICloned c0)) c adj q dots x th b B C U Inv); auto.
      intros d0 s0 ID. pose proof (Y false d0 s0 ID) as Y0. rewrite pull_cloned. destruct (pull w fuel false c0 d0 s0) as [[[v| |o] d1] s2]; auto.
      destruct Y0 as [[HO I] ID1]. unfold holder in HO. destruct adj; [|destruct HO]. destruct HO as (u & -> & V).
      exists (VRef u). split; [reflexivity|]. split; [exact ID1|].
      assert (EQ : inside_of w c true (VRef (VRef u)) = inside_of w c true (VRef u)) by (unfold inside_of; rewrite (proj2 G); reflexivity).
      destruct (holder_items t c true (VRef u) G CT (ex_intro _ u (conj eq_refl V))) as [IT M]. unfold payload_of in *. rewrite EQ.
      split; auto. split; [|intros w0 W0; apply I; rewrite EQ; exact W0]. rewrite (proj2 G). apply M.
    - apply (flat_all (D c0) (pull w fuel false c0) (pull w fuel false c0) c adj q dots x th b B C U Inv); auto.
      intros d0 s0 ID. pose proof (Y false d0 s0 ID) as Y0. destruct (pull w fuel false c0 d0 s0) as [[[v| |o] d1] s2]; auto.
      destruct Y0 as [[HO I] ID1].
      destruct (holder_items t c adj v G CT HO) as [IT M]. exists v. repeat split; auto.
  Qed.
End Loops.
