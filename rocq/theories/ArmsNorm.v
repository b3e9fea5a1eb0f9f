(** What a pattern matches, its normal form matches. *)
From Verif Require Export ArmsOverlap.

Fixpoint psize (p : pat) : nat :=
  match p with
  | PBind _ (Some p) | PDeref p => S (psize p)
  | PStruct _ _ fs => S (list_sum (map (fun f => psize (snd f)) fs))
  | PTupleStruct _ _ _ _ ps _ | PTuple _ ps _ | POr ps => S (list_sum (map psize ps))
  | PSlice front mid back => S (list_sum (map psize front) + list_sum (map psize back) + match mid with Some (Some p) => psize p | _ => 0 end)
  | _ => 1
  end.
Lemma sum_in {A} (f : A -> nat) l x : In x l -> f x <= list_sum (map f l).
Proof. induction l as [|y l IH]; [intros []|]. cbn. intros [->|J]; [lia|]. apply IH in J. unfold list_sum in J. lia. Qed.
Lemma pairs_some a b : pairs a b <> [] -> a <> [] /\ b <> [].
Proof. intros H. destruct a as [|x a]; [contradiction|]. split; [discriminate|]. destruct b as [|y b]; [|discriminate]. exfalso. apply H. clear H. unfold pairs. cbn. induction a; auto. Qed.
Lemma some_pairs a b : a <> [] -> b <> [] -> pairs a b <> [].
Proof. destruct a; [contradiction|]. destruct b; [contradiction|]. discriminate. Qed.
Lemma when_some b : when b <> [] -> b = true.
Proof. destruct b; [reflexivity|contradiction]. Qed.
Lemma each_some f ps : forall vs, each f ps vs <> [] -> Forall2 (fun p v => f p v <> []) ps vs.
Proof. induction ps as [|p ps IH]; intros [|v vs] H; try (exfalso; apply H; reflexivity); [constructor|]. apply pairs_some in H. destruct H. constructor; auto. Qed.
(** Where `..` is, wildcards. *)
Section Some.
  Variable f : pat -> val -> list env.
  Variable R : npat -> val -> Prop.
  Hypothesis wild : forall v, R NWild v.
  Lemma some_none ps : forall i vs, some f None i ps vs <> [] -> Forall2 (fun p v => f p v <> []) ps vs.
  Proof. induction ps as [|p ps IH]; intros i [|v vs] H; try (exfalso; apply H; reflexivity); [constructor|]. cbn in H. apply pairs_some in H. destruct H. constructor; [auto|]. eapply IH; eauto. Qed.
  (** Past the `..`. *)
  Lemma some_past d ps : forall i vs, d < i -> some f (Some d) i ps vs <> [] -> Forall2 (fun p v => f p v <> []) ps vs.
  Proof.
    induction ps as [|p ps IH]; intros i vs L H; cbn in H; destruct (Nat.eqb_spec d i); try lia; destruct vs as [|v vs]; try (exfalso; apply H; reflexivity); [constructor|].
    apply pairs_some in H. destruct H. constructor; [auto|]. apply (IH (S i)); [lia|auto].
  Qed.
  Lemma some_dots d ps : forall i vs, i <= d -> d - i <= length ps -> length ps <= length vs -> some f (Some d) i ps vs <> [] ->
    exists a m b, vs = a ++ m ++ b /\ Forall2 (fun p v => f p v <> []) (firstn (d - i) ps) a /\ Forall2 (fun p v => f p v <> []) (skipn (d - i) ps) b.
  Proof.
    induction ps as [|p ps IH]; intros i vs L D LV H.
    - cbn in D. replace (d - i) with 0 by lia. cbn in H. replace (d =? i) with true in H by (symmetry; apply Nat.eqb_eq; lia). exists [], vs, []. rewrite !app_nil_r. repeat split; constructor.
    - cbn [some] in H. destruct (Nat.eqb_spec d i) as [->|N].
      + rewrite Nat.sub_diag. cbn [firstn skipn]. exists [], (firstn (length vs - length (p :: ps)) vs), (skipn (length vs - length (p :: ps)) vs). split; [symmetry; apply firstn_skipn|]. split; [constructor|].
        set (us := skipn (length vs - length (p :: ps)) vs) in *. destruct us as [|u us]; [contradiction|]. apply pairs_some in H. destruct H. constructor; [auto|]. apply (some_past i ps (S i)); [lia|auto].
      + destruct vs as [|v vs]; [contradiction|]. apply pairs_some in H. destruct H as [H1 H2]. cbn in D, LV. destruct (IH (S i) vs ltac:(lia) ltac:(lia) ltac:(lia) H2) as (a & m & b & -> & A & B).
        exists (v :: a), m, b. split; [reflexivity|]. replace (d - i) with (S (d - S i)) by lia. split; [constructor; auto|exact B].
  Qed.
  Lemma wild_repeat (m : list val) : Forall2 R (repeat NWild (length m)) m.
  Proof. induction m; cbn; constructor; auto. Qed.
  Lemma spread_some n dd ps vs : room dd n ps = true -> length vs = n -> (forall p v, In p ps -> f p v <> [] -> R (from_pat p) v) ->
    some f dd 0 ps vs <> [] -> Forall2 R (spread n dd (map from_pat ps)) vs.
  Proof.
    intros RM L H S. assert (MAP : forall qs us, incl qs ps -> Forall2 (fun p v => f p v <> []) qs us -> Forall2 R (map from_pat qs) us).
    { intros qs us I F. induction F; cbn; constructor; [apply H; [apply I; left; reflexivity|assumption]|]. apply IHF. intros ? J. apply I. right. exact J. }
    unfold spread. rewrite map_length. destruct dd as [d|]; cbn in RM.
    - apply andb_prop in RM. destruct RM as [A B]. apply Nat.leb_le in A, B. destruct (some_dots d ps 0 vs) as (a & m & b & -> & F & F'); try lia; auto.
      rewrite Nat.sub_0_r in *. rewrite firstn_map, skipn_map. apply Forall2_app.
      + apply MAP; [intros x J; rewrite <- (firstn_skipn d ps); apply in_or_app; auto|exact F].
      + apply Forall2_app; [|apply MAP; [intros x J; rewrite <- (firstn_skipn d ps); apply in_or_app; auto|exact F']].
        replace (n - length ps) with (length m); [apply wild_repeat|].
        pose proof (f2_length _ _ _ F) as L1. pose proof (f2_length _ _ _ F') as L2. rewrite !app_length in L. rewrite firstn_length in L1. rewrite skipn_length in L2. lia.
    - apply Nat.eqb_eq in RM. rewrite RM, Nat.sub_diag. cbn. rewrite app_nil_r. apply MAP; [apply incl_refl|]. exact (some_none ps 0 vs S).
  Qed.
End Some.
Lemma insert_in f fs x : In x (insert_field f fs) <-> x = f \/ In x fs.
Proof. induction fs as [|g fs IH]; cbn; [intuition|]. destruct (_ <=? _); cbn; [intuition|]. rewrite IH. intuition. Qed.
Lemma sort_in fs x : In x (sort_fields fs) <-> In x fs.
Proof. unfold sort_fields. induction fs as [|f fs IH]; cbn; [tauto|]. rewrite insert_in, IH. intuition. Qed.
Lemma by_name_some f vs fs : by_name f vs fs <> [] -> forall x p, In (x, p) fs -> exists v, field x vs = Some v /\ f p v <> [].
Proof.
  induction fs as [|[y q] fs IH]; intros H x p J; [destruct J|]. cbn in H. destruct (field y vs) as [v|] eqn:F; [|contradiction]. apply pairs_some in H. destruct H as [A B].
  destruct J as [E|J]; [injection E as -> ->; eauto|]. exact (IH B x p J).
Qed.
Lemma ints_eqb s v : val_eqb (VSlice (map VInt s)) v = true -> v = VSlice (map VInt s).
Proof.
  destruct v as [| | | |vs|]; try discriminate. cbn. intros H. f_equal. revert vs H. induction s as [|z s IH]; intros [|v vs] H; try discriminate H; [reflexivity|].
  cbn in H. apply andb_prop in H. destruct H as [A B]. destruct v; try discriminate A. apply Z.eqb_eq in A. subst. cbn. f_equal. apply IH, B.
Qed.
Lemma res_eqb_eq a b : res_eqb a b = true -> a = b.
Proof. destruct a, b; cbn; intros H; try discriminate H; [apply Nat.eqb_eq in H; congruence|reflexivity]. Qed.

Lemma skipn_twice {A} a : forall b (l : list A), skipn b (skipn a l) = skipn (a + b) l.
Proof. induction a as [|a IH]; intros b l; [reflexivity|]. destruct l as [|x l]; [cbn; destruct b; reflexivity|]. cbn. apply IH. Qed.

Lemma normal t n : forall p v, psize p <= n -> regular t p = true -> ways p v <> [] -> nm t (from_pat p) v.
Proof.
  induction n as [|n IH]; intros p v L R W; [destruct p as [| |? [|]| | | | | | | | |]; cbn in L; lia|].
  assert (LIST : forall ps us, list_sum (map psize ps) <= n -> forallb (regular t) ps = true -> Forall2 (fun p v => ways p v <> []) ps us -> Forall2 (nm t) (map from_pat ps) us).
  { intros ps us LE RE F. induction F as [|q u ps us Q F IHF]; cbn; constructor; cbn in LE, RE; apply andb_prop in RE; destruct RE; fold (list_sum (map psize ps)) in LE.
    - apply IH; auto; lia. - apply IHF; auto; lia. }
  destruct p as [| |x [p|]|p|res k fs|res k e c ps dd|c ps dd|ps|res [k|c]|l|a b lo hi i|front mid back]; cbn [from_pat].
  - constructor.
  - contradiction.
  - cbn in L, R, W. apply IH; [lia|exact R|]. intros E. rewrite E in W. contradiction.
  - constructor.
  - cbn in L, R, W. apply IH; [lia|exact R|exact W].
  - cbn [psize regular ways] in L, R, W. apply andb_prop in R. destruct R as [R R3]. apply andb_prop in R. destruct R as [R1 R2]. apply res_eqb_eq in R1. subst res. destruct v as [| | | | |l vs]; try contradiction.
    destruct (Nat.eqb_spec k l) as [<-|]; [|contradiction]. constructor; [destruct (t_shape t k); congruence|]. intros x p J. apply (proj1 (sort_in _ _)) in J. apply in_map_iff in J.
    destruct J as ([y q] & E & J). cbn [fst snd] in E. injection E as -> <-. destruct (by_name_some _ _ _ W x q J) as (u & F & U). exists u. split; [exact F|]. apply IH; [|exact (proj1 (forallb_forall _ _) R3 _ J)|exact U].
    pose proof (sum_in (fun f => psize (snd f)) fs _ J) as X. cbn [snd] in X. lia.
  - cbn [psize regular ways] in L, R, W. apply andb_prop in R. destruct R as [R R5]. apply andb_prop in R. destruct R as [R R4]. apply andb_prop in R. destruct R as [R R3]. apply andb_prop in R. destruct R as [R1 R2].
    apply res_eqb_eq in R1. subst res. apply Bool.eqb_prop in R2. subst e. destruct v as [| | | | |l vs]; try contradiction. destruct (Nat.eqb_spec k l) as [<-|]; [|contradiction]. cbn [andb] in W.
    destruct (Nat.eqb_spec (length vs) c) as [LV|]; [|contradiction]. destruct (t_shape t k) as [|m|] eqn:SH; try discriminate R3.
    assert (F : Forall2 (nm t) (spread c dd (map from_pat ps)) (map snd vs)).
    { apply (spread_some ways); auto using nm_wild; [rewrite map_length; exact LV|]. intros p v J U. apply IH; [|exact (proj1 (forallb_forall _ _) R5 _ J)|exact U]. pose proof (sum_in psize ps p J). lia. }
    destruct (t_enum t k) eqn:EN; [eapply nm_variant|eapply nm_tuple_struct]; eauto.
  - cbn [psize regular ways] in L, R, W. apply andb_prop in R. destruct R as [R1 R2]. destruct v as [| | |vs| |]; try contradiction. destruct (Nat.eqb_spec (length vs) c) as [LV|]; [|contradiction].
    apply nm_tuple. apply (spread_some ways); auto using nm_wild. intros p v J U. apply IH; [|exact (proj1 (forallb_forall _ _) R2 _ J)|exact U]. pose proof (sum_in psize ps p J). lia.
  - cbn [psize regular ways] in L, R, W. assert (X : exists p, In p ps /\ ways p v <> []).
    { clear -W. induction ps as [|p ps IH]; [contradiction|]. cbn in W. destruct (ways p v) as [|e es] eqn:E; [destruct (IH W) as (q & ? & ?); exists q; cbn; auto|]. exists p. rewrite E. split; [cbn; auto|discriminate]. }
    destruct X as (p & J & U). apply (nm_or t (map from_pat ps) (from_pat p)); [apply in_map, J|]. apply IH; [|exact (proj1 (forallb_forall _ _) R _ J)|exact U]. pose proof (sum_in psize ps p J). lia.
  - cbn in R, W. apply andb_prop in R. destruct R as [R1 R2]. apply res_eqb_eq in R1. subst res. destruct v as [| | | | |l vs]; try contradiction. destruct (Nat.eqb_spec k l) as [<-|]; [|contradiction].
    constructor. destruct (t_shape t k); congruence.
  - discriminate R.
  - destruct l as [z|u|b|s|s]; cbn in W; [| | | |].
    + destruct v; try contradiction. apply when_some, Z.eqb_eq in W. subst. constructor.
    + constructor.
    + destruct v; try contradiction. apply when_some, Bool.eqb_prop in W. subst. constructor.
    + destruct v; try contradiction. apply when_some, Nat.eqb_eq in W. subst. constructor.
    + apply when_some in W. apply ints_eqb in W. subst. constructor.
  - cbn in R, W. destruct v as [z| | | | |]; try contradiction. apply when_some in W. apply andb_prop in W. destruct W as [W W4]. apply andb_prop in W. destruct W as [W W3]. apply andb_prop in W. destruct W as [W1 W2].
    apply andb_prop in R. destruct R as [R1 R2]. apply Z.leb_le in W1, W2, R2.
    destruct lo as [[s|s]|]; destruct hi as [[e|e]|]; cbn in *; try apply nm_wild; constructor; split; try apply Z.leb_le; auto; try lia; try (apply Z.leb_le in R1; lia);
      destruct i; first [apply Z.leb_le; exact W4|apply Z.ltb_lt; exact W4|idtac].
  - cbn [psize regular ways] in L, R, W. apply andb_prop in R. destruct R as [R R3]. apply andb_prop in R. destruct R as [R1 R2]. destruct v as [| | | |vs|]; try contradiction.
    destruct (Nat.ltb_spec (length vs) (length front + length back)) as [|LE]; [contradiction|]. apply pairs_some in W. destruct W as [W1 W]. apply pairs_some in W. destruct W as [W2 W3].
    apply each_some in W1, W3. apply LIST in W1; [|lia|exact R1]. apply LIST in W3; [|lia|exact R2].
    set (inner := firstn (length vs - length front - length back) (skipn (length front) vs)) in *.
    assert (E : vs = firstn (length front) vs ++ inner ++ skipn (length vs - length back) vs).
    { rewrite <- (firstn_skipn (length front) vs) at 1. f_equal. rewrite <- (firstn_skipn (length vs - length front - length back) (skipn (length front) vs)) at 1. fold inner. f_equal.
      rewrite skipn_twice. f_equal. lia. }
    destruct mid as [m|].
    + rewrite E. apply nm_slice; assumption.
    + destruct inner; [|contradiction]. destruct back; [|discriminate R3]. cbn [app map length] in *. rewrite (skipn_all2 vs) in E by lia. rewrite app_nil_r in E. rewrite E. constructor. exact W1.
Qed.

(** ** A pattern that binds nothing *)
Lemma pairs_nil a b : (forall w, In w a -> w = []) -> (forall w, In w b -> w = []) -> forall w : env, In w (pairs a b) -> w = [].
Proof. intros A C w J. unfold pairs in J. apply in_flat_map in J. destruct J as (x & Jx & J). apply in_map_iff in J. destruct J as (y & <- & Jy). rewrite (A x Jx), (C y Jy). reflexivity. Qed.
Lemma when_nil b : forall w : env, In w (when b) -> w = [].
Proof. destruct b; cbn; intros w []; [auto|contradiction]. Qed.
Lemma flat_none {A C} (f : A -> list C) l : flat_map f l = [] -> forall x, In x l -> f x = [].
Proof. intros H x J. destruct (f x) as [|y ys] eqn:E; [reflexivity|]. assert (K : In y (flat_map f l)) by (apply in_flat_map; exists x; rewrite E; cbn; auto). rewrite H in K. destruct K. Qed.
Lemma unbound n : forall p v w, psize p <= n -> binders p = [] -> In w (ways p v) -> w = [].
Proof.
  induction n as [|n IH]; intros p v w L B W; [destruct p as [| |? [|]| | | | | | | | |]; cbn in L; lia|].
  assert (SUM : forall ps q, In q ps -> list_sum (map psize ps) <= n -> flat_map binders ps = [] -> psize q <= n /\ binders q = []).
  { intros ps q J LE F. split; [pose proof (sum_in psize ps q J); lia|exact (flat_none _ _ F q J)]. }
  assert (EACH : forall ps vs, list_sum (map psize ps) <= n -> flat_map binders ps = [] -> forall w, In w (each ways ps vs) -> w = []).
  { intros ps vs LE F. assert (H : forall q u w, In q ps -> In w (ways q u) -> w = []) by (intros q u w' J; destruct (SUM ps q J LE F); apply IH; assumption). clear LE F.
    revert vs. induction ps as [|q ps IHp]; intros [|u vs] w' J; cbn in J; try contradiction; [destruct J as [J|[]]; auto|].
    revert w' J. apply pairs_nil; [intros w'; apply H; left; reflexivity|]. intros w'. apply IHp. intros q' u' w0 J. apply H. right. exact J. }
  assert (SOME : forall dd ps i vs, list_sum (map psize ps) <= n -> flat_map binders ps = [] -> forall w, In w (some ways dd i ps vs) -> w = []).
  { intros dd ps i vs LE F. assert (H : forall q u w, In q ps -> In w (ways q u) -> w = []) by (intros q u w' J; destruct (SUM ps q J LE F); apply IH; assumption). clear LE F.
    revert i vs. induction ps as [|q ps IHp]; intros i vs w' J; cbn [some] in J; set (us := match dd with Some _ => _ | None => _ end) in J; clearbody us; destruct us as [|u us]; try contradiction; [destruct J as [J|[]]; auto|].
    revert w' J. apply pairs_nil; [intros w'; apply H; left; reflexivity|]. intros w'. apply IHp. intros q' u' w0 J. apply H. right. exact J. }
  destruct p as [| |x [p|]|p|res k fs|res k e c ps dd|c ps dd|ps|res [k|c]|l|a b lo hi i|front mid back]; cbn [psize binders ways] in L, B, W; try discriminate B.
  - destruct W as [W|[]]; auto.
  - destruct W.
  - apply (IH p v); [lia|exact B|exact W].
  - destruct v as [| | | | |l vs]; try contradiction. destruct (k =? l); [|contradiction].
    assert (H : forall x q u w, In (x, q) fs -> In w (ways q u) -> w = []).
    { intros x q u w' J. apply IH; [pose proof (sum_in (fun f => psize (snd f)) fs _ J) as Q; cbn in Q; lia|exact (flat_none _ _ B (x, q) J)]. }
    clear L B. revert w W. induction fs as [|[x q] fs IHf]; intros w W; cbn in W; [destruct W as [W|[]]; auto|]. destruct (field x vs) as [u|]; [|contradiction].
    revert w W. apply pairs_nil; [intros w'; apply (H x); left; reflexivity|]. apply IHf. intros y q' u' w0 J. apply (H y). right. exact J.
  - destruct v as [| | | | |l vs]; try contradiction. destruct (_ && _); [|contradiction]. revert w W. apply SOME; [lia|exact B].
  - destruct v as [| | |vs| |]; try contradiction. destruct (_ =? _); [|contradiction]. revert w W. apply SOME; [lia|exact B].
  - apply in_flat_map in W. destruct W as (q & J & W). destruct (SUM ps q J ltac:(lia) B). eapply IH; eauto.
  - destruct v; try contradiction. exact (when_nil _ _ W).
  - exact (when_nil _ _ W).
  - destruct l; try destruct v; try contradiction; exact (when_nil _ _ W).
  - destruct v; try contradiction. exact (when_nil _ _ W).
  - destruct v as [| | | |vs|]; try contradiction. destruct (_ <? _); [contradiction|]. apply app_eq_nil in B. destruct B as [B1 B]. apply app_eq_nil in B. destruct B as [B2 B3].
    revert w W. apply pairs_nil; [apply EACH; [lia|exact B1]|]. apply pairs_nil; [|apply EACH; [lia|exact B3]]. intros w W.
    destruct mid as [[m|]|]; [eapply (IH m); [lia|exact B2|exact W]|destruct W as [W|[]]; auto|]. destruct (firstn _ _); [destruct W as [W|[]]; auto|contradiction].
Qed.
