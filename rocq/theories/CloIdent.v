(** Identity functions: proofs. *)
From Verif Require Export CloKeep.

(** ** Spec: a pattern binds no variable twice; the patterns of `let`, and no `let … else` among them. *)
Definition once (p : pat) : Prop := forall v bs, match_pat p v = Some bs -> NoDup (map fst bs).
Fixpoint let_pats (e : expr) {struct e} : list pat :=
  match e with
  | ERet (Some a) => let_pats a
  | EBlock _ ss t =>
      flat_map (fun s => match s with
                         | SLet p _ _ => [p]
                         | SExpr a | SSemi a => let_pats a
                         end) ss ++ match t with Some a => let_pats a | None => [] end
  | _ => []
  end.
Fixpoint no_let_else (e : expr) {struct e} : Prop :=
  match e with
  | ERet (Some a) => no_let_else a
  | EBlock _ ss t =>
      fold_right (fun s P => match s with
                             | SLet _ _ b => b = None
                             | SExpr a | SSemi a => no_let_else a
                             end /\ P) True ss /\ match t with Some a => no_let_else a | None => True end
  | _ => True
  end.

Definition OptP (P : pat -> Prop) (o : option pat) : Prop := match o with Some q => P q | None => True end.
Section PatInd.
  Variable P : pat -> Prop.
  Hypothesis Hwild : P PWild.
  Hypothesis Hbind : forall r x, P (PBind r x None).
  Hypothesis Hbinds : forall r x q, P q -> P (PBind r x (Some q)).
  Hypothesis Hdata : forall k ps d, Forall P ps -> P (PData k ps d).
  Hypothesis Hslice : forall b m a, Forall P b -> OptP P m -> Forall P a -> P (PSlice b m a).
  Hypothesis Hstruct : forall c fs r, Forall (fun x => P (snd x)) fs -> P (PStruct c fs r).
  Hypothesis Hlit : forall z, P (PLit z).
  Hypothesis Hb : forall b, P (PBool b).
  Hypothesis Href : forall p, P p -> P (PRef p).
  Fixpoint pat_ind' (p : pat) : P p :=
    let fix go (ps : list pat) : Forall P ps :=
      match ps with [] => Forall_nil _ | p :: ps => Forall_cons _ (pat_ind' p) (go ps) end in
    match p with
    | PWild => Hwild
    | PBind r x None => Hbind r x
    | PBind r x (Some q) => Hbinds r x q (pat_ind' q)
    | PData k ps d => Hdata k ps d (go ps)
    | PSlice b m a => Hslice b m a (go b) (match m return OptP P m with Some q => pat_ind' q | None => I end) (go a)
    | PStruct c fs r =>
        Hstruct c fs r ((fix each (fs : list (nat * pat)) : Forall (fun x => P (snd x)) fs :=
          match fs with [] => Forall_nil _ | (i, p) :: fs => Forall_cons (i, p) (pat_ind' p) (each fs) end) fs)
    | PLit z => Hlit z
    | PBool b => Hb b
    | PRef p => Href p (pat_ind' p)
    end.
End PatInd.

Fixpoint match_all (ps : list pat) (vs : list val) {struct ps} : option (list binding) :=
  match ps, vs with
  | [], [] => Some []
  | p :: ps, v :: vs =>
      match match_pat p v, match_all ps vs with Some a, Some b => Some (a ++ b) | _, _ => None end
  | _, _ => None
  end.
Fixpoint over_all (ps : list pat) (es : list expr) {struct ps} : bool :=
  match ps, es with
  | [], [] => true
  | p :: ps, e :: es => identity_of_pat p e && over_all ps es
  | _, _ => false
  end.
Definition match_fields (vs : list val) := fix fields (fs : list (nat * pat)) : option (list binding) :=
  match fs with
  | [] => Some []
  | (i, p) :: fs =>
      match nth_error vs i with
      | Some v => match match_pat p v, fields fs with Some a, Some b => Some (a ++ b) | _, _ => None end
      | None => None
      end
  end.
Definition over_fields (es : list (nat * expr)) := fix each (fs : list (nat * pat)) : bool :=
  match fs with
  | [] => true
  | (i, p) :: fs => existsb (fun x => match x with (j, e) => Nat.eqb i j && identity_of_pat p e end) es && each fs
  end.

Lemma match_data : forall k ps k' vs, match_pat (PData k ps None) (VData k' vs) = if kind_eqb k k' then match_all ps vs else None.
Proof. reflexivity. Qed.
Lemma match_slice : forall b a vs, match_pat (PSlice b None a) (VData KArr vs) =
  match match_all b (firstn (length b) vs), match_all a (skipn (length b) vs) with Some x, Some y => Some (x ++ y) | _, _ => None end.
Proof. reflexivity. Qed.
Lemma match_struct : forall c fs rest c' vs, match_pat (PStruct c fs rest) (VData (KCtor c') vs) =
  if Nat.eqb c c' && nodupb (map fst fs) && (rest || Nat.eqb (length fs) (length vs)) then match_fields vs fs else None.
Proof. reflexivity. Qed.
Lemma bind_all_eq : forall ps vs, bind_all ps vs = match_all ps vs.
Proof. reflexivity. Qed.
Lemma bind_one : forall p v, bind_all [p] [v] = match_pat p v.
Proof. intros. rewrite bind_all_eq. cbn. destruct (match_pat p v); auto. rewrite app_nil_r. auto. Qed.

Lemma nodupb_spec : forall l, nodupb l = true <-> NoDup l.
Proof.
  induction l; cbn; [split; intros; auto; constructor|]. rewrite andb_true_iff, IHl, negb_true_iff. split.
  - intros [A B]. constructor; auto. intros I. rewrite existsb_false in A. specialize (A _ I). rewrite Nat.eqb_refl in A. discriminate.
  - intros H. inversion H; subst. split; auto. apply existsb_false. intros b I. apply Nat.eqb_neq. intros ->. auto.
Qed.
Lemma kind_eqb_spec : forall a b, kind_eqb a b = true -> a = b.
Proof. intros [] []; cbn; intros H; try discriminate; auto. apply Nat.eqb_eq in H. congruence. Qed.

Section Ident.
  Variable w : world.
  Variable fuel : nat.
  Notation st := (state w).
  Notation ev := (eval w fuel).

  Definition visible (bs : list binding) (s : st) : Prop := forall x u, In (x, u) bs -> lookup x (fst s) = Some u.
  Definition idp (p : pat) : Prop := forall e v bs s, identity_of_pat p e = true -> match_pat p v = Some bs -> visible bs s ->
    ev e s = (OVal v, s).

  Lemma visible_app : forall a b s, visible (a ++ b) s <-> visible a s /\ visible b s.
  Proof.
    intros; unfold visible; split.
    - intros H; split; intros x u I; apply H, in_or_app; auto.
    - intros [A B] x u I. apply in_app_or in I. destruct I; auto.
  Qed.
  Lemma over_evals : forall ps, Forall idp ps -> forall es vs bs s, over_all ps es = true -> match_all ps vs = Some bs ->
    visible bs s -> forall k, evals w fuel es s k = k vs s.
  Proof.
    induction 1 as [|p ps A _ IH]; intros [|e es] [|v vs] bs s O M V k; cbn in *; try discriminate; auto.
    apply andb_true_iff in O. destruct O as [O1 O2].
    destruct (match_pat p v) as [b1|] eqn:M1; [|discriminate]. destruct (match_all ps vs) as [b2|] eqn:M2; [|discriminate].
    inversion M; subst. apply visible_app in V. destruct V. rewrite (A _ _ _ _ O1 M1) by auto. cbn.
    erewrite IH by eauto. reflexivity.
  Qed.
  Lemma evals_app : forall es es' s k, evals w fuel (es ++ es') s k = evals w fuel es s (fun vs s => evals w fuel es' s (fun us s => k (vs ++ us) s)).
  Proof.
    induction es; cbn; intros; auto.
    destruct (ev a s) as [o t]; destruct o; cbn; auto. rewrite IHes. reflexivity.
  Qed.
  Lemma match_fields_in : forall vs fs bs, match_fields vs fs = Some bs -> forall i p, In (i, p) fs ->
    exists v a, nth_error vs i = Some v /\ match_pat p v = Some a /\ incl a bs.
  Proof.
    intros vs; induction fs as [|[i p] fs IH]; cbn; intros bs H j q I; [tauto|].
    destruct (nth_error vs i) as [v|] eqn:N; [|discriminate]. destruct (match_pat p v) as [a|] eqn:M; [|discriminate].
    destruct (match_fields vs fs) as [b|] eqn:F; [|discriminate]. inversion H; subst. destruct I as [I|I].
    - inversion I; subst. exists v, a. repeat split; auto. apply incl_appl, incl_refl.
    - destruct (IH _ eq_refl _ _ I) as (v' & a' & ? & ? & ?). exists v', a'. repeat split; auto. apply incl_appr; auto.
  Qed.
  Lemma over_fields_in : forall es fs, over_fields es fs = true -> forall i p, In (i, p) fs ->
    exists e, In (i, e) es /\ identity_of_pat p e = true.
  Proof.
    intros es; induction fs as [|[i p] fs IH]; cbn; intros H j q I; [tauto|]. apply andb_true_iff in H. destruct H as [A B].
    destruct I as [I|I]; auto. inversion I; subst. apply existsb_exists in A. destruct A as ([j' e] & J & A).
    apply andb_true_iff in A. destruct A as [A1 A2]. apply Nat.eqb_eq in A1. subst. eauto.
  Qed.
  Lemma efields_all : forall es s f, (forall i e, In (i, e) es -> ev e s = (OVal (f i), s)) ->
    forall k, efields w fuel es s k = k (map (fun x => (fst x, f (fst x))) es) s.
  Proof.
    induction es as [|[i e] es IH]; cbn; intros s f H k; auto. rewrite (H i e) by auto. cbn. rewrite (IH s f) by auto. reflexivity.
  Qed.
  Lemma field_map : forall (f : nat -> val) l i, In i l -> field i (map (fun i => (i, f i)) l) = Some (f i).
  Proof.
    induction l; cbn; intros i I; [tauto|]. destruct (Nat.eqb_spec i a); [subst; auto|]. destruct I; [congruence|auto].
  Qed.
  Lemma sequence_some : forall {A} (l : list A), sequence (map Some l) = Some l.
  Proof. induction l; cbn; auto. rewrite IHl. reflexivity. Qed.
  Lemma nth_seq : forall (vs : list val) d, map (fun i => nth i vs d) (seq 0 (length vs)) = vs.
  Proof.
    intros vs d. apply (nth_ext _ _ d d); [rewrite map_length, seq_length; auto|].
    intros n H. rewrite map_length, seq_length in H.
    rewrite (nth_indep _ d ((fun i => nth i vs d) 0)) by (rewrite map_length, seq_length; auto).
    rewrite (map_nth (fun i => nth i vs d)), seq_nth by auto. reflexivity.
  Qed.

  Lemma ident_pat : forall p, idp p.
  Proof.
    induction p using pat_ind'; unfold idp; intros e v bs s I M V.
    - destruct e; discriminate.
    - destruct e; try discriminate. cbn in I. apply andb_true_iff in I. destruct I as [I A].
      apply andb_true_iff in I. destruct I as [R X]. apply Nat.eqb_eq in X. apply negb_true_iff in A, R. subst.
      cbn in M. inversion M; subst. cbn. rewrite (V x0 v) by (left; auto). reflexivity.
    - destruct e; try discriminate. cbn in I. apply andb_true_iff in I. destruct I as [I A].
      apply andb_true_iff in I. destruct I as [R X]. apply Nat.eqb_eq in X. apply negb_true_iff in A, R. subst.
      cbn in M. destruct (match_pat p v); inversion M; subst. cbn. rewrite (V x0 v) by (left; auto). reflexivity.
    - destruct d as [d|]; [destruct k; [| |destruct ps]; destruct e; discriminate|].
      destruct v as [| |k' vs| |]; try discriminate. rewrite match_data in M.
      destruct (kind_eqb k k') eqn:E; [|discriminate]. apply kind_eqb_spec in E. subst k'.
      destruct k as [| |c].
      + destruct e as [| | |[] es| | | | | | | | | | | | | | | | |]; try discriminate.
        change (over_all ps es = true) in I. rewrite eval_data. erewrite over_evals by eauto. reflexivity.
      + destruct e; discriminate.
      + destruct ps as [|p ps]; [destruct e; discriminate|].
        destruct e as [| | |[| |d] [|e es]| | | | | | | | | | | | | | | | |]; try discriminate.
        change (Nat.eqb c d && over_all (p :: ps) (e :: es) = true) in I. apply andb_true_iff in I. destruct I as [I1 I2].
        apply Nat.eqb_eq in I1. subst. rewrite eval_data. erewrite over_evals by eauto. reflexivity.
    - destruct m as [m|]; [destruct e; discriminate|]. destruct v as [| |[] vs| |]; try discriminate.
      destruct e as [| | |[] es| | | | | | | | | | | | | | | | |]; try discriminate.
      change (over_all b (firstn (length b) es) && over_all a (skipn (length b) es) = true) in I.
      apply andb_true_iff in I. destruct I as [I1 I2]. rewrite match_slice in M.
      destruct (match_all b (firstn (length b) vs)) as [b1|] eqn:M1; [|discriminate].
      destruct (match_all a (skipn (length b) vs)) as [b2|] eqn:M2; [|discriminate]. inversion M; subst.
      apply visible_app in V. destruct V. rewrite eval_data. rewrite <- (firstn_skipn (length b) es), evals_app.
      erewrite (over_evals b) by eauto. erewrite (over_evals a) by eauto. rewrite firstn_skipn. reflexivity.
    - destruct r; [destruct e; discriminate|]. destruct e as [| | | |d es| | | | | | | | | | | | | | | |]; try discriminate.
      change (Nat.eqb (length fs) (length es) && Nat.eqb c d && over_fields es fs = true) in I.
      apply andb_true_iff in I. destruct I as [I O]. apply andb_true_iff in I. destruct I as [L C].
      apply Nat.eqb_eq in L, C. subst d. destruct v as [| |[| |c'] vs| |]; try discriminate. rewrite match_struct in M.
      destruct (Nat.eqb c c' && nodupb (map fst fs) && (false || Nat.eqb (length fs) (length vs))) eqn:E; [|discriminate].
      apply andb_true_iff in E. destruct E as [E E3]. apply andb_true_iff in E. destruct E as [E1 E2].
      apply Nat.eqb_eq in E1. cbn in E3. apply Nat.eqb_eq in E3. subst c'. apply nodupb_spec in E2.
      assert (IN : incl (map fst fs) (map fst es)).
      { intros i J. apply in_map_iff in J. destruct J as ([i' p] & <- & J). destruct (over_fields_in _ _ O _ _ J) as (e & Q & _).
        apply in_map_iff. exists (i', e). auto. }
      assert (ND : NoDup (map fst es)).
      { refine (NoDup_incl_NoDup E2 _ IN). rewrite !map_length. lia. }
      assert (IN' : incl (map fst es) (map fst fs)).
      { apply NoDup_length_incl; auto. rewrite !map_length. lia. }
      assert (EV : forall i e, In (i, e) es -> i < length vs /\ ev e s = (OVal (nth i vs unit_v), s)).
      { intros i e J. assert (J' : In i (map fst fs)) by (apply IN', in_map_iff; exists (i, e); auto).
        apply in_map_iff in J'. destruct J' as ([i' p] & F & J'). cbn in F. subst i'.
        destruct (over_fields_in _ _ O _ _ J') as (e' & Q & ID).
        assert (e' = e).
        { clear - ND J Q. induction es as [|[k x] es IH]; [destruct J|]. cbn in ND. inversion ND; subst.
          assert (NN : forall y, ~ (In (i, y) es /\ k = i)).
          { intros y [A B]. apply H1. subst. apply in_map_iff. exists (i, y). auto. }
          destruct J as [J|J], Q as [Q|Q].
          - congruence.
          - inversion J; subst. destruct (NN e'); auto.
          - inversion Q; subst. destruct (NN e); auto.
          - auto. }
        subst e'. destruct (match_fields_in _ _ _ M _ _ J') as (u & a & N & MP & INC).
        assert (LT : i < length vs) by (apply nth_error_Some; congruence). split; auto.
        rewrite (nth_error_nth vs i unit_v N).
        rewrite Forall_forall in H. eapply (H _ J'); eauto. intros x y Z. apply V, INC, Z. }
      rewrite eval_struct, (efields_all es s (fun i => nth i vs unit_v)) by (intros i e J; apply EV; auto).
      unfold build. rewrite map_map. cbn [fst]. change (map (fun x => fst x) es) with (map fst es).
      assert (nodupb (map fst es) = true) as -> by (apply nodupb_spec; auto). rewrite map_length.
      assert (LE : length es = length vs) by congruence.
      assert (S : map (fun i => field i (map (fun x => (fst x, nth (fst x) vs unit_v)) es)) (seq 0 (length es)) = map Some vs).
      { transitivity (map Some (map (fun i => nth i vs unit_v) (seq 0 (length vs)))); [|rewrite nth_seq; reflexivity].
        rewrite map_map. rewrite LE. apply map_ext_in. intros i J.
        assert (J' : In i (map fst es)).
        { assert (P : incl (seq 0 (length vs)) (map fst es)).
          { apply NoDup_length_incl; auto; [rewrite map_length, seq_length; lia|].
            intros j Q. apply in_map_iff in Q. destruct Q as ([j' e] & <- & Q). apply in_seq. cbn. destruct (EV _ _ Q). lia. }
          apply P, J. }
        replace (map (fun x => (fst x, nth (fst x) vs unit_v)) es) with (map (fun i => (i, nth i vs unit_v)) (map fst es))
          by (rewrite map_map; reflexivity).
        rewrite (field_map (fun i => nth i vs unit_v)); auto. }
      rewrite S, sequence_some. reflexivity.
    - destruct e; discriminate.
    - destruct e; discriminate.
    - destruct e; discriminate.
  Qed.

  Lemma visible_enter : forall bs (s : st), NoDup (map fst bs) -> visible bs (enter bs s).
  Proof.
    intros bs s H x u I. cbn. induction bs as [|[y v] bs IH]; [destruct I|]. cbn in *. inversion H; subst.
    destruct I as [I|I].
    - inversion I; subst. rewrite Nat.eqb_refl. auto.
    - destruct (Nat.eqb_spec x y); auto. subst. exfalso. apply H2. apply in_map_iff. exists (y, u). auto.
  Qed.
  Definition returns (v : val) (s : st) (r : out * st) : Prop := fst r = OStuck \/ r = (OVal v, s) \/ r = (ORet v, s).

  Definition idb (e : expr) : Prop := forall p v bs s, body_identity p e = true -> match_pat p v = Some bs -> once p ->
    Forall once (let_pats e) -> no_let_else e -> visible bs s -> returns v s (ev e s).
  Definition go_id (t : option expr) := fix go (p : pat) (ss : list stmt) {struct ss} : bool :=
    match ss, t with
    | [], Some a => body_identity p a
    | [], None => false
    | [SExpr (ERet (Some a))], None | [SSemi (ERet (Some a))], None => body_identity p a
    | SLet q (Some i) _ :: ss, _ => identity_of_pat p i && go q ss
    | _, _ => false
    end.
  Lemma plain_id : forall e, (forall p, body_identity p e = identity_of_pat p e) -> idb e.
  Proof. intros e H p v bs s I M _ _ _ V. right; left. rewrite H in I. eapply ident_pat; eauto. Qed.
  Lemma ret_id : forall a, idb a -> idb (ERet (Some a)).
  Proof.
    intros a H p v bs s I M O1 O2 N V. cbn in I, N, O2. rewrite eval_ret. cbn.
    destruct (H _ _ _ s I M O1 O2 N V) as [E|[E|E]]; destruct (ev a s) as [o t]; cbn in *; subst.
    - left; auto.
    - inversion E; subst. right; right. auto.
    - inversion E; subst. right; right. auto.
  Qed.
  Lemma stmts_id : forall t ss, Forall (StmtP idb) ss -> Opt idb t ->
    forall p v bs s, go_id t p ss = true -> match_pat p v = Some bs -> once p ->
    Forall once (let_pats (EBlock None ss t)) -> no_let_else (EBlock None ss t) -> visible bs s ->
    fst (estmts w fuel t ss s) = OStuck \/
    exists pre, estmts w fuel t ss s = (OVal v, enter pre s) \/ estmts w fuel t ss s = (ORet v, enter pre s).
  Proof.
    intros t ss H Ht; induction H as [|x ss A _ IH]; intros p v bs s I M O1 O2 N V.
    - destruct t as [a|]; [|discriminate]. cbn in *. destruct N as [_ N].
      destruct (Ht _ _ _ s I M O1 O2 N V) as [E|E]; auto. right. exists []. destruct s; exact E.
    - destruct x as [q [i|] b|e|e].
      + cbn [go_id] in I. assert (I' : identity_of_pat p i && go_id t q ss = true) by (destruct t; exact I).
        apply andb_true_iff in I'. destruct I' as [I1 I2]. cbn [estmts].
        rewrite (ident_pat p i v bs s I1 M V). cbn [andthen]. cbn in N. destruct N as [[N1 N2] N3]. subst b.
        destruct (match_pat q v) as [bq|] eqn:Q; [|left; reflexivity].
        cbn in O2. inversion O2; subst.
        destruct (IH q v bq (enter bq s) I2 Q H1) as [E|(pre & E)]; auto.
        * split; assumption.
        * apply visible_enter. eapply H1; eauto.
        * right. exists (pre ++ bq). unfold enter in *. cbn in *. rewrite <- app_assoc. exact E.
      + cbn in I. destruct t; discriminate.
      + cbn in I. assert (exists a, e = ERet (Some a) /\ ss = [] /\ t = None /\ body_identity p a = true) as (a & -> & -> & -> & B).
        { destruct t; [destruct e as [| | | | | | | | | | | | | | | |[a|]| | | |]; destruct ss; discriminate|].
          destruct e as [| | | | | | | | | | | | | | | |[a|]| | | |]; destruct ss; try discriminate. exists a. auto. }
        cbn in A, N, O2. destruct N as [[N _] _]. rewrite app_nil_r in O2. rewrite app_nil_r in O2.
        destruct (A p v bs s B M O1 O2 N V) as [E|[E|E]]; cbn [estmts]; destruct (ev (ERet (Some a)) s) as [o s'] eqn:R; cbn in E; subst.
        * left; reflexivity.
        * exfalso. rewrite eval_ret in R. cbn in R. destruct (ev a s) as [o2 s2]; destruct o2; cbn in R; inversion E; subst; discriminate.
        * right. exists []. right. inversion E; subst. destruct s. reflexivity.
      + cbn in I. assert (exists a, e = ERet (Some a) /\ ss = [] /\ t = None /\ body_identity p a = true) as (a & -> & -> & -> & B).
        { destruct t; [destruct e as [| | | | | | | | | | | | | | | |[a|]| | | |]; destruct ss; discriminate|].
          destruct e as [| | | | | | | | | | | | | | | |[a|]| | | |]; destruct ss; try discriminate. exists a. auto. }
        cbn in A, N, O2. destruct N as [[N _] _]. rewrite app_nil_r in O2. rewrite app_nil_r in O2.
        destruct (A p v bs s B M O1 O2 N V) as [E|[E|E]]; cbn [estmts]; destruct (ev (ERet (Some a)) s) as [o s'] eqn:R; cbn in E; subst.
        * left; reflexivity.
        * exfalso. rewrite eval_ret in R. cbn in R. destruct (ev a s) as [o2 s2]; destruct o2; cbn in R; inversion E; subst; discriminate.
        * right. exists []. right. inversion E; subst. destruct s. reflexivity.
  Qed.
  Theorem body_ident : forall e, idb e.
  Proof.
    induction e using expr_ind'; try (apply plain_id; reflexivity).
    - intros p v bs s I M O1 O2 N V. rewrite eval_block.
      destruct (stmts_id t ss H H0 p v bs s I M O1 O2 N V) as [E|(pre & [E|E])];
        destruct (estmts w fuel t ss s) as [o s']; cbn in E; subst.
      + left; reflexivity.
      + inversion E; subst. right; left. cbn [unlabel]. rewrite leave_enter. reflexivity.
      + inversion E; subst. right; right. cbn [unlabel]. rewrite leave_enter. reflexivity.
    - destruct o as [a|]; [apply ret_id; auto|apply plain_id; reflexivity].
  Qed.

  (** A function taken for the identity is. *)
  Definition plain_closure (a : arg) : Prop :=
    match a with AC [p] b => once p /\ Forall once (let_pats b) /\ no_let_else b | _ => True end.
  Theorem identity_apply : forall a v s, identity_function a = true -> plain_closure a ->
    fst (apply w fuel a [v] s) <> OStuck -> apply w fuel a [v] s = (OVal v, s).
  Proof.
    intros a v s H P N. destruct a as [e|[|p [|]] b|[]]; try discriminate.
    - destruct P as (O1 & O2 & NE). cbn [identity_function] in H. cbn [apply] in *. rewrite bind_one in *.
      destruct (match_pat p v) as [bs|] eqn:M; [|destruct (N eq_refl)].
      destruct (body_ident b p v bs (enter bs s) H M O1 O2 NE) as [E|[E|E]].
      + apply visible_enter. eapply O1; eauto.
      + destruct (ev b (enter bs s)) as [o s']; cbn in *. subst. destruct (N eq_refl).
      + rewrite E. rewrite leave_enter. reflexivity.
      + rewrite E. rewrite leave_enter. reflexivity.
    - reflexivity.
  Qed.
End Ident.
