(** A prefix or suffix tested and then cut off by its length. *)
From Verif Require Export StrReplace.

(** Whether [x] is assigned anywhere, whether it occurs at all, and whether there is a slice to an included end. *)
Fixpoint assigned (x : nat) (e : ex) : bool :=
  match e with
  | XVar _ _ | XLit _ => false
  | XNext y => Nat.eqb x y
  | XCall _ _ es | XOp _ es => existsb (assigned x) es
  | XPred _ pre _ body post => existsb (assigned x) pre || assigned x body || existsb (assigned x) post
  | XTry e => assigned x e
  | XAssign y e => Nat.eqb x y || assigned x e
  | XOr a b | XSeq a b | XLet _ a b | XLet2 _ _ a b => assigned x a || assigned x b
  | XIf c a b | XIfSome _ c a b => assigned x c || assigned x a || assigned x b
  end.
Fixpoint occurs (x : nat) (e : ex) : bool :=
  match e with
  | XLit _ => false
  | XVar y _ | XNext y => Nat.eqb x y
  | XCall _ _ es | XOp _ es => existsb (occurs x) es
  | XPred _ pre c body post => Nat.eqb x c || existsb (occurs x) pre || occurs x body || existsb (occurs x) post
  | XTry e => occurs x e
  | XAssign y e => Nat.eqb x y || occurs x e
  | XOr a b | XSeq a b => occurs x a || occurs x b
  | XLet y a b => Nat.eqb x y || occurs x a || occurs x b
  | XLet2 y z a b => Nat.eqb x y || Nat.eqb x z || occurs x a || occurs x b
  | XIf c a b => occurs x c || occurs x a || occurs x b
  | XIfSome y c a b => Nat.eqb x y || occurs x c || occurs x a || occurs x b
  end.
Fixpoint inclusive (e : ex) : bool :=
  match e with
  | XLit _ | XVar _ _ | XNext _ => false
  | XCall _ _ es => existsb inclusive es
  | XOp o es => match o with OSlice _ _ true => true | _ => existsb inclusive es end
  | XPred _ pre _ body post => existsb inclusive pre || inclusive body || existsb inclusive post
  | XTry e | XAssign _ e => inclusive e
  | XOr a b | XSeq a b | XLet _ a b | XLet2 _ _ a b => inclusive a || inclusive b
  | XIf c a b | XIfSome _ c a b => inclusive c || inclusive a || inclusive b
  end.
Ltac orbs := repeat match goal with H : _ || _ = false |- _ => apply orb_false_elim in H; destruct H end.
Lemma occurs_none x : forall e, occurs x e = false -> uses x e = false /\ assigned x e = false /\ bindings x e = 0.
Proof.
  assert (L : forall es, Forall (fun e => occurs x e = false -> uses x e = false /\ assigned x e = false /\ bindings x e = 0) es -> existsb (occurs x) es = false ->
    existsb (uses x) es = false /\ existsb (assigned x) es = false /\ list_sum (map (bindings x) es) = 0).
  { intros es F. induction F as [|e es He F IH]; intros H; [auto|]. cbn in *. orbs. destruct He as (A & B & C); auto. destruct IH as (A' & B' & C'); auto. unfold list_sum in *. cbn. rewrite A, B, A', B', C, C'. auto. }
  induction e as [y ty|l|f ty es F|o es F|m pre d body post Fp Hb Fq|e He|a b Ha Hb|c a b Hc Ha Hb|y e a b He Ha Hb|y e b He Hb|y z e b He Hb|y e He|a b Ha Hb|y] using ex_ind'; intros H; cbn -[list_sum] in H |- *; auto; orbs;
    repeat match goal with
    | I : Forall _ ?es, J : existsb (occurs x) ?es = false |- _ => destruct (L es I J) as (? & ? & ?); clear J
    | I : occurs x ?e = false -> _, J : occurs x ?e = false |- _ => destruct (I J) as (? & ? & ?); clear I J
    end;
    repeat match goal with E : _ = false |- _ => rewrite E; clear E | E : bindings _ _ = 0 |- _ => rewrite E; clear E | E : list_sum _ = 0 |- _ => rewrite E; clear E end; rewrite ?andb_false_r; auto.
Qed.

(** ** What is cut off *)
Lemma cut_app u : forall r, cut (blen u) (u ++ r) = Some (u, r).
Proof.
  induction u as [|c u IH]; intros r; [destruct r; reflexivity|]. unfold blen, bytes in *. cbn [flat_map app]. rewrite app_length. pose proof (enc_pos c) as P. destruct (length (enc c) + length (flat_map enc u)) as [|n] eqn:E; [lia|]. cbn [cut]. destruct (Nat.ltb_spec (S n) (length (enc c))); [lia|]. replace (S n - length (enc c)) with (length (flat_map enc u)) by lia. rewrite IH. reflexivity.
Qed.
Lemma cut_all u : cut (blen u) u = Some (u, []). Proof. pose proof (cut_app u []) as C. rewrite app_nil_r in C. exact C. Qed.
Lemma blen_app a b : blen (a ++ b) = blen a + blen b. Proof. unfold blen. rewrite bytes_app, app_length. reflexivity. Qed.
Lemma is_prefix_app u : forall x, is_prefix u x = true -> x = u ++ skipn (length u) x.
Proof. induction u as [|c u IH]; intros [|d x] H; try discriminate H; try reflexivity. cbn in H. apply andb_prop in H. destruct H as [A B]. apply N.eqb_eq in A. subst. cbn. f_equal. apply IH, B. Qed.
Lemma after_front_app p u x rest : (p = PStr u \/ exists c, u = [c] /\ p = PSet (one_of [c])) -> after_front p x = Some rest -> x = u ++ rest.
Proof.
  intros [-> |(c & -> & ->)] H; cbn in H.
  - destruct (is_prefix u x) eqn:E; [|discriminate H]. injection H as <-. apply is_prefix_app, E.
  - destruct x as [|d x]; [discriminate H|]. rewrite orb_false_r in H. destruct (N.eqb_spec d c); [|discriminate H]. injection H as <-. subst. reflexivity.
Qed.
Lemma before_back_app p u x rest : (p = PStr u \/ exists c, u = [c] /\ p = PSet (one_of [c])) -> before_back p x = Some rest -> x = rest ++ u.
Proof.
  intros [-> |(c & -> & ->)] H; cbn in H.
  - destruct (is_prefix (rev u) (rev x)) eqn:E; [|discriminate H]. injection H as <-. apply is_prefix_app in E. rewrite rev_length in E. apply (f_equal (@rev chr)) in E. rewrite rev_involutive, rev_app_distr, rev_involutive in E. assert (W : exists w, x = w ++ u) by eauto. clear E. destruct W as [w ->].
    replace (length (w ++ u) - length u) with (length w) by (rewrite app_length; lia). rewrite firstn_app, firstn_all, Nat.sub_diag, firstn_O, app_nil_r. reflexivity.
  - destruct (rev x) as [|d r] eqn:E; [discriminate H|]. rewrite orb_false_r in H. destruct (N.eqb_spec d c); [|discriminate H]. injection H as <-. subst. rewrite <- (rev_involutive x), E. reflexivity.
Qed.

Section Proofs.
  Context (wd : world).
  Notation eval := (eval wd).
  Notation st := (st wd).
  Notation same := (same wd).
  (** The text of the pattern, if its length can be known. *)
  Definition p_text (p : ex) (s : env) : option str :=
    match p with
    | XLit (LStr u) => Some u
    | XLit (LChar c) => Some [c]
    | XVar y TStr => match s y with VStr u => Some u | _ => None end
    | _ => None
    end.
  Definition p_form (p : ex) : Prop := match p with XLit (LStr _) | XLit (LChar _) | XVar _ TStr => True | _ => False end.
  Lemma len_arg_shape e a : len_arg e = Some a -> e = XOp OLen [a] /\ ty_of a = TStr.
  Proof. unfold len_arg. destruct e as [| | |o es| | | | | | | | | |]; try discriminate. destruct o; try discriminate. destruct es as [|b [|]]; try discriminate. destruct (ty_eqb (ty_of b) TStr) eqn:T; [|discriminate]. intros H. injection H as <-. apply ty_eqb_eq in T. auto. Qed.
  Lemma pattern_length p e : eq_pattern_length p e = true -> p_form p /\ forall (s : st) u, p_text p (fst s) = Some u -> eval e s = (OVal (VNum (blen u)), s).
  Proof.
    intros H. assert (C : (exists n, e = XLit (LNum n) /\ constant_length p = Some n) \/ exists a, e = XOp OLen [a] /\ ty_of a = TStr /\ eq_value p a = true).
    { unfold eq_pattern_length in H. destruct e as [| [| | |n|]| | | | | | | | | | | |]; try discriminate H; try (destruct (len_arg _) as [a|] eqn:L; [|discriminate H]; apply len_arg_shape in L; destruct L; eauto).
      destruct (constant_length p) as [m|] eqn:CL; [|discriminate H]. apply Nat.eqb_eq in H. subst. eauto. }
    destruct C as [(n & -> & CL)|(a & -> & T & V)].
    - destruct p as [|[]| | | | | | | | | | | |]; try discriminate CL; injection CL as <-; (split; [exact I|]); intros st0 u U; injection U as <-; [reflexivity|]. cbn. unfold blen. cbn. rewrite app_nil_r. reflexivity.
    - pose proof (eq_value_eq _ _ V). subst a. destruct p as [y ty|[]| |o es| | | | | | | | | |]; try discriminate T; try discriminate V.
      + cbn in T. subst ty. split; [exact I|]. intros st0 u U. cbn in U |- *. destruct (fst st0 y); try discriminate U. injection U as <-. reflexivity.
      + split; [exact I|]. intros st0 u U. injection U as <-. reflexivity.
      + exfalso. destruct o; try discriminate V; destruct es as [|? [|? [|]]]; discriminate.
  Qed.

  Lemma writes_assigned y : forall e, writes y e = true -> assigned y e = true.
  Proof.
    assert (L : forall es, Forall (fun e => writes y e = true -> assigned y e = true) es -> existsb (writes y) es = true -> existsb (assigned y) es = true).
    { intros es F. induction F as [|e es He F IH]; intros H; [discriminate H|]. cbn in *. apply orb_prop in H. destruct H as [H|H]; [rewrite He|rewrite IH, orb_true_r]; auto. }
    induction e as [z ty|l|g ty es F|o es F|m pre d body post Fp Hb Fq|e He|a b Ha Hb|c a b Hc Ha Hb|z e a b He Ha Hb|z e b He Hb|z z' e b He Hb|z e He|a b Ha Hb|z] using ex_ind'; intros H; cbn in H |- *; auto;
      repeat match goal with
      | J : _ || _ = true |- _ => apply orb_prop in J; destruct J as [J|J]
      | J : _ && _ = true |- _ => apply andb_prop in J; destruct J as [? J]
      end;
      repeat match goal with
      | I : writes y ?e = true -> _, J : writes y ?e = true |- _ => rewrite (I J); clear J
      | I : Forall _ ?es, J : existsb (writes y) ?es = true |- _ => rewrite (L es I J); clear J
      end; rewrite ?orb_true_r; auto. rewrite H. auto.
  Qed.
  Section Rewrite.
    Variables (k : strip_kind) (x : nat) (p : ex) (drop : bool) (f : nat).
    Variables (sx u rest : str).
    Hypothesis Parts : match k with Prefix => sx = u ++ rest | Suffix => sx = rest ++ u end.
    Hypothesis NotHidden : hides x p f = false.
    Notation rw := (rewrite k x p drop f).
    Definition good (s : st) : Prop := fst s x = VStr sx /\ p_text p (fst s) = Some u.
    Lemma stripping_value e (s : st) : stripping k x p e = true -> inclusive e = false -> good s -> eval e s = (OVal (VStr rest), s).
    Proof.
      intros H I [GX GP]. unfold stripping in H. destruct e as [| | |o es| | | | | | | | | |]; try discriminate H. destruct o as [| | | | | | | |lo hi incl| | | | | | | | | | | | | | | | | | | | | | | | | | | | | | | | | | | | | | |]; try discriminate H. destruct es as [|[y ty| | | | | | | | | | | | |] r]; try discriminate H.
      destruct incl; [discriminate I|]. apply andb_prop in H. destruct H as [H HR]. apply andb_prop in H. destruct H as [HT HY]. apply Nat.eqb_eq in HY. subst y.
      assert (EX : eval (XVar x ty) s = (OVal (VStr sx), s)) by (cbn; rewrite GX; destruct ty; try discriminate HT; reflexivity).
      destruct k, lo, hi; try discriminate HR.
      - destruct r as [|start [|]]; try discriminate HR. destruct (pattern_length p start HR) as [_ PL]. cbn [StrSpec.eval each]. cbn [StrSpec.eval] in EX. rewrite EX. cbn [bind]. rewrite (PL s u GP). cbn [bind apply bounds]. rewrite Parts. unfold slice_str. rewrite cut_all. destruct (Nat.ltb_spec (blen (u ++ rest)) (blen u)) as [L|_]; [rewrite blen_app in L; lia|]. rewrite cut_app. reflexivity.
      - destruct r as [|[| | |[] rs| | | | | | | | | |] [|]]; try discriminate HR; try (destruct rs as [|? [|? [|]]]; discriminate HR). destruct rs as [|lhs [|rhs [|]]]; try discriminate HR. destruct (len_arg lhs) as [l|] eqn:LA; [|discriminate HR]. apply len_arg_shape in LA. destruct LA as [-> TL]. apply andb_prop in HR. destruct HR as [HL HR].
        destruct l as [y ty'| | | | | | | | | | | | |]; try discriminate HL. cbn in HL. apply Nat.eqb_eq in HL. subst y. cbn in TL. subst ty'. destruct (pattern_length p rhs HR) as [_ PL].
        cbn [StrSpec.eval each]. cbn [StrSpec.eval] in EX. rewrite EX. cbn [bind]. cbn [typed]. rewrite GX. cbn [has_ty bind apply]. rewrite (PL s u GP). cbn [bind apply]. rewrite Parts, blen_app. destruct (Nat.ltb_spec (blen rest + blen u) (blen u)) as [L|_]; [lia|]. cbn [bind apply bounds]. replace (blen rest + blen u - blen u) with (blen rest) by lia. unfold slice_str. rewrite cut_app. destruct rest; reflexivity.
    Qed.
    Definition pre (D : nat -> bool) (s s' : st) : Prop := agree wd D s' s /\ good s /\ fst s' f = VStr rest.
    Definition res0 (D : nat -> bool) (r' r : out * st) : Prop := fst r' = fst r /\ agree wd D (snd r') (snd r) /\ fst (snd r') f = VStr rest.
    Definition res (D : nat -> bool) (r' r : out * st) : Prop := fst r' = fst r /\ pre D (snd r) (snd r').
    (** What is required of an expression. *)
    Definition ok (D : nat -> bool) (n : nat) (r : option (option nat)) : Prop := n = 0 \/ (drop = true /\ D f = true /\ r = Some (Some f) /\ n = 1).
    Definition kept (e : ex) : Prop := writes x e = false /\ forall y, uses y p = true -> writes y e = false.
    Definition req (D : nat -> bool) (e : ex) : Prop :=
      (D f = true -> uses f e = false) /\ ok D (bindings f e) (find_stripping k x p e) /\ assigned f e = false /\ kept e /\ inclusive e = false.
    Lemma kept_good e (s : st) : kept e -> good s -> good (snd (eval e s)).
    Proof.
      intros [KX KP] [GX GP]. split; [rewrite eval_frame; assumption|]. destruct p as [y ty|l| | | | | | | | | | | |]; try exact GP. destruct ty; try exact GP. cbn in *. rewrite eval_frame; [exact GP|]. apply KP. apply Nat.eqb_refl.
    Qed.
    Lemma good_other (s t : st) y : good s -> (forall z, z <> y -> fst t z = fst s z) -> x <> y -> uses y p = false -> good t.
    Proof.
      intros [GX GP] O N U. split; [rewrite O; assumption|]. destruct p as [z ty|l| | | | | | | | | | | |]; try exact GP. destruct ty; try exact GP. cbn in *. rewrite O; [exact GP|]. intros ->. rewrite Nat.eqb_refl in U. discriminate U.
    Qed.
    Lemma res_of e (s : st) D r' : kept e -> good s -> res0 D r' (eval e s) -> res D r' (eval e s).
    Proof. intros K G (A & B & C). split; [exact A|]. split; [exact B|]. split; [|exact C]. apply kept_good; assumption. Qed.
    Lemma bind_res D r' r k1 k2 : res D r' r -> (forall v s s', pre D s s' -> res0 D (k1 v s') (k2 v s)) -> res0 D (bind wd r' k1) (bind wd r k2).
    Proof.
      intros (E & A & G & F) K. destruct r as [o s], r' as [o' s']. cbn in E. subst o'. destruct o; cbn [bind]; try (split; [reflexivity|]; split; assumption). apply K. split; [exact A|]. split; assumption.
    Qed.
    Definition claim (e : ex) : Prop := forall D, (forall z, D z = true -> z = f) -> req D e -> forall s s', pre D s s' -> res D (eval (rw e) s') (eval e s).
    Lemma each_res D es : (forall z, D z = true -> z = f) -> Forall claim es -> Forall (req D) es -> forall k1 k2 s s', pre D s s' -> (forall vs t t', pre D t t' -> res0 D (k1 vs t') (k2 vs t)) ->
      res0 D (each wd eval (map rw es) k1 s') (each wd eval es k2 s).
    Proof.
      intros DF F. induction F as [|e es He F IH]; intros Q k1 k2 s s' P K; cbn [map each]; [apply K, P|]. inversion Q as [|? ? Qe Q']; subst. apply bind_res; [apply He; assumption|]. intros v t t' P'. apply IH; [exact Q'|exact P'|]. intros vs t0 t0' P0. apply K, P0.
    Qed.
    Lemma scoped_res D z v k1 k2 (s s' : st) : (forall z, D z = true -> z = f) -> agree wd D s' s -> z <> f -> fst s' f = VStr rest ->
      (forall t t', agree wd D t' t -> fst t z = v -> (forall y, y <> z -> fst t y = fst s y) -> fst t' f = VStr rest -> res0 D (k1 t') (k2 t)) -> res0 D (scoped wd z v k1 s') (scoped wd z v k2 s).
    Proof.
      intros DF A N F K. unfold scoped. assert (AI : agree wd D (upd (fst s') z v, snd s') (upd (fst s) z v, snd s)). { split; [|apply A]. cbn. intros y Y. unfold upd. destruct (Nat.eqb y z); [reflexivity|apply (proj1 A), Y]. }
      specialize (K (upd (fst s) z v, snd s) (upd (fst s') z v, snd s') AI). cbn [fst] in K. specialize (K (upd_same _ _ _)). specialize (K (fun y Y => upd_other _ _ _ _ Y)). rewrite upd_other in K by congruence. specialize (K F).
      destruct (k1 (upd (fst s') z v, snd s')) as [o1 [e1 w1]], (k2 (upd (fst s) z v, snd s)) as [o2 [e2 w2]]. destruct K as (K1 & [K2 K3] & K4). cbn [fst snd] in *. split; [exact K1|]. split; [split; [|exact K3]|].
      - cbn [fst snd]. intros y Y. unfold upd. destruct (Nat.eqb_spec y z) as [->|]; [apply (proj1 A), Y|apply K2, Y].
      - cbn [fst snd]. rewrite upd_other by congruence. exact K4.
    Qed.
    (** A part that is left as it is. *)
    Lemma left_alone D e (s s' : st) : (forall z, D z = true -> z = f) -> (D f = true -> uses f e = false) -> assigned f e = false -> agree wd D s' s -> fst s' f = VStr rest -> res0 D (eval e s') (eval e s).
    Proof.
      intros DF U AS A F. assert (UN : unused D e) by (intros y Y; pose proof (DF y Y); subst y; apply U, Y). destruct (eval_agree wd e D UN s' s A) as [E B]. split; [exact E|]. split; [exact B|]. rewrite eval_frame; [exact F|]. destruct (writes f e) eqn:W; [apply writes_assigned in W; congruence|reflexivity].
    Qed.
    Lemma bindings_ge : forall e, find_stripping k x p e = Some (Some f) -> 1 <= bindings f e.
    Proof.
      assert (L : forall es, Forall (fun e => find_stripping k x p e = Some (Some f) -> 1 <= bindings f e) es ->
        (fix all (es : list ex) : option (option nat) := match es with [] => None | e :: es => first (find_stripping k x p e) (all es) end) es = Some (Some f) -> 1 <= list_sum (map (bindings f) es)).
      { intros es F. induction F as [|e es He F IH]; intros H; [discriminate H|]. cbn [map]. change (list_sum (bindings f e :: map (bindings f) es)) with (bindings f e + list_sum (map (bindings f) es)). destruct (find_stripping k x p e) eqn:E; cbn [first] in H; [specialize (He H)|specialize (IH H)]; lia. }
      induction e as [y ty|l|g ty es F|o es F|m pre d body post Fp Hb Fq|e He|a b Ha Hb|c a b Hc Ha Hb|y e a b He Ha Hb|y e b He Hb|y z e b He Hb|y e He|a b Ha Hb|y] using ex_ind'; intros H; cbn [find_stripping] in H; cbn [bindings];
        destruct (stripping k x p _); try discriminate H; auto.
      - destruct ((fix all (es : list ex) := _) pre) eqn:E; cbn [first] in H; [specialize (L pre Fp)|specialize (L post Fq)]; rewrite ?E in L; specialize (L H); lia.
      - destruct (find_stripping k x p a); cbn [first] in H; [specialize (Ha H)|specialize (Hb H)]; lia.
      - destruct (find_stripping k x p c); cbn [first] in H; [specialize (Hc H); lia|]. destruct (find_stripping k x p a); cbn [first] in H; [specialize (Ha H)|specialize (Hb H)]; lia.
      - destruct (find_stripping k x p e); cbn [first] in H; [specialize (He H); lia|]. destruct (hides x p y); [cbn [first] in H; specialize (Hb H); lia|]. destruct (find_stripping k x p a); cbn [first] in H; [specialize (Ha H)|specialize (Hb H)]; lia.
      - destruct (stripping k x p e); [injection H as ->; rewrite Nat.eqb_refl; lia|]. destruct (find_stripping k x p e); cbn [first] in H; [specialize (He H); lia|]. destruct (hides x p y); [discriminate H|]. specialize (Hb H). lia.
      - destruct (find_stripping k x p e); cbn [first] in H; [specialize (He H); lia|]. destruct (hides x p y); [discriminate H|]. destruct (hides x p z); [discriminate H|]. specialize (Hb H). lia.
      - destruct (find_stripping k x p a); cbn [first] in H; [specialize (Ha H)|specialize (Hb H)]; lia.
    Qed.
    Lemma ok_first D n m r q : ok D (n + m) (first r q) -> (r = Some (Some f) -> 1 <= n) -> (q = Some (Some f) -> 1 <= m) -> ok D n r /\ ok D m q.
    Proof.
      intros [H|(A & B & C & H)] N M; [unfold ok; split; left; lia|]. destruct r as [v|]; cbn [first] in C; [injection C as ->; specialize (N eq_refl); split; [right|left; lia]|specialize (M C); split; [left; lia|right]]; repeat split; auto; lia.
    Qed.
    Lemma all_ge es : (fix all (es : list ex) : option (option nat) := match es with [] => None | e :: es => first (find_stripping k x p e) (all es) end) es = Some (Some f) -> 1 <= list_sum (map (bindings f) es).
    Proof. induction es as [|e' es IH]; intros E; [discriminate E|]. cbn [map]. change (list_sum (bindings f e' :: map (bindings f) es)) with (bindings f e' + list_sum (map (bindings f) es)). destruct (find_stripping k x p e') eqn:E'; cbn [first] in E; [rewrite E in E'; pose proof (bindings_ge _ E'); lia|specialize (IH E); lia]. Qed.
    Lemma ok_all D es : ok D (list_sum (map (bindings f) es)) ((fix all (es : list ex) : option (option nat) := match es with [] => None | e :: es => first (find_stripping k x p e) (all es) end) es) ->
      Forall (fun e => ok D (bindings f e) (find_stripping k x p e)) es.
    Proof.
      induction es as [|e es IH]; intros H; [constructor|]. cbn [map] in H. change (list_sum (bindings f e :: map (bindings f) es)) with (bindings f e + list_sum (map (bindings f) es)) in H.
      apply ok_first in H; [|apply bindings_ge|apply all_ge]. destruct H. constructor; auto.
    Qed.
    Lemma req_all D es : (D f = true -> existsb (uses f) es = false) -> Forall (fun e => ok D (bindings f e) (find_stripping k x p e)) es -> existsb (assigned f) es = false ->
      existsb (writes x) es = false -> (forall y, uses y p = true -> existsb (writes y) es = false) -> existsb inclusive es = false -> Forall (req D) es.
    Proof.
      intros U O A W P I. induction O as [|e es Oe O IH]; [constructor|]. cbn [existsb] in *. orbs. constructor.
      - split; [intros Y; specialize (U Y); orbs; assumption|]. repeat split; auto. intros y Y. specialize (P y Y). orbs. assumption.
      - apply IH; auto; [intros Y; specialize (U Y); orbs; assumption|]. intros y Y. specialize (P y Y). orbs. assumption.
    Qed.
    Ltac bools := cbn [uses writes assigned inclusive] in *; orbs; try assumption; repeat match goal with H : negb (Nat.eqb ?a ?b) && ?q = false |- ?q = false => destruct (Nat.eqb_spec a b); [exfalso; subst; congruence|exact H] end.
    Ltac kid := split; [let Y := fresh in intros Y; match goal with U : _ = true -> uses f _ = false |- _ => specialize (U Y) end; bools|split; [assumption|split; [bools|split; [split; [bools|let y := fresh in let Y := fresh in intros y Y; match goal with KP : forall y, uses y p = true -> _ |- _ => specialize (KP y Y) end; bools]|bools]]]].
    Lemma claim_all : forall e, claim e.
    Proof.
      induction e as [y ty|l|g ty es F|o es F|m pr d body post Fp Hb Fq|e He|a b Ha Hb|c a b Hc Ha Hb|y e a b He Ha Hb|y e b He Hb|y z e b He Hb|y e He|a b Ha Hb|y] using ex_ind'; intros D DF Q s s' P; pose proof P as (PA & PG & PF); pose proof Q as (U & O & AS & [KX KP] & IN);
        (apply res_of; [split; assumption|assumption|]); match goal with |- res0 _ (eval (rewrite _ _ _ _ _ ?e) _) _ => destruct (stripping k x p e) eqn:SE;
          [rewrite (stripping_value e s SE IN PG); replace (rw e) with (XVar f TStr) by (unfold rewrite; fold rewrite; rewrite SE; reflexivity); cbn; rewrite PF; split; [reflexivity|]; split; assumption|] end;
        cbn [rewrite]; rewrite SE; cbn [find_stripping bindings] in O; rewrite SE in O.
      - apply left_alone; assumption.
      - apply left_alone; assumption.
      - apply ok_all in O. cbn [uses assigned writes inclusive] in *. apply (each_res D es DF F (req_all D es U O AS KX KP IN) _ _ _ _ P).
        intros vs t t' (TA & TG & TF). rewrite (proj2 TA). destruct (call _ _ _ _) as [r w]. split; [reflexivity|]. split; [split; [exact (proj1 TA)|reflexivity]|exact TF].
      - apply ok_all in O. cbn [uses assigned writes inclusive] in *. assert (IN' : existsb inclusive es = false) by (destruct o; auto; destruct incl; [discriminate IN|exact IN]). apply (each_res D es DF F (req_all D es U O AS KX KP IN') _ _ _ _ P).
        intros vs t t' (TA & TG & TF). split; [reflexivity|]. split; assumption.
      - apply ok_first in O; [|apply all_ge|apply all_ge]. destruct O as [O1 O2]. apply ok_all in O1. apply ok_all in O2. cbn [uses assigned writes inclusive] in *. orbs.
        assert (Q1 : Forall (req D) pr). { apply req_all; auto; [intros Y; specialize (U Y); orbs; assumption|]. intros y Y. specialize (KP y Y). orbs. assumption. }
        assert (Q2 : Forall (req D) post). { apply req_all; auto; [intros Y; specialize (U Y); orbs; assumption|]. intros y Y. specialize (KP y Y). orbs. assumption. }
        assert (UB : forall y, D y = true -> negb (Nat.eqb y d) && uses y body = false). { intros y Y. pose proof (DF y Y). subst y. specialize (U Y). orbs. assumption. }
        apply (each_res D pr DF Fp Q1 _ _ _ _ P). intros vs t t' (TA & TG & TF). rewrite (ok_vars_agree body (Nat.eqb d) (fst t') (fst t)).
        2:{ intros y I V. apply (proj1 TA). destruct (D y) eqn:E; [|reflexivity]. specialize (UB y E). rewrite Nat.eqb_sym, I, V in UB. discriminate UB. }
        destruct (ok_vars _ _ _); [|split; [reflexivity|]; split; assumption].
        apply (each_res D post DF Fq Q2 _ _ _ _ (conj TA (conj TG TF))). intros us t0 t0' (TA' & TG' & TF'). split; [|split; assumption]. cbn [fst].
        destruct vs as [|[| | | | |r| | | | |] vs]; try reflexivity.
        assert (EB : forall ch, fst (eval body (upd (fst t0') d (VChar ch), snd t0')) = fst (eval body (upd (fst t0) d (VChar ch), snd t0))).
        { intros ch. assert (E : R wd (minus D d) (eval body (upd (fst t0') d (VChar ch), snd t0')) (eval body (upd (fst t0) d (VChar ch), snd t0))); [|exact (proj1 E)].
          apply eval_agree; [apply minus_unused; exact UB|]. split; [|exact (proj2 TA')]. cbn. intros y N. unfold upd. destruct (Nat.eqb_spec y d); [reflexivity|]. apply (proj1 TA'). unfold minus in N. destruct (Nat.eqb_spec y d); [contradiction|]. rewrite andb_true_r in N. exact N. }
        cbn zeta. rewrite (forallb_ext' _ (fun ch => is_bool (fst (eval body (upd (fst t0) d (VChar ch), snd t0))))) by (intros ch; rewrite EB; reflexivity).
        destruct (forallb _ _); [|reflexivity]. apply pmeth_ext. intros ch _. rewrite EB. reflexivity.
      - apply bind_res; [apply He; [exact DF|kid|exact P]|]. intros v t t' (TA & TG & TF). split; [reflexivity|]. split; assumption.
      - apply ok_first in O; [|apply bindings_ge|apply bindings_ge]. destruct O as [O1 O2]. apply bind_res; [apply Ha; [exact DF|kid|exact P]|]. intros v t t' P'. pose proof P' as (TA & TG & TF). destruct v as [|[|]| | | | | | | | |]; try (split; [reflexivity|]; split; assumption).
        destruct (Hb D DF ltac:(kid) t t' P') as (R1 & R2 & _ & R3). split; [exact R1|]. split; assumption.
      - rewrite <- Nat.add_assoc in O. apply ok_first in O; [|apply bindings_ge|]. 2:{ intros E. destruct (find_stripping k x p a) eqn:E1; cbn [first] in E; [rewrite E in E1; pose proof (bindings_ge _ E1); lia|pose proof (bindings_ge _ E); lia]. }
        destruct O as [O0 O]. apply ok_first in O; [|apply bindings_ge|apply bindings_ge]. destruct O as [O1 O2].
        apply bind_res; [apply Hc; [exact DF|kid|exact P]|]. intros v t t' P'. pose proof P' as (TA & TG & TF). destruct v as [|[|]| | | | | | | | |]; try (split; [reflexivity|]; split; assumption).
        + destruct (Ha D DF ltac:(kid) t t' P') as (R1 & R2 & _ & R3). split; [exact R1|]. split; assumption.
        + destruct (Hb D DF ltac:(kid) t t' P') as (R1 & R2 & _ & R3). split; [exact R1|]. split; assumption.
      - assert (G1 : (if hides x p y then None else find_stripping k x p a) = Some (Some f) -> 1 <= bindings f a) by (destruct (hides x p y); [discriminate|apply bindings_ge]).
        assert (G2 : first (if hides x p y then None else find_stripping k x p a) (find_stripping k x p b) = Some (Some f) -> 1 <= bindings f a + bindings f b).
        { intros E. destruct (if hides x p y then None else find_stripping k x p a) eqn:E1; cbn [first] in E; [specialize (G1 E); lia|pose proof (bindings_ge _ E); lia]. }
        assert (NF : y <> f). { intros ->. rewrite Nat.eqb_refl in O. destruct O as [O|(_ & _ & O & N)]; [lia|]. destruct (find_stripping k x p e) eqn:E1; cbn [first] in O; [rewrite O in E1; pose proof (bindings_ge _ E1); lia|specialize (G2 O); lia]. }
        destruct (Nat.eqb_spec f y) as [|_]; [congruence|]. cbn [Nat.add] in O. rewrite <- Nat.add_assoc in O. apply ok_first in O; [|apply bindings_ge|exact G2]. destruct O as [O0 O]. apply ok_first in O; [|exact G1|apply bindings_ge]. destruct O as [O1 O2].
        apply bind_res; [apply He; [exact DF|kid|exact P]|]. intros v t t' P'. pose proof P' as (TA & TG & TF). destruct v; try (split; [reflexivity|]; split; assumption).
        + destruct (Hb D DF ltac:(kid) t t' P') as (R1 & R2 & _ & R3). split; [exact R1|]. split; assumption.
        + apply scoped_res; [exact DF|exact TA|exact NF|exact TF|]. intros r r' RA RV RO RF. destruct (hides x p y) eqn:HY; [apply left_alone; auto; [intros Y; specialize (U Y)|]; bools|].
          unfold hides in HY. orbs. assert (NX : x <> y) by (intros ->; rewrite Nat.eqb_refl in *; discriminate).
          destruct (Ha D DF ltac:(kid) r r') as (R1 & R2 & _ & R3); [split; [exact RA|]; split; [apply (good_other t r y); auto|exact RF]|]. split; [exact R1|]. split; assumption.
      - destruct (stripping k x p e) eqn:ST.
        + destruct (Nat.eq_dec y f) as [->|NF].
          * rewrite Nat.eqb_refl in O |- *. destruct O as [O|(DR & DT & _ & N)]; [lia|]. rewrite DR. cbn [andb]. rewrite NotHidden. cbn [StrSpec.eval]. cbn [inclusive] in IN. orbs. rewrite (stripping_value e s ST) by assumption. cbn [bind]. unfold scoped.
            pose proof NotHidden as NH. unfold hides in NH. orbs. assert (NX : x <> f) by (intros ->; rewrite Nat.eqb_refl in *; discriminate).
            assert (P0 : pre (fun _ => false) (upd (fst s) f (VStr rest), snd s) s'). { split; [split; [|exact (proj2 PA)]|split; [|exact PF]]. - intros z _. cbn. destruct (Nat.eq_dec z f) as [->|NZ]; [rewrite upd_same; exact PF|]. rewrite upd_other by exact NZ. apply (proj1 PA). destruct (D z) eqn:E; [|reflexivity]. apply DF in E. contradiction. - apply (good_other s _ f); auto. intros z NZ. apply upd_other, NZ. }
            assert (Q0 : req (fun _ => false) b). { split; [discriminate|]. split; [left; lia|]. split; [bools|]. split; [|assumption]. split; [bools|]. intros z Z. specialize (KP z Z). bools. }
            destruct (Hb (fun _ => false) ltac:(discriminate) Q0 _ _ P0) as (R1 & R2 & _ & R3). rewrite DR in R1, R2, R3. destruct (eval (rewrite k x p true f b) s') as [o1 [e1 w1]], (eval b (upd (fst s) f (VStr rest), snd s)) as [o2 [e2 w2]]. cbn [fst snd] in *. split; [exact R1|]. split; [|exact R3]. split; [|exact (proj2 R2)].
            intros z Z. cbn [fst snd]. destruct (Nat.eq_dec z f) as [->|NZ]; [congruence|]. rewrite upd_other by exact NZ. apply (proj1 R2). reflexivity.
          * destruct (Nat.eqb_spec f y) as [|_]; [congruence|]. destruct (Nat.eqb_spec y f) as [|_]; [congruence|]. rewrite andb_false_r. cbn [andb Nat.add] in *. destruct O as [O|(_ & _ & E & _)]; [|congruence].
            assert (O1 : ok D (bindings f e) (find_stripping k x p e)) by (left; lia). assert (O2 : ok D (bindings f b) (find_stripping k x p b)) by (left; lia).
            apply bind_res; [apply He; [exact DF|kid|exact P]|]. intros v t t' P'. pose proof P' as (TA & TG & TF).
            apply scoped_res; [exact DF|exact TA|exact NF|exact TF|]. intros r r' RA RV RO RF. destruct (hides x p y) eqn:HY; [apply left_alone; auto; [intros Y; specialize (U Y)|]; bools|].
            unfold hides in HY. orbs. assert (NX : x <> y) by (intros ->; rewrite Nat.eqb_refl in *; discriminate).
            destruct (Hb D DF ltac:(kid) r r') as (R1 & R2 & _ & R3); [split; [exact RA|]; split; [apply (good_other t r y); auto|exact RF]|]. split; [exact R1|]. split; assumption.
        + rewrite andb_false_r. assert (G1 : (if hides x p y then None else find_stripping k x p b) = Some (Some f) -> 1 <= bindings f b) by (destruct (hides x p y); [discriminate|apply bindings_ge]).
          assert (NF : y <> f). { intros ->. rewrite Nat.eqb_refl in O. destruct O as [O|(_ & _ & O & N)]; [lia|]. destruct (find_stripping k x p e) eqn:E1; cbn [first] in O; [rewrite O in E1; pose proof (bindings_ge _ E1); lia|specialize (G1 O); lia]. }
          destruct (Nat.eqb_spec f y) as [|_]; [congruence|]. cbn [Nat.add] in O. apply ok_first in O; [|apply bindings_ge|exact G1]. destruct O as [O1 O2].
          apply bind_res; [apply He; [exact DF|kid|exact P]|]. intros v t t' P'. pose proof P' as (TA & TG & TF).
          apply scoped_res; [exact DF|exact TA|exact NF|exact TF|]. intros r r' RA RV RO RF. destruct (hides x p y) eqn:HY; [apply left_alone; auto; [intros Y; specialize (U Y)|]; bools|].
          unfold hides in HY. orbs. assert (NX : x <> y) by (intros ->; rewrite Nat.eqb_refl in *; discriminate).
          destruct (Hb D DF ltac:(kid) r r') as (R1 & R2 & _ & R3); [split; [exact RA|]; split; [apply (good_other t r y); auto|exact RF]|]. split; [exact R1|]. split; assumption.
      - assert (G1 : (if hides x p y then None else if hides x p z then None else find_stripping k x p b) = Some (Some f) -> 1 <= bindings f b) by (destruct (hides x p y); [discriminate|]; destruct (hides x p z); [discriminate|apply bindings_ge]).
        assert (NF : y <> f /\ z <> f). { assert (Z : (if Nat.eqb f y then 1 else 0) + (if Nat.eqb f z then 1 else 0) = 0). { destruct O as [O|(_ & _ & O & N)]; [lia|]. destruct (find_stripping k x p e) eqn:E1; cbn [first] in O; [rewrite O in E1; pose proof (bindings_ge _ E1); lia|specialize (G1 O); lia]. } destruct (Nat.eqb_spec f y), (Nat.eqb_spec f z); cbn in Z; try lia; auto. }
        destruct NF as [NY NZ]. destruct (Nat.eqb_spec f y) as [|_]; [congruence|]. destruct (Nat.eqb_spec f z) as [|_]; [congruence|]. cbn [Nat.add] in O. apply ok_first in O; [|apply bindings_ge|exact G1]. destruct O as [O1 O2].
        apply bind_res; [apply He; [exact DF|kid|exact P]|]. intros v t t' P'. pose proof P' as (TA & TG & TF). destruct v; try (split; [reflexivity|]; split; assumption).
        assert (UB : D f = true -> uses f b = false). { intros Y. specialize (U Y). cbn in U. orbs. destruct (Nat.eqb_spec f y), (Nat.eqb_spec f z); try congruence. assumption. }
        apply scoped_res; [exact DF|exact TA|exact NY|exact TF|]. intros r r' RA RV RO RF. apply scoped_res; [exact DF|exact RA|exact NZ|exact RF|]. intros r0 r0' RA0 RV0 RO0 RF0.
        destruct (hides x p y) eqn:HY; [apply left_alone; auto; bools|]. destruct (hides x p z) eqn:HZ; [apply left_alone; auto; bools|].
        unfold hides in HY, HZ. orbs. assert (NX : x <> y) by (intros ->; rewrite Nat.eqb_refl in *; discriminate). assert (NX' : x <> z) by (intros ->; rewrite Nat.eqb_refl in *; discriminate).
        assert (QB : req D b). { split; [exact UB|]. split; [exact O2|]. split; [bools|]. split; [|bools]. split; [cbn in KX; orbs; destruct (Nat.eqb_spec x y), (Nat.eqb_spec x z); try congruence; assumption|]. intros w W. specialize (KP w W). cbn in KP. orbs. destruct (Nat.eqb_spec w y), (Nat.eqb_spec w z); try congruence; assumption. }
        destruct (Hb D DF QB r0 r0') as (R1 & R2 & _ & R3); [split; [exact RA0|]; split; [apply (good_other r r0 z); auto; apply (good_other t r y); auto|exact RF0]|]. split; [exact R1|]. split; assumption.
      - assert (NY : y <> f). { intros ->. cbn in AS. rewrite Nat.eqb_refl in AS. discriminate AS. } apply bind_res; [apply He; [exact DF|kid|exact P]|]. intros v t t' (TA & TG & TF). split; [reflexivity|]. split; [split; [|exact (proj2 TA)]|].
        + cbn [fst snd]. intros w W. unfold upd. destruct (Nat.eqb w y); [reflexivity|apply (proj1 TA), W].
        + cbn [fst snd]. rewrite upd_other by congruence. exact TF.
      - apply ok_first in O; [|apply bindings_ge|apply bindings_ge]. destruct O as [O1 O2]. apply bind_res; [apply Ha; [exact DF|kid|exact P]|]. intros v t t' P'.
        destruct (Hb D DF ltac:(kid) t t' P') as (R1 & R2 & _ & R3). split; [exact R1|]. split; assumption.
      - apply left_alone; assumption.
    Qed.
  End Rewrite.
  Lemma find_form k x p : forall e r, find_stripping k x p e = Some r -> p_form p.
  Proof.
    assert (S : forall e, stripping k x p e = true -> p_form p).
    { intros e H. unfold stripping in H. destruct e as [| | |o es| | | | | | | | | |]; try discriminate H. destruct o; try discriminate H. destruct es as [|[y ty| | | | | | | | | | | | |] r]; try discriminate H.
      apply andb_prop in H. destruct H as [_ H]. destruct k, lo, hi; try discriminate H.
      - destruct r as [|start [|]]; try discriminate H. apply (pattern_length p start H).
      - destruct r as [|[| | |[] rs| | | | | | | | | |] [|]]; try discriminate H; try (destruct rs as [|? [|? [|]]]; discriminate H). destruct rs as [|lhs [|rhs [|]]]; try discriminate H. destruct (len_arg lhs); [|discriminate H]. apply andb_prop in H. apply (pattern_length p rhs (proj2 H)). }
    assert (L : forall es, Forall (fun e => forall r, find_stripping k x p e = Some r -> p_form p) es -> forall r,
      (fix all (es : list ex) : option (option nat) := match es with [] => None | e :: es => first (find_stripping k x p e) (all es) end) es = Some r -> p_form p).
    { intros es F. induction F as [|e es He F IH]; intros r H; [discriminate H|]. destruct (find_stripping k x p e) eqn:E; cbn [first] in H; eauto. }
    induction e as [y ty|l|g ty es F|o es F|m pr d body post Fp Hb Fq|e He|a b Ha Hb|c a b Hc Ha Hb|y e a b He Ha Hb|y e b He Hb|y z e b He Hb|y e He|a b Ha Hb|y] using ex_ind'; intros r H; cbn [find_stripping] in H;
      match type of H with (if stripping k x p ?e then _ else _) = _ => destruct (stripping k x p e) eqn:SE; [exact (S _ SE)|] end; try discriminate H; eauto.
    - destruct ((fix all (es : list ex) := _) pr) eqn:E; cbn [first] in H; eauto.
    - destruct (find_stripping k x p a) eqn:E; cbn [first] in H; eauto.
    - destruct (find_stripping k x p c) eqn:E; cbn [first] in H; eauto. destruct (find_stripping k x p a) eqn:E'; cbn [first] in H; eauto.
    - destruct (find_stripping k x p e) eqn:E; cbn [first] in H; eauto. destruct (hides x p y); cbn [first] in H; eauto. destruct (find_stripping k x p a) eqn:E'; cbn [first] in H; eauto.
    - destruct (stripping k x p e) eqn:E'; eauto. destruct (find_stripping k x p e) eqn:E; cbn [first] in H; eauto. destruct (hides x p y); cbn [first] in H; [discriminate H|eauto].
    - destruct (find_stripping k x p e) eqn:E; cbn [first] in H; eauto. destruct (hides x p y); cbn [first] in H; [discriminate H|]. destruct (hides x p z); [discriminate H|eauto].
    - destruct (find_stripping k x p a) eqn:E; cbn [first] in H; eauto.
  Qed.
  Lemma manual_strip_core k x t p a b drop f : p_form p -> uses f (XIf (XOp (OPat StartsWith) [XVar x t; p]) a b) = false ->
    req k x p drop f (Nat.eqb f) a -> let '(m, m') := match k with Prefix => (StartsWith, StripPrefix) | Suffix => (EndsWith, StripSuffix) end in
    forall s, same (eval (XIfSome f (XOp (OPat m') [XVar x t; p]) (rewrite k x p drop f a) b) s) (eval (XIf (XOp (OPat m) [XVar x t; p]) a b) s).
  Proof.
    intros PF U Q. assert (NH : hides x p f = false) by (cbn in U; orbs; unfold hides; apply orb_false_intro; assumption).
    assert (UA : uses f a = false) by (cbn in U; orbs; assumption).
    assert (C : exists (m m' : pmeth) (cutoff : pat -> str -> option str), (match k with Prefix => (StartsWith, StripPrefix) | Suffix => (EndsWith, StripSuffix) end) = (m, m') /\
      (forall P v, pmeth_apply m P v [] = OVal (VBool (match cutoff P v with Some _ => true | None => false end))) /\ (forall P v, pmeth_apply m' P v [] = OVal (of_opt VStr (cutoff P v))) /\
      (pat_pos m = 0 /\ pat_pos m' = 0) /\
      forall P u v rest, (P = PStr u \/ exists c, u = [c] /\ P = PSet (one_of [c])) -> cutoff P v = Some rest -> match k with Prefix => v = u ++ rest | Suffix => v = rest ++ u end).
    { destruct k; [exists StartsWith, StripPrefix, after_front|exists EndsWith, StripSuffix, before_back]; repeat split; auto. - intros. eapply after_front_app; eauto. - intros. eapply before_back_app; eauto. }
    destruct C as (m & m' & cutoff & -> & M & M' & [Z Z'] & CUT). intros s. cbn [StrSpec.eval each bind].
    destruct (typed t (OVal (fst s x))) as [v|v| |] eqn:TV; cbn [bind]; try apply same_refl.
    assert (PV : (exists pv P u, eval p s = (OVal pv, s) /\ p_text p (fst s) = Some u /\ pat_of pv = Some P /\ (P = PStr u \/ exists c, u = [c] /\ P = PSet (one_of [c]))) \/ eval p s = (OStuck, s)).
    { destruct p as [y [] |[]| | | | | | | | | | | |]; try destruct PF; cbn.
      - destruct (fst s y); auto. left. do 3 eexists. repeat split. left. reflexivity.
      - left. do 3 eexists. repeat split. left. reflexivity.
      - left. do 3 eexists. repeat split. right. exists c. auto. }
    destruct PV as [(pv & P & u & -> & PT & PO & PU)| ->]; [|apply same_refl]. cbn [bind].
    assert (AP : forall mm, pat_pos mm = 0 -> apply (OPat mm) [v; pv] = match v with VStr w => pmeth_apply mm P w [] | _ => OStuck end).
    { intros mm E. cbn. rewrite E. cbn. unfold pat_apply. rewrite PO. reflexivity. }
    rewrite (AP m Z), (AP m' Z'). destruct v as [| | | | |w| | | | |]; try apply same_refl. rewrite M, M'. destruct (cutoff P w) as [rest|] eqn:CO; cbn [bind of_opt]; [|apply same_refl].
    assert (GX : fst s x = VStr w). { unfold typed in TV. destruct (has_ty (fst s x) t); [injection TV as TV; exact TV|discriminate TV]. }
    assert (PRE : pre x p f w u rest (Nat.eqb f) s (upd (fst s) f (VStr rest), snd s)).
    { split; [|split; [split; assumption|apply upd_same]]. split; [|reflexivity]. intros y Y. cbn. apply upd_other. intros ->. rewrite Nat.eqb_refl in Y. discriminate Y. }
    destruct (claim_all k x p drop f w u rest (CUT P u w rest PU CO) NH a (Nat.eqb f) ltac:(intros z Y; apply Nat.eqb_eq in Y; auto) Q _ _ PRE) as (R1 & R2 & _ & _).
    unfold scoped. pose proof (eval_frame wd f a) as FR.
    assert (WF : writes f a = false). { destruct Q as (_ & _ & AS & _). destruct (writes f a) eqn:W; [apply writes_assigned in W; congruence|reflexivity]. } specialize (FR WF s).
    destruct (eval (rewrite k x p drop f a) (upd (fst s) f (VStr rest), snd s)) as [o1 [e1 w1]], (eval a s) as [o2 [e2 w2]]. cbn [fst snd] in *. split; [exact R1|]. split; [exact (proj2 R2)|]. cbn [fst snd]. intros y. destruct (Nat.eq_dec y f) as [->|N]; [rewrite upd_same; symmetry; exact FR|]. rewrite upd_other by exact N. apply (proj1 R2). apply Nat.eqb_neq. auto.
  Qed.
  Theorem manual_strip_keeps fresh m x t p a b e' : let e := XIf (XOp (OPat m) [XVar x t; p]) a b in manual_strip fresh e = Some e' ->
    occurs fresh e = false -> inclusive a = false -> (forall y, uses y p = true -> writes y a = false) ->
    match e' with XIfSome y _ _ _ => y = fresh \/ uses y e = false /\ assigned y a = false | _ => True end ->
    forall s, same (eval e' s) (eval e s).
  Proof.
    intros e H OC IN KP NM s. subst e. destruct (occurs_none _ _ OC) as (UF & AF & BF). cbn [bindings map] in BF. assert (BA : bindings fresh a = 0) by lia. cbn [assigned existsb] in AF. orbs.
    assert (G : forall k m', (k, m, m') = (Prefix, StartsWith, StripPrefix) \/ (k, m, m') = (Suffix, EndsWith, StripSuffix) ->
      (if writes x a then None else match find_stripping k x p a with
             | Some (Some y) => if Nat.eqb (bindings y a) 1 then Some (XIfSome y (XOp (OPat m') [XVar x t; p]) (rewrite k x p true y a) b)
                                else Some (XIfSome fresh (XOp (OPat m') [XVar x t; p]) (rewrite k x p false fresh a) b)
             | Some None => Some (XIfSome fresh (XOp (OPat m') [XVar x t; p]) (rewrite k x p false fresh a) b)
             | None => None
             end) = Some e' -> same (eval e' s) (eval (XIf (XOp (OPat m) [XVar x t; p]) a b) s)).
    { clear H. intros k m' K H. destruct (writes x a) eqn:WX; [discriminate H|]. destruct (find_stripping k x p a) as [r|] eqn:FS; [|discriminate H]. pose proof (find_form k x p a r FS) as PF.
      assert (FA : e' = XIfSome fresh (XOp (OPat m') [XVar x t; p]) (rewrite k x p false fresh a) b -> same (eval e' s) (eval (XIf (XOp (OPat m) [XVar x t; p]) a b) s)).
      { intros ->. pose proof (manual_strip_core k x t p a b false fresh PF UF) as C. assert (Q : req k x p false fresh (Nat.eqb fresh) a). { split; [intros _; cbn in UF; orbs; assumption|]. split; [left; exact BA|]. repeat split; assumption. } specialize (C Q).
        destruct K as [K|K]; injection K as -> -> ->; exact (C s). }
      destruct r as [y|]; [|apply FA; congruence]. destruct (Nat.eqb_spec (bindings y a) 1) as [B1|]; [|apply FA; congruence]. injection H as <-. destruct NM as [->|[UY AY]]; [congruence|].
      pose proof (manual_strip_core k x t p a b true y PF UY) as C. assert (Q : req k x p true y (Nat.eqb y) a). { split; [intros _; cbn in UY; orbs; assumption|]. split; [right; repeat split; auto; apply Nat.eqb_refl|]. repeat split; assumption. } specialize (C Q).
      destruct K as [K|K]; injection K as -> -> ->; exact (C s). }
    destruct m; try discriminate H; cbn [manual_strip] in H; eapply G; eauto.
  Qed.
End Proofs.
