(** A split in two whose parts are taken from an iterator in a variable. *)
From Verif Require Export StrClosure.

Lemma unused_unwritten x : forall e, uses x e = false -> writes x e = false.
Proof.
  assert (L : forall es, Forall (fun e => uses x e = false -> writes x e = false) es -> existsb (uses x) es = false -> existsb (writes x) es = false).
  { intros es F. induction F as [|e es H F IH]; intros U; [reflexivity|]. cbn in *. apply orb_false_elim in U. destruct U as [U V]. rewrite H, IH; auto. }
  induction e as [y ty|l|f ty es F|o es F|m pre d body post Fp Hb Fq|e He|a b Ha Hb|c a b Hc Ha Hb|y e a b He Ha Hb|y e b He Hb|y z e b He Hb|y e He|a b Ha Hb|y] using ex_ind'; intros U; cbn in U |- *; auto.
  - apply orb_false_elim in U. destruct U as [U W]. apply orb_false_elim in U. destruct U as [U V]. rewrite (L pre), (L post) by assumption. destruct (negb (Nat.eqb x d)); [apply Hb, W|reflexivity].
  - apply orb_false_elim in U. destruct U. rewrite Ha, Hb; auto.
  - apply orb_false_elim in U. destruct U as [U W]. apply orb_false_elim in U. destruct U. rewrite Hc, Ha, Hb; auto.
  - apply orb_false_elim in U. destruct U as [U W]. apply orb_false_elim in U. destruct U as [U V]. rewrite He, Hb by assumption. destruct (negb (Nat.eqb x y)); [rewrite Ha; auto|reflexivity].
  - apply orb_false_elim in U. destruct U as [U V]. rewrite He by assumption. destruct (negb (Nat.eqb x y)); [apply Hb, V|reflexivity].
  - apply orb_false_elim in U. destruct U as [U V]. rewrite He by assumption. destruct (negb _); [apply Hb, V|reflexivity].
  - apply orb_false_elim in U. destruct U as [U V]. rewrite U, He; auto.
  - apply orb_false_elim in U. destruct U. rewrite Ha, Hb; auto.
Qed.

Section Proofs.
  Context (wd : world).
  Notation eval := (eval wd).
  Notation st := (st wd).
  Notation same := (same wd).

  Lemma usage_eval it e k : indirect_usage it e = Some k -> forall (s : st) v vs, fst s it = VList (v :: vs) -> eval e s = (OVal v, (upd (fst s) it (VList vs), snd s)).
  Proof.
    intros H s v vs E. unfold indirect_usage in H. destruct e as [| | |o es| |e| | | | | | | |]; try discriminate H.
    - destruct o; try discriminate H. destruct es as [|[| | | | | | | | | | | | |x] [|]]; try discriminate H. destruct (Nat.eqb_spec it x) as [->|]; [|discriminate H]. cbn [StrSpec.eval each bind]. rewrite E. reflexivity.
    - destruct e; try discriminate H. destruct (Nat.eqb_spec it x) as [->|]; [|discriminate H]. cbn [StrSpec.eval bind]. rewrite E. reflexivity.
  Qed.
  Lemma usage_end it e k : indirect_usage it e = Some k -> forall s : st, fst s it = VList [] -> eval e s = (match k with Unwrap => OPanic | QuestionMark => ORet VNone end, (upd (fst s) it (VList []), snd s)).
  Proof.
    intros H s E. unfold indirect_usage in H. destruct e as [| | |o es| |e| | | | | | | |]; try discriminate H.
    - destruct o; try discriminate H. destruct es as [|[| | | | | | | | | | | | |x] [|]]; try discriminate H. destruct (Nat.eqb_spec it x) as [->|]; [|discriminate H]. injection H as <-. cbn [StrSpec.eval each bind]. rewrite E. reflexivity.
    - destruct e; try discriminate H. destruct (Nat.eqb_spec it x) as [->|]; [|discriminate H]. injection H as <-. cbn [StrSpec.eval bind]. rewrite E. reflexivity.
  Qed.
  Definition gone (it b z : nat) : bool := Nat.eqb z it && negb (Nat.eqb b it).
  (** The two items in variables, one after the other or together. *)
  Lemma two_lets it a b ua ub k rest v w (s : st) x y vx vy :
    indirect_usage it ua = Some k -> indirect_usage it ub = Some k -> a <> it -> a <> b -> Nat.eqb b it || negb (uses it rest) = true -> (x, vx, y, vy) = (a, v, b, w) \/ (x, vx, y, vy) = (b, w, a, v) ->
    same (scoped wd x vx (scoped wd y vy (eval rest)) s) (scoped wd it (VList [v; w]) (eval (XLet a ua (XLet b ub rest))) s).
  Proof.
    intros UA UB NA NB UR XY. cbn [StrSpec.eval]. unfold scoped at 3. rewrite (usage_eval it ua k UA _ v [w]) by (cbn; apply upd_same). cbn [bind fst snd]. unfold scoped at 3. cbn [fst snd].
    rewrite (usage_eval it ub k UB _ w []) by (cbn; rewrite upd_other by congruence; apply upd_same). cbn [bind fst snd]. unfold scoped. cbn [fst snd].
    set (s1 := (upd (upd (upd (upd (upd (fst s) it (VList [v; w])) it (VList [w])) a v) it (VList [])) b w, snd s) : st).
    set (s2 := (upd (upd (fst s) x vx) y vy, snd s) : st).
    assert (A : agree wd (gone it b) s2 s1).
    { split; [|reflexivity]. intros z Z. subst s1 s2. cbn [fst]. unfold gone in Z. apply andb_false_iff in Z. destruct (Nat.eq_dec z it) as [E0|NZ].
      - assert (EB : b = it). { destruct Z as [Z|Z]; [apply Nat.eqb_neq in Z; contradiction|]. apply negb_false_iff, Nat.eqb_eq in Z. exact Z. } subst z b. unfold upd. rewrite Nat.eqb_refl. destruct XY as [E|E]; injection E as -> -> -> ->; rewrite ?Nat.eqb_refl; destruct (Nat.eqb_spec it a); try congruence; reflexivity.
      - unfold upd. destruct (Nat.eqb_spec z it); [contradiction|]. destruct XY as [E|E]; injection E as -> -> -> ->; destruct (Nat.eqb_spec z b), (Nat.eqb_spec z a); try congruence; reflexivity. }
    assert (UN : unused (gone it b) rest). { intros z Z. unfold gone in Z. apply andb_prop in Z. destruct Z as [Z1 Z2]. apply Nat.eqb_eq in Z1. subst z. destruct (Nat.eqb b it); [discriminate Z2|]. cbn in UR. apply negb_true_iff in UR. exact UR. }
    pose proof (eval_agree wd rest (gone it b) UN s2 s1 A) as [RO RA].
    assert (FR : b <> it -> fst (snd (eval rest s2)) it = fst s it).
    { intros N. rewrite eval_frame. - subst s2. cbn [fst]. unfold upd. destruct XY as [E|E]; injection E as -> -> -> ->; destruct (Nat.eqb_spec it b), (Nat.eqb_spec it a); try congruence; reflexivity.
      - apply unused_unwritten. apply UN. unfold gone. rewrite Nat.eqb_refl. destruct (Nat.eqb_spec b it); [congruence|reflexivity]. }
    destruct (eval rest s1) as [o1 [e1 w1]], (eval rest s2) as [o2 [e2 w2]]. cbn [fst snd] in *. subst o2. destruct RA as [RE RW]. cbn [fst snd] in *. subst w2. split; [reflexivity|]. split; [reflexivity|]. cbn [fst snd]. clear A UN. clear s1 s2. intros z. specialize (RE z). unfold upd, gone in *.
    destruct XY as [E|E]; injection E as -> -> -> ->; destruct (Nat.eqb_spec z it) as [E1|?], (Nat.eqb_spec z a), (Nat.eqb_spec z b), (Nat.eqb_spec a it), (Nat.eqb_spec b it), (Nat.eqb_spec b a), (Nat.eqb_spec a b);
      try congruence; try (apply RE; reflexivity); try (rewrite E1; apply FR; congruence).
  Qed.
  Lemma one_item it a ua ub b k rest v (s : st) : indirect_usage it ua = Some k -> indirect_usage it ub = Some k -> a <> it ->
    same (match k with Unwrap => OPanic | QuestionMark => ORet VNone end, s) (scoped wd it (VList [v]) (eval (XLet a ua (XLet b ub rest))) s).
  Proof.
    intros UA UB NA. cbn [StrSpec.eval]. unfold scoped at 1. rewrite (usage_eval it ua k UA _ v []) by (cbn; apply upd_same). cbn [bind fst snd]. unfold scoped at 1. cbn [fst snd].
    rewrite (usage_end it ub k UB) by (cbn; rewrite upd_other by congruence; apply upd_same). cbn [fst snd]. destruct k; cbn [bind fst snd]; (split; [reflexivity|]; split; [reflexivity|]); cbn [fst snd]; intros z; unfold upd; destruct (Nat.eqb_spec z it) as [->|]; try reflexivity; destruct (Nat.eqb_spec z a) as [->|]; try reflexivity; destruct (Nat.eqb_spec a it); congruence.
  Qed.
  Theorem split_once_indirect_keeps e e' : split_once_indirect e = Some e' -> forall s, same (eval e' s) (eval e s).
  Proof.
    intros H s. unfold split_once_indirect in H. destruct e as [| | | | | | | | |it i e| | | |]; try discriminate H. destruct e as [| | | | | | | | |a ua e| | | |]; try discriminate H. destruct e as [| | | | | | | | |b ub rest| | | |]; try discriminate H.
    destruct (splitn_call i) as [[[reverse count] mk]|] eqn:S; [|discriminate H]. destruct (indirect_usage it ua) as [ka|] eqn:UA; [|discriminate H]. destruct (indirect_usage it ub) as [kb|] eqn:UB; [|discriminate H].
    match type of H with (if ?c then _ else _) = _ => destruct c eqn:C; [|discriminate H] end. injection H as <-. apply andb_prop in C. destruct C as [C UR]. apply andb_prop in C. destruct C as [C NB]. apply andb_prop in C. destruct C as [C KK]. apply andb_prop in C. destruct C as [CN NA].
    apply Nat.eqb_eq in CN. subst count. apply negb_true_iff, Nat.eqb_neq in NA, NB. assert (kb = ka) by (destruct ka, kb; try discriminate KK; reflexivity). subst kb.
    cbn [StrSpec.eval]. destruct (splitn_shape wd i reverse 2 mk s S) as [(o & t & NV & EI & EM)|(p & x & t & EI & EM)].
    - rewrite EI. specialize (EM (if reverse then RSplitOnce else SplitOnce)). assert (PP : pat_pos (if reverse then RSplitOnce else SplitOnce) = 0) by (destruct reverse; reflexivity). specialize (EM PP).
      destruct reverse; destruct ka; cbn [StrSpec.eval each]; rewrite EM; destruct o; try (contradiction (NV v); reflexivity); apply (same_refl wd).
    - rewrite EI. assert (PP : pat_pos (if reverse then RSplitOnce else SplitOnce) = 0) by (destruct reverse; reflexivity). pose proof (EM _ PP) as EO. clear EM.
      unfold strs. cbn [bind]. destruct reverse; cbn [splits pmeth_apply] in *.
      + destruct (bwd p x) as [|[q r] ms].
        * cbn [rpieces_n map]. cbn in EO. pose proof (one_item it a ua ub b ka rest (VStr x) t UA UB NA) as O. destruct ka; cbn [StrSpec.eval each]; rewrite EO; exact O.
        * cbn [rpieces_n map]. cbn in EO. pose proof (two_lets it a b ua ub ka rest (VStr (skipn r x)) (VStr (firstn q x)) t b a (VStr (firstn q x)) (VStr (skipn r x)) UA UB NA NB UR (or_intror eq_refl)) as O. destruct ka; cbn [StrSpec.eval each]; rewrite EO; exact O.
      + destruct (fwd p x) as [|[q r] ms].
        * cbn [pieces_n map]. cbn in EO. pose proof (one_item it a ua ub b ka rest (VStr x) t UA UB NA) as O. destruct ka; cbn [StrSpec.eval each]; rewrite EO; exact O.
        * cbn [pieces_n map]. cbn in EO. rewrite !Nat.sub_0_r. pose proof (two_lets it a b ua ub ka rest (VStr (firstn q x)) (VStr (skipn r x)) t a b (VStr (firstn q x)) (VStr (skipn r x)) UA UB NA NB UR (or_introl eq_refl)) as O. destruct ka; cbn [StrSpec.eval each]; rewrite EO; exact O.
  Qed.
End Proofs.
