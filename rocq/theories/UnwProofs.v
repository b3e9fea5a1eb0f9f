(* What is known about a place stays true while nothing that may be the place is mutated. *)
From Coq Require Import List ZArith Bool Arith Lia.
Import ListNotations.
From Verif Require Import UnwSpec UnwModel.

Definition good (c : ctor) : bool := match c with CSome | COk => true | _ => false end.
Definition holds (p : place) (b : bool) (s : st) : Prop :=
  (exists c v, at_place s p = Some (VC c v) /\ good c = b) /\
  forall l, In l (loans s) -> overlap (on l) p = true -> on l = p /\ inside l = true.

Lemma prefix_spec : forall a b, prefix a b = true <-> exists c, b = a ++ c.
Proof.
  induction a as [|x r IH]; intros b; cbn.
  - split; [eauto|auto].
  - destruct b as [|y q]; [split; [discriminate|intros [c E]; discriminate]|].
    rewrite andb_true_iff, Nat.eqb_eq, IH. split.
    + intros [-> [c ->]]. exists c. reflexivity.
    + intros [c E]. injection E as -> ->. split; [reflexivity|eauto].
Qed.

Lemma get_app : forall a b v, get v (a ++ b) = match get v a with Some u => get u b | None => None end.
Proof.
  induction a as [|x r IH]; intros b v; cbn; [reflexivity|].
  destruct v; try reflexivity. destruct (nth_error l x); [apply IH|reflexivity].
Qed.

Lemma nth_set_same : forall l i u w, nth_error l i = Some w -> nth_error (set_nth l i u) i = Some u.
Proof. induction l as [|a l IH]; intros [|i] u w H; cbn in *; try discriminate; [reflexivity|eauto]. Qed.
Lemma nth_set_other : forall l i j u, i <> j -> nth_error (set_nth l i u) j = nth_error l j.
Proof.
  induction l as [|a l IH]; intros [|i] [|j] u H; cbn; try reflexivity; try congruence.
  apply IH. congruence.
Qed.

Lemma get_put_apart : forall a b v u, prefix a b = false -> prefix b a = false -> get (put v b u) a = get v a.
Proof.
  induction a as [|x r IH]; intros [|y q] v u H K; cbn in *; try discriminate.
  destruct v; try reflexivity. destruct (nth_error l y) eqn:E; [|reflexivity].
  destruct (Nat.eq_dec x y) as [<-|N].
  - rewrite Nat.eqb_refl in *. rewrite (nth_set_same _ _ _ _ E), E. apply IH; auto.
  - rewrite nth_set_other by congruence. reflexivity.
Qed.
Lemma get_put_same : forall a v u w, get v a = Some w -> get (put v a u) a = Some u.
Proof.
  induction a as [|x r IH]; intros v u w H; cbn in *; [reflexivity|].
  destruct v; try discriminate. destruct (nth_error l x) eqn:E; [|discriminate].
  rewrite (nth_set_same _ _ _ _ E). eauto.
Qed.
Lemma get_put_deep : forall a f r v u c w, get v a = Some (VC c w) -> get (put v (a ++ f :: r) u) a = Some (VC c w).
Proof.
  induction a as [|x q IH]; intros f r v u c w H; cbn in *.
  - injection H as ->. reflexivity.
  - destruct v; try discriminate. destruct (nth_error l x) eqn:E; [|discriminate].
    rewrite (nth_set_same _ _ _ _ E). apply IH. exact H.
Qed.

Lemma overlap_sym : forall p q, overlap p q = overlap q p.
Proof. intros [x a] [y b]. unfold overlap. cbn. rewrite Nat.eqb_sym, orb_comm. reflexivity. Qed.

Lemma at_set_apart : forall s p q v, overlap q p = false -> at_place (set_place s q v) p = at_place s p.
Proof.
  intros s [x a] [y b] v H. unfold at_place, set_place, overlap in *. cbn in *.
  destruct (x =? y) eqn:E; [|reflexivity]. rewrite Nat.eqb_sym, E in H. cbn in H.
  apply orb_false_iff in H as [H K]. apply get_put_apart; assumption.
Qed.
Lemma at_set_same : forall s p v w, at_place s p = Some w -> at_place (set_place s p v) p = Some v.
Proof. intros s [x a] v w H. unfold at_place, set_place in *. cbn in *. rewrite Nat.eqb_refl. eapply get_put_same, H. Qed.
Lemma at_set_deep : forall s x a f r v c w,
  at_place s (x, a) = Some (VC c w) -> at_place (set_place s (x, a ++ f :: r) v) (x, a) = Some (VC c w).
Proof. intros. unfold at_place, set_place in *. cbn in *. rewrite Nat.eqb_refl. apply get_put_deep. assumption. Qed.

(* A place strictly below one that holds an Option or Result cannot be read. *)
Lemma below : forall s x a f r c w, at_place s (x, a) = Some (VC c w) -> at_place s (x, a ++ f :: r) = None.
Proof. intros s x a f r c w H. unfold at_place in *. cbn in *. rewrite get_app, H. reflexivity. Qed.

Lemma overlap_cases : forall q p, overlap q p = true ->
  (exists r, r <> [] /\ p = (fst q, snd q ++ r)) \/ q = p \/ exists f r, q = (fst p, snd p ++ f :: r).
Proof.
  intros [x a] [y b] H. unfold overlap in H. cbn in *. apply andb_true_iff in H as [E H].
  apply Nat.eqb_eq in E. subst y. apply orb_true_iff in H as [H|H]; apply prefix_spec in H as [[|f c] E]; subst.
  - right. left. rewrite app_nil_r. reflexivity.
  - left. exists (f :: c). split; [discriminate|reflexivity].
  - right. left. rewrite app_nil_r. reflexivity.
  - right. right. exists f, c. reflexivity.
Qed.

(* ---------- operations on the state ---------- *)
Lemma holds_sub : forall p b s s',
  holds p b s -> (forall x, loc s' x = loc s x) -> (forall l, In l (loans s') -> In l (loans s)) -> holds p b s'.
Proof.
  intros p b s s' [[c [v [A G]]] L] E I. split.
  - exists c, v. unfold at_place in *. rewrite E. auto.
  - intros l H. apply L, I, H.
Qed.
Lemma holds_use : forall p b q s, holds p b s -> holds p b (use q s).
Proof. intros. eapply holds_sub; [eassumption|reflexivity|]. cbn. intros l I. apply filter_In in I. tauto. Qed.
Lemma holds_note : forall p b i v s, holds p b s -> holds p b (note i v s).
Proof. intros. eapply holds_sub; [eassumption|reflexivity|auto]. Qed.

Lemma holds_lend : forall p b q i s,
  holds p b s -> (overlap q p = true -> q = p /\ i = true) -> holds p b (lend q i s).
Proof.
  intros p b q i s H K. apply (holds_use _ _ q) in H. destruct H as [A L]. split; [exact A|].
  cbn. intros l [<-|I] O; cbn in *; [auto|]. apply L; auto.
Qed.
Lemma holds_set : forall p b q v s,
  holds p b s -> overlap q p = false \/ (exists f r, q = (fst p, snd p ++ f :: r)) -> holds p b (set_place s q v).
Proof.
  intros p b q v s [[c [w [A G]]] L] K. split; [|exact L].
  exists c, w. split; [|exact G]. destruct K as [K|[f [r ->]]].
  - rewrite at_set_apart; assumption.
  - destruct p as [x a]. cbn [fst snd]. apply at_set_deep. exact A.
Qed.
Lemma holds_write : forall p b r l s,
  holds p b s -> In l (loans s) -> holds p b (write r s l) /\ loans (write r s l) = loans s.
Proof.
  intros p b r l s H I. unfold write. destruct (writes r (on l)) as [v|]; [|auto].
  destruct (overlap (on l) p) eqn:O.
  - destruct (proj2 H l I O) as [E F]. rewrite E, F in *.
    destruct (proj1 H) as [c [w [A G]]]. rewrite A.
    assert (X : holds p b (set_place s p (VC c v))).
    { split; [|exact (proj2 H)]. exists c, v. split; [eapply at_set_same, A|exact G]. }
    destruct c; split; auto.
  - assert (X : forall u, holds p b (set_place s (on l) u)) by (intros; apply holds_set; auto).
    destruct (inside l); [|auto]. destruct (at_place s (on l)) as [[]|]; auto. destruct c; auto.
Qed.
Lemma holds_writes : forall p b r ls s,
  holds p b s -> (forall l, In l ls -> In l (loans s)) -> holds p b (fold_left (write r) ls s).
Proof.
  induction ls as [|l ls IH]; intros s H I; cbn; [assumption|].
  destruct (holds_write p b r l s H (I l (or_introl eq_refl))) as [A E].
  apply IH; [assumption|]. rewrite E. intros; apply I; right; assumption.
Qed.
Lemma holds_act : forall w f args p b s, holds p b s -> holds p b (snd (act w f args s)).
Proof.
  intros. unfold act. cbn [snd]. apply holds_writes; [|auto].
  eapply holds_sub; [eassumption|reflexivity|auto].
Qed.
Lemma holds_noted : forall id m p b r, holds p b (snd r) -> holds p b (snd (noted id m r)).
Proof.
  intros id m p b [o s] H. unfold noted. destruct (unwraps m); [|exact H]. destruct o; try exact H; apply holds_note, H.
Qed.
Lemma holds_bind : forall p b r k,
  holds p b (snd r) -> (forall v s, r = (OVal v, s) -> holds p b s -> holds p b (snd (k v s))) ->
  holds p b (snd (bind r k)).
Proof. intros p b [o s] k H K. destruct o; cbn in *; auto. Qed.

(* ---------- places ---------- *)
Section world.
Variable w : world.
Variable T : place -> kind.
Notation eval := (eval w T).

Lemma eval_place : forall n e q s v s',
  place_of e = Some q -> eval n e s = (OVal v, s') ->
  at_place s q = Some v /\ conforms (T q) v = true /\ s' = use q s.
Proof.
  intros n e q s v s' P E. destruct n as [|n]; [discriminate|].
  assert (R : read T q s = (OVal v, s')).
  { destruct e; try discriminate P; cbn [UnwSpec.eval] in E.
    - cbn in P. injection P as <-. exact E.
    - rewrite P in E. exact E. }
  unfold read in R. destruct (at_place s q) as [u|] eqn:A; [|discriminate].
  destruct (conforms (T q) u) eqn:C; [|discriminate]. injection R as -> <-. auto.
Qed.

Lemma extract_place : forall e, place_of e = match extract_local e with Some (x, is) => Some (x, rev is) | None => None end.
Proof.
  induction e; cbn; try reflexivity. rewrite IHe. destruct (extract_local e) as [[x is]|]; reflexivity.
Qed.

Lemma zip_prefix : forall a b, length a <= length b -> zip_all a b = prefix a b.
Proof.
  induction a as [|x r IH]; intros [|y q] H; cbn in *; try reflexivity; [lia|]. rewrite IH by lia. reflexivity.
Qed.
Lemma prefix_longer : forall a b, length b < length a -> prefix a b = false.
Proof.
  intros a b H. destruct (prefix a b) eqn:E; [|reflexivity]. apply prefix_spec in E as [c ->].
  rewrite app_length in H. lia.
Qed.

(* What the check for mutations leaves. *)
Lemma not_potentially : forall l q,
  potentially l q = false ->
  overlap q (fst l, rev (snd l)) = false \/ exists f r, q = (fst l, rev (snd l) ++ f :: r).
Proof.
  intros [x is] [y b] H. unfold potentially, is_potentially_local_place in H. cbn [fst snd] in *.
  destruct (overlap (y, b) (x, rev is)) eqn:O; [right|auto].
  destruct (overlap_cases _ _ O) as [[r [N E]]|[E|[f [r E]]]]; cbn [fst snd] in *.
  - injection E as -> E. destruct is as [|i is]; [rewrite Nat.eqb_refl in H; discriminate|].
    assert (L : length (i :: is) = length (b ++ r)) by (rewrite <- E, rev_length; reflexivity).
    rewrite Nat.eqb_refl in H. cbn [andb] in H. rewrite app_length in L.
    assert (Q : length b <= length (i :: is)) by lia. rewrite (proj2 (Nat.leb_le _ _) Q) in H. cbn [andb] in H.
    rewrite zip_prefix in H by (rewrite rev_length; exact Q).
    rewrite E in H. assert (X : prefix b (b ++ r) = true) by (apply prefix_spec; eauto). congruence.
  - injection E as -> E. destruct is as [|i is]; [rewrite Nat.eqb_refl in H; discriminate|].
    rewrite Nat.eqb_refl in H. cbn [andb] in H.
    assert (Q : length b <= length (i :: is)) by (rewrite E, rev_length; lia).
    rewrite (proj2 (Nat.leb_le _ _) Q) in H. cbn [andb] in H.
    rewrite zip_prefix in H by (rewrite rev_length; exact Q).
    assert (X : prefix b (rev (i :: is)) = true) by (apply prefix_spec; exists []; rewrite app_nil_r; congruence). congruence.
  - injection E as -> ->. exists f, r. reflexivity.
Qed.

(* A place that was just read and is not potentially the one known is apart from it. *)
Lemma read_apart : forall l b q v s,
  holds (fst l, rev (snd l)) b s -> potentially l q = false -> at_place s q = Some v ->
  overlap q (fst l, rev (snd l)) = false.
Proof.
  intros l b q v s H N A. destruct (not_potentially _ _ N) as [O|[f [r ->]]]; [assumption|].
  destruct (proj1 H) as [c [u [E _]]]. rewrite (below _ _ _ _ _ _ _ E) in A. discriminate.
Qed.
(* A place that holds an Option or Result is the one known or apart from it. *)
Lemma variant_apart : forall p b q c v s,
  holds p b s -> at_place s q = Some (VC c v) -> overlap q p = true -> q = p.
Proof.
  intros p b q c v s H A O. destruct (proj1 H) as [d [u [E _]]].
  destruct (overlap_cases _ _ O) as [[r [N ->]]|[X|[f [r ->]]]]; [|exact X|].
  - destruct r as [|f r]; [congruence|]. destruct q as [x a]. cbn [fst snd] in *. rewrite (below _ _ _ _ _ _ _ A) in E. discriminate.
  - destruct p as [x a]. cbn [fst snd] in *. rewrite (below _ _ _ _ _ _ _ E) in A. discriminate.
Qed.

Lemma at_use : forall q s p, at_place (use q s) p = at_place s p.
Proof. reflexivity. Qed.

Lemma holds_invoke : forall l b id m r v args s,
  holds (fst l, rev (snd l)) b s ->
  (forall q, place_of r = Some q -> by_mut m = true ->
     overlap q (fst l, rev (snd l)) = false \/ m = MAsMut /\ q = (fst l, rev (snd l)) /\ exists c u, v = VC c u) ->
  holds (fst l, rev (snd l)) b (snd (invoke w id m (place_of r) v args s)).
Proof.
  intros l b id m r v args s H M. set (p := (fst l, rev (snd l))) in *.
  assert (Opq : (m = MAsMut -> forall c u, v <> VC c u) ->
    holds p b (snd (noted id m (act w (code m) (v :: args)
      (match place_of r with Some p0 => if by_mut m then lend p0 false s else s | None => s end))))).
  { intros X. apply holds_noted, holds_act. destruct (place_of r) as [q|] eqn:P; [|exact H].
    destruct (by_mut m) eqn:B; [|exact H]. apply holds_lend; [exact H|]. intros O.
    destruct (M q eq_refl eq_refl) as [F|[E [_ [c [u ->]]]]]; [congruence|]. exfalso. exact (X E c u eq_refl). }
  unfold invoke. destruct v; try (apply Opq; intros; congruence).
  destruct (std m c v) as [o|] eqn:S.
  - apply holds_noted. cbn [snd]. destruct (place_of r) as [q|] eqn:P; [|exact H].
    destruct m; try exact H. apply holds_lend; [exact H|]. intros O.
    destruct (M q eq_refl eq_refl) as [F|[_ [E _]]]; [congruence|auto].
  - apply Opq. intros ->. discriminate S.
Qed.

Lemma holds_let : forall p b x v s, holds p b s -> fst p <> x -> holds p b (set_place (use (x, []) s) (x, []) v).
Proof.
  intros p b x v s H N. apply holds_set; [apply holds_use, H|]. left. unfold overlap. cbn.
  destruct (x =? fst p) eqn:E; [|reflexivity]. apply Nat.eqb_eq in E. congruence.
Qed.

Theorem preserve : forall n G e l b s,
  scoped G e -> In (fst l) G -> std_as_mut T e -> mutated l e = false ->
  holds (fst l, rev (snd l)) b s -> holds (fst l, rev (snd l)) b (snd (eval n e s)).
Proof.
  induction n as [|n IH]; intros G e l b s Sc I A M H; [exact H|].
  assert (Sub : forall e s, scoped G e -> std_as_mut T e -> mutated l e = false ->
                holds (fst l, rev (snd l)) b s -> holds (fst l, rev (snd l)) b (snd (eval n e s)))
    by (intros; eapply IH; eassumption).
  assert (Rd : forall q s, holds (fst l, rev (snd l)) b s -> holds (fst l, rev (snd l)) b (snd (read T q s))).
  { intros q s0 H0. unfold read. destruct (at_place s0 q); [|exact H0]. destruct (conforms (T q) v); [apply holds_use, H0|exact H0]. }
  destruct e; cbn [UnwSpec.eval]; cbn [scoped std_as_mut mutated] in Sc, A, M;
    repeat match goal with X : _ || _ = false |- _ => apply orb_false_iff in X; destruct X end;
    repeat match goal with X : _ /\ _ |- _ => destruct X end.
  - exact H.
  - apply Rd, H.
  - destruct (place_of (EField e i)); [apply Rd, H|]. apply holds_bind; [auto|]. intros v s' _ H'.
    destruct (get v [i]); exact H'.
  - apply holds_bind; [auto|]. intros v s' E H'.
    apply holds_invoke; [exact H'|]; intros q P.
    + intros B. destruct (eval_place _ _ _ _ _ _ P E) as [X [C ->]]. rewrite B, P in *. cbn [andb] in *.
      destruct (overlap q (fst l, rev (snd l))) eqn:O; [right|auto].
      destruct m; try discriminate B; cbn [negb andb] in *.
      * assert (K : T q <> KOther) by (match goal with Y : MAsMut = MAsMut -> _ |- _ => apply Y; reflexivity end).
        assert (V : exists c u, v = VC c u) by (destruct (T q), v; try discriminate C; try congruence; eauto).
        destruct V as [c [u ->]]. split; [reflexivity|]. split; [|eauto]. eapply variant_apart; eassumption.
      * exfalso. assert (F : overlap q (fst l, rev (snd l)) = false) by (eapply read_apart; eassumption). congruence.
  - apply holds_bind; [auto|]. intros v s' E H'. apply holds_bind; [auto|]. intros u s'' E' H''.
    apply holds_invoke; [exact H''|]; intros q P.
    + intros B. destruct (eval_place _ _ _ _ _ _ P E) as [X [C ->]]. rewrite B, P in *. cbn [andb] in *.
      left. eapply read_apart; [exact H'|assumption|exact X].
  - apply holds_bind; [auto|]. intros. apply holds_act. assumption.
  - apply holds_bind; [auto|]. intros. apply holds_bind; auto.
  - apply holds_bind; [auto|]. intros v s' E H'. cbn [snd]. destruct (place_of e) as [q|] eqn:P; [|exact H'].
    destruct (eval_place _ _ _ _ _ _ P E) as [X [C ->]]. apply holds_lend; [exact H'|]. intros O.
    assert (F : overlap q (fst l, rev (snd l)) = false) by (eapply read_apart; eassumption). congruence.
  - apply holds_bind; [auto|]. intros v s' E H'. destruct v; try exact H'. cbn [snd].
    destruct (place_of e) as [q|] eqn:P; [|exact H'].
    destruct (eval_place _ _ _ _ _ _ P E) as [X [C ->]]. apply holds_lend; [exact H'|]. intros O.
    split; [|reflexivity]. eapply variant_apart; [exact H'|exact X|exact O].
  - apply holds_bind; [auto|]. intros v s' E H'. destruct v; exact H'.
  - apply holds_bind; [auto|]. intros v s' E H'.
    assert (K : holds (fst l, rev (snd l)) b (snd (bind (eval n e2 s') (fun u s => (both o v u, s))))).
    { apply holds_bind; [auto|]. intros. assumption. }
    destruct o, v; try exact K; destruct b0; first [exact K|exact H'].
  - auto.
  - apply holds_bind; [auto|]. intros v s' E H'. destruct v; try exact H'. destruct b0; auto.
  - apply holds_bind; [auto|]. intros v s' E H'. destruct v; try exact H'. destruct b0; auto.
  - destruct (place_of e1) as [q|] eqn:P; [|exact H]. apply holds_bind; [auto|]. intros v s' E H'.
    apply holds_set; [apply holds_use, H'|]. apply (not_potentially l q). assumption.
  - apply holds_bind; [auto|]. intros v s' E H'.
    apply (IH (x :: G)); auto; [right; exact I|]. apply holds_let; [exact H'|]. cbn [fst]. intros X. rewrite X in I. contradiction.
  - apply holds_bind; [auto|]. auto.
  - assert (K := Sub e s Sc A M H). destruct (eval n e s) as [[] s'] eqn:E; cbn [snd] in K |- *; try exact K;
      apply Sub; cbn [scoped std_as_mut mutated]; assumption.
  - exact H.
  - exact H.
  - apply holds_bind; [auto|]. intros. assumption.
  - exact H.
Qed.
End world.
