(** Expressions of the same shape do the same. *)
From Verif Require Export SameAlign.
From Coq Require Import Lia.

(** ** Sizes *)
Lemma in_sum {A} (f : A -> nat) x l : In x l -> f x <= list_sum (map f l).
Proof.
  induction l as [|a l IH]; [contradiction|]. change (list_sum (map f (a :: l))) with (f a + list_sum (map f l)).
  intros [->|I]; [lia|]. specialize (IH I). lia.
Qed.
Lemma stmt_part_size n : forall s c, stmt_size s <= n -> In c (stmt_parts s) -> size c < stmt_size s.
Proof.
  induction n as [|n IH]; intros s c L I; [destruct s; cbn in L; lia|].
  destruct s as [p k t i els|e|e|]; cbn [stmt_parts] in I.
  - apply in_app_or in I. cbn [stmt_size] in L |- *. destruct I as [I|I].
    + destruct i as [e|]; [|contradiction]. destruct I as [->|[]]. cbn [opt_size] in *. lia.
    + destruct els as [[ss b]|]; [|contradiction]. apply in_app_or in I. destruct I as [I|I].
      * apply in_flat_map in I. destruct I as (s & J & K). pose proof (in_sum stmt_size s ss J). specialize (IH s c ltac:(lia) K). lia.
      * destruct b as [e|]; [|contradiction]. destruct I as [->|[]]. cbn [opt_size] in *. lia.
  - destruct I as [->|[]]. cbn. lia.
  - destruct I as [->|[]]. cbn. lia.
  - contradiction.
Qed.
Lemma block_part_size ss t c : In c (block_parts (ss, t)) -> size c <= list_sum (map stmt_size ss) + opt_size size t.
Proof.
  unfold block_parts. cbn [fst snd]. intros I. apply in_app_or in I. destruct I as [I|I].
  - apply in_flat_map in I. destruct I as (s & J & K). pose proof (in_sum stmt_size s ss J). pose proof (stmt_part_size _ s c (Nat.le_refl _) K). lia.
  - destruct t as [e|]; [|contradiction]. destruct I as [->|[]]. cbn. lia.
Qed.
Lemma part_size e c : In c (parts e) -> size c < size e.
Proof.
  destruct e; cbn [parts]; intros I; try contradiction.
  - pose proof (in_sum size c es I). cbn [size]. lia.
  - cbn [size]. destruct I as [->|[->|[]]]; lia.
  - cbn [size]. destruct I as [->|[->|[]]]; lia.
  - apply block_part_size in I. cbn [size]. lia.
  - cbn [size]. destruct I as [->|[->|I]]; try lia. destruct e3; [|contradiction]. destruct I as [->|[]]. cbn [opt_size]. lia.
  - cbn [size]. destruct I as [->|[]]; lia.
  - cbn [size]. destruct I as [->|I]; [lia|]. apply in_flat_map in I. destruct I as ([[p g] b] & J & K).
    apply (in_sum (fun a => match a with (p, g, b) => S (pat_size p + opt_size size g + size b) end)) in J. unfold arm_parts in K. cbn [fst snd] in K.
    apply in_app_or in K. destruct K as [K|K].
    + destruct g as [g|]; [|contradiction]. destruct K as [->|[]]. cbn [opt_size] in J. lia.
    + destruct K as [->|[]]. lia.
  - apply block_part_size in I. cbn [size]. lia.
  - cbn [size]. destruct e as [e|]; [|contradiction]. destruct I as [->|[]]. cbn [opt_size]. lia.
  - cbn [size]. destruct I as [->|[]]; lia.
Qed.
Lemma size_pos e : 1 <= size e.
Proof. destruct e; cbn; lia. Qed.

Section Same.
  (** May the second expression go wrong where the first does not? *)
  Variable lax : bool.
  Variable R : id -> id -> Prop.
  Hypothesis R_fun : forall x y y', R x y -> R x y' -> y = y'.
  Hypothesis R_inj : forall x x' y, R x y -> R x' y -> x = x'.
  Definition SR (s s' : store) : Prop := forall x y, R x y -> s x = s' y.
  Definition le (r r' : result) : Prop :=
    match r with
    | Fine o s t => match r' with Fine o' s' t' => o = o' /\ t = t' /\ SR s s' | Wrong => lax = true | More => False end
    | _ => True
    end.
  Lemma SR_set s s' x y v : SR s s' -> R x y -> SR (set s x v) (set s' y v).
  Proof.
    intros H X a b A. unfold set. destruct (Nat.eqb_spec x a).
    - subst a. rewrite (R_fun _ _ _ X A), Nat.eqb_refl. reflexivity.
    - destruct (Nat.eqb_spec y b); [subst b; destruct (n (R_inj _ _ _ X A))|apply H, A].
  Qed.
  Lemma le_wrong r : lax = true -> le r Wrong.
  Proof. destruct r; auto. exact (fun _ => I). exact (fun _ => I). Qed.
  Lemma le_bind a a' k k' : le a a' -> (forall v s s' t, SR s s' -> le (k v s t) (k' v s' t)) -> le (bind a k) (bind a' k').
  Proof.
    intros A K. destruct a as [o s t| |]; try exact I. destruct a' as [o' s' t'| |]; cbn in A; [|apply le_wrong, A|contradiction].
    destruct A as (<- & <- & A). destruct o; cbn; auto.
  Qed.
  Lemma le_fine o s s' t : SR s s' -> le (Fine o s t) (Fine o s' t).
  Proof. cbn. auto. Qed.
  Lemma le_finish o s s' t : SR s s' -> le (finish o s t) (finish o s' t).
  Proof. intros H. destruct o; cbn; auto. Qed.
  Definition good (ev ev' : expr -> store -> trace -> result) (e e' : expr) : Prop := forall s s' t, SR s s' -> le (ev e s t) (ev' e' s' t).
  Lemma le_list ev ev' es es' : Forall2 (good ev ev') es es' -> forall k k' s s' t, (forall vs s s' t, SR s s' -> le (k vs s t) (k' vs s' t)) -> SR s s' ->
    le (ev_list ev es k s t) (ev_list ev' es' k' s' t).
  Proof.
    induction 1 as [|e e' es es' G F IH]; intros k k' s s' t K H; cbn; [apply K, H|]. apply le_bind; [apply G, H|].
    intros v s1 s1' t1 H1. apply IH; [|exact H1]. intros. apply K. assumption.
  Qed.
  Lemma le_opt ev ev' e e' : opt_rel (good ev ev') e e' -> forall k k' s s' t, (forall v s s' t, SR s s' -> le (k v s t) (k' v s' t)) -> SR s s' ->
    le (ev_opt ev e k s t) (ev_opt ev' e' k' s' t).
  Proof. intros [|x y G] k k' s s' t K H; cbn; [apply K, H|]. apply le_bind; [apply G, H|]. intros. apply K. assumption. Qed.

  (** ** Patterns *)
  Definition brel : bindings -> bindings -> Prop := Forall2 (fun a b => R (fst a) (fst b) /\ snd a = snd b).
  Definition orel (a b : option bindings) : Prop := opt_rel brel a b.
  Lemma orel_join a a' b b' : orel a a' -> orel b b' -> orel (join a b) (join a' b').
  Proof. intros [|x y A] [|u v B]; cbn; constructor. apply Forall2_app; assumption. Qed.
  Lemma SR_bind s s' b b' : SR s s' -> brel b b' -> SR (bind_all s b) (bind_all s' b').
  Proof.
    intros H B. revert s s' H. induction B as [|[x v] [y u] b b' [X V] B IH]; intros s s' H; cbn; [exact H|]. cbn in X, V. subst u. apply IH, SR_set; assumption.
  Qed.
  Section Pats.
    Variable f f' : pat -> val -> option bindings.
    Let pg (p p' : pat) := forall v, orel (f p v) (f' p' v).
    Lemma orel_all ps ps' : Forall2 pg ps ps' -> forall vs, orel (match_all f ps vs) (match_all f' ps' vs).
    Proof. induction 1 as [|p p' ps ps' A F IH]; intros [|v vs]; cbn; try (repeat constructor; fail). apply orel_join; [apply A|apply IH]. Qed.
    Lemma Forall2_firstn {A B} (Q : A -> B -> Prop) l l' : Forall2 Q l l' -> forall k, Forall2 Q (firstn k l) (firstn k l').
    Proof. induction 1; intros [|k]; cbn; constructor; auto. Qed.
    Lemma Forall2_skipn {A B} (Q : A -> B -> Prop) l l' : Forall2 Q l l' -> forall k, Forall2 Q (skipn k l) (skipn k l').
    Proof. induction 1; intros [|k]; cbn; try constructor; auto. Qed.
    Lemma orel_dd ps ps' d : Forall2 pg ps ps' -> forall vs, orel (match_dd f ps d vs) (match_dd f' ps' d vs).
    Proof.
      intros F vs. destruct d as [k|]; cbn; [|apply orel_all, F].
      pose proof (Forall2_skipn _ _ _ F k) as FK. rewrite <- (Forall2_len _ _ _ F), <- (Forall2_len _ _ _ FK).
      destruct (_ <=? _); [|constructor]. apply orel_join; apply orel_all; [apply Forall2_firstn, F|exact FK].
    Qed.
    Lemma orel_fields fs fs' : Forall2 (fun a b => fst a = fst b /\ pg (snd a) (snd b)) fs fs' -> forall vs, orel (match_fields f fs vs) (match_fields f' fs' vs).
    Proof.
      induction 1 as [|[a p] [a' p'] fs fs' [A P] F IH]; intros vs; cbn; [repeat constructor|]. cbn in A, P. subst a'.
      destruct (lookup a vs) as [v|]; [|constructor]. apply orel_join; [apply P|apply IH].
    Qed.
  End Pats.
  Lemma Forall2_impl_in {A B} (P Q : A -> B -> Prop) l l' : Forall2 P l l' -> (forall x y, In x l -> In y l' -> P x y -> Q x y) -> Forall2 Q l l'.
  Proof. induction 1 as [|a b l l' HA F IH]; intros H; constructor; [apply H; cbn; auto|]. apply IH. intros. apply H; cbn; auto. Qed.
  Lemma opt_rel_impl {A} (P Q : A -> A -> Prop) a b : opt_rel P a b -> (forall x y, a = Some x -> b = Some y -> P x y -> Q x y) -> opt_rel Q a b.
  Proof. intros [|x y H] F; constructor. auto. Qed.
  Lemma orel_pat n : forall p p' v, pat_sim R p p' -> orel (match_pat n p v) (match_pat n p' v).
  Proof.
    induction n as [|n IH]; intros p p' v S; [constructor|].
    assert (FI : forall ps ps', Forall2 (pat_sim R) ps ps' -> Forall2 (fun p p' => forall v, orel (match_pat n p v) (match_pat n p' v)) ps ps').
    { intros ps ps' F. apply (Forall2_impl_in _ _ _ _ F). intros. apply IH. assumption. }
    destruct S as [|m m' x y p p' X [|a b O]|l|a b i|m m' p p' S|ps ps' d F|q ps ps' d F|q fs fs' r r' F]; cbn [match_pat].
    - repeat constructor.
    - repeat constructor. exact X.
    - apply orel_join; [apply IH, O|]. repeat constructor. exact X.
    - destruct v as [w| | | | | |]; try constructor. destruct (lit_eqb l w); repeat constructor.
    - destruct v as [w| | | | | |]; try constructor. destruct (_ && _)%bool; repeat constructor.
    - destruct v; try constructor. apply IH, S.
    - destruct v; try constructor. apply orel_dd, FI, F.
    - destruct v; try constructor. destruct (q =? path); [apply orel_dd, FI, F|constructor].
    - destruct v; try constructor. destruct (q =? path); [|constructor]. apply orel_fields. apply (Forall2_impl_in _ _ _ _ F). intros a b _ _ [A B]. split; [exact A|].
      intros. apply IH, B.
  Qed.
  Lemma pat_size_sim n : forall p p', pat_size p <= n -> pat_sim R p p' -> pat_size p = pat_size p'.
  Proof.
    induction n as [|n IH]; intros p p' L S; [destruct p as [|? ? [|]| | | | | | |]; cbn in L; lia|].
    assert (FI : forall ps ps', Forall2 (pat_sim R) ps ps' -> list_sum (map pat_size ps) <= n -> list_sum (map pat_size ps) = list_sum (map pat_size ps')).
    { intros ps ps' F. induction F as [|p1 p2 ps ps' A F IF]; [reflexivity|].
      change (list_sum (map pat_size (p1 :: ps))) with (pat_size p1 + list_sum (map pat_size ps)). change (list_sum (map pat_size (p2 :: ps'))) with (pat_size p2 + list_sum (map pat_size ps')).
      intros B. rewrite (IH p1 p2 ltac:(lia) A), IF; [reflexivity|lia]. }
    destruct S as [|m m' x y p p' X [|a b O]|l|a b i|m m' p p' S|ps ps' d F|q ps ps' d F|q fs fs' r r' F]; cbn [pat_size] in *; try reflexivity.
    - rewrite (IH a b); [reflexivity|lia|exact O].
    - rewrite (IH p p'); [reflexivity|lia|exact S].
    - rewrite (FI _ _ F); [reflexivity|lia].
    - rewrite (FI _ _ F); [reflexivity|lia].
    - f_equal. assert (list_sum (map (fun f => pat_size (snd f)) fs) <= n) as B by lia. clear L. revert B.
      induction F as [|[c p1] [c' p2] fs fs' [_ A] F IF]; [reflexivity|]. cbn in A.
      change (list_sum (map (fun f => pat_size (snd f)) ((c, p1) :: fs))) with (pat_size p1 + list_sum (map (fun f : name * pat => pat_size (snd f)) fs)).
      change (list_sum (map (fun f => pat_size (snd f)) ((c', p2) :: fs'))) with (pat_size p2 + list_sum (map (fun f : name * pat => pat_size (snd f)) fs')).
      intros B. rewrite (IH p1 p2 ltac:(lia) A), IF; [reflexivity|lia].
  Qed.
  Lemma orel_matches p p' v : pat_sim R p p' -> orel (matches p v) (matches p' v).
  Proof. intros S. unfold matches. rewrite <- (pat_size_sim _ _ _ (Nat.le_refl _) S). apply orel_pat, S. Qed.

  (** ** Statements, arms and blocks, given the expressions *)
  Section Parts.
    Variables ev ev' : expr -> store -> trace -> result.
    Variable E : expr -> expr -> Prop.
    Variable P : pat -> pat -> Prop.
    Variable okp : expr -> Prop.
    Hypothesis EG : forall e e', E e e' -> okp e' -> good ev ev' e e'.
    Hypothesis PM : forall p p' v, P p p' -> orel (matches p v) (matches p' v).
    Definition bgood (blk blk' : list stmt * option expr -> store -> trace -> result) : Prop :=
      forall b b', block_rel E P b b' -> (forall c, In c (block_parts b') -> okp c) -> forall s s' t, SR s s' -> le (blk b s t) (blk' b' s' t).
    Lemma le_stmt blk blk' x x' k k' s s' t : bgood blk blk' -> stmt_rel E P x x' -> (forall c, In c (stmt_parts x') -> okp c) ->
      (forall s s' t, SR s s' -> le (k s t) (k' s' t)) -> SR s s' -> le (ev_stmt ev blk x k s t) (ev_stmt ev' blk' x' k' s' t).
    Proof.
      intros B S O K H. destruct S as [p p' a a' ty ty' i i' PP OI|p p' a a' ty ty' i i' ss ss' b b' PP OI FS OB|e e' S|e e' S|]; cbn [ev_stmt].
      - destruct OI as [|e e' S]; [apply K, H|]. apply le_bind; [apply EG; [exact S|apply O; cbn; auto|exact H]|].
        intros v s1 s1' t1 H1. destruct (PM p p' v PP) as [|x y M]; [exact I|]. apply K, SR_bind; assumption.
      - destruct OI as [|e e' S]; [apply K, H|]. apply le_bind; [apply EG; [exact S|apply O; cbn; auto|exact H]|].
        intros v s1 s1' t1 H1. destruct (PM p p' v PP) as [|x y M]; [|apply K, SR_bind; assumption].
        apply le_bind; [|intros; exact I]. apply B; [constructor; assumption| |exact H1]. intros c I. apply O. cbn. right. exact I.
      - apply le_bind; [apply EG; [exact S|apply O; cbn; auto|exact H]|]. intros. apply K. assumption.
      - apply le_bind; [apply EG; [exact S|apply O; cbn; auto|exact H]|]. intros. apply K. assumption.
      - apply K, H.
    Qed.
    Lemma le_stmts blk blk' ss ss' : bgood blk blk' -> Forall2 (stmt_rel E P) ss ss' -> (forall c, In c (flat_map stmt_parts ss') -> okp c) ->
      forall k k' s s' t, (forall s s' t, SR s s' -> le (k s t) (k' s' t)) -> SR s s' -> le (ev_stmts ev blk ss k s t) (ev_stmts ev' blk' ss' k' s' t).
    Proof.
      intros B F. induction F as [|x x' ss ss' S F IH]; intros O k k' s s' t K H; cbn [ev_stmts]; [apply K, H|].
      apply le_stmt; [exact B|exact S|intros c I; apply O; cbn; apply in_or_app; auto| |exact H].
      intros. apply IH; auto. intros c I. apply O. cbn. apply in_or_app. auto.
    Qed.
    Lemma le_block n n' : n <= n' -> bgood (block ev n) (block ev' n').
    Proof.
      revert n'. induction n as [|n IH]; intros n' L b b' S O s s' t H; [exact I|]. destruct n' as [|n']; [lia|]. cbn [block].
      destruct S as [ss ss' e e' F OT]. cbn [fst snd].
      apply le_stmts; [apply IH; lia|exact F|intros c I; apply O; unfold block_parts; apply in_or_app; auto| |exact H].
      intros s1 s1' t1 H1. destruct OT as [|x y S]; cbn [ev_tail]; [apply le_fine, H1|]. apply EG; [exact S| |exact H1].
      apply O. unfold block_parts. apply in_or_app. cbn. auto.
    Qed.
    Lemma le_arms arms arms' : Forall2 (arm_rel E P) arms arms' -> (forall c, In c (flat_map arm_parts arms') -> okp c) ->
      forall v s s' t, SR s s' -> le (ev_arms ev arms v s t) (ev_arms ev' arms' v s' t).
    Proof.
      induction 1 as [|a a' arms arms' A F IH]; intros O v s s' t H; cbn [ev_arms]; [exact I|]. destruct A as [p p' g g' b b' PP OG EB].
      assert (OB : okp b') by (apply O; cbn; unfold arm_parts; cbn; apply in_or_app; left; apply in_or_app; cbn; auto).
      assert (OR : forall c, In c (flat_map arm_parts arms') -> okp c) by (intros c I; apply O; cbn; apply in_or_app; auto).
      destruct (PM p p' v PP) as [|x y M]; [apply IH; assumption|]. pose proof (SR_bind _ _ _ _ H M) as HB.
      destruct OG as [|g g' EGG]; [apply EG; assumption|].
      apply le_bind; [apply EG; [exact EGG|apply O; cbn; auto|exact HB]|]. intros u s1 s1' t1 H1.
      destruct (truth u) as [[|]|]; [apply EG; assumption|apply IH; assumption|exact I].
    Qed.
  End Parts.
End Same.
