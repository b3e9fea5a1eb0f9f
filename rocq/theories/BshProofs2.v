From Coq Require Import List ZArith Bool PeanoNat Lia.
Import ListNotations.
From Verif Require Import BshSpec BshModel BshProofs.

(* What the scan finds *)
Lemma heads_spec p others : heads p others = true -> forall b, In b others -> exists t r, b = t :: r /\ p t = true.
Proof.
  unfold heads. rewrite forallb_forall. intros H b I. specialize (H b I). destruct b as [|t r]; [discriminate|]. exists t, r. auto.
Qed.
Definition modifies (l : list stmt) : list name := flat_map modified l.
Lemma start_spec first : forall locals others n, start_end_eq locals first others = n ->
  (forall b, In b (first :: others) -> n <= length b /\ firstn n b = firstn n first) /\
  (forall x, In x locals -> ~ In x (bound (firstn n first)) -> ~ In x (modifies (firstn n first))).
Proof.
  induction first as [|s first IH]; intros locals others n; cbn [start_end_eq].
  - intros <-. split; [intros b _; split; [lia|destruct b; reflexivity]|intros x _ _ []].
  - assert (Z : forall b : list stmt, 0 <= length b /\ firstn 0 b = firstn 0 (s :: first)) by (intros; split; [lia|reflexivity]).
    destruct (modifies_any_local locals s) eqn:M; [intros <-; split; [intros; apply Z|intros x _ _ []]|].
    destruct (heads (eqb stmt_dec s) others) eqn:H; [|intros <-; split; [intros; apply Z|intros x _ _ []]].
    intros <-. set (ls := filter _ locals). set (k := start_end_eq ls first (map (@tl stmt) others)).
    destruct (IH ls (map (@tl stmt) others) k eq_refl) as (B & L).
    pose proof (heads_spec _ _ H) as Hd. split.
    + intros b [<-|I].
      * destruct (B first (or_introl eq_refl)) as (B1 & _). cbn. split; [lia|reflexivity].
      * destruct (Hd b I) as (t & r & -> & E). apply eqb_true in E. subst t.
        destruct (B r) as (B1 & B2). { right. apply in_map_iff. exists (s :: r). auto. }
        cbn. split; [lia|]. rewrite B2. reflexivity.
    + intros x I N. cbn [firstn] in *. change (s :: firstn k first) with ([s] ++ firstn k first) in N. rewrite bound_app in N.
      unfold modifies. cbn [flat_map]. rewrite in_app_iff in N |- *. intros [J|J].
      * unfold modifies_any_local in M. assert (X : existsb (fun x => mem x locals) (modified s) = true).
        { apply existsb_exists. exists x. split; [exact J|]. apply mem_in. exact I. }
        congruence.
      * revert J. apply L; [|tauto]. apply filter_In. split; [exact I|]. apply negb_true_iff, mem_nin. tauto.
Qed.
Lemma search_spec first : forall others, end_search first others <= length first /\
  forall b, In b others -> end_search first others <= length b.
Proof.
  induction first as [|s first IH]; intros others; cbn [end_search]; [split; [lia|intros; lia]|].
  destruct (heads _ others) eqn:H; [|split; intros; lia]. destruct (IH (map (@tl stmt) others)) as (A & B).
  split; [cbn; lia|]. intros b I. destruct (heads_spec _ _ H b I) as (t & r & -> & _). cbn.
  specialize (B r). assert (In r (map (@tl stmt) others)) by (apply in_map_iff; exists (t :: r); auto). specialize (B H0). lia.
Qed.
Lemma end_spec first : forall others own acc l own2, end_begin_eq first others own acc = (l, own2) ->
  (forall b, In b others -> length b = length first) ->
  (forall a s b, acc = a ++ s :: b -> resolves own a (used s) = true) ->
  incl own own2 /\
  (forall a s b, l = a ++ s :: b -> resolves own2 a (used s) = true) /\
  (forall b, In b (first :: others) -> exists q, acc ++ b = q ++ l /\ incl (bound q) own2).
Proof.
  induction first as [|s first IH]; intros others own acc l own2; cbn [end_begin_eq].
  - intros E L V. injection E as <- <-. split; [apply incl_refl|]. split; [exact V|].
    intros b I. exists []. split; [|intros x []]. destruct b; [rewrite app_nil_r; reflexivity|].
    destruct I as [I|I]; [discriminate I|]. discriminate (L _ I).
  - destruct (heads (eqb stmt_dec s) others && resolves own acc (used s)) eqn:H.
    + apply andb_prop in H as (H & R). intros E L V.
      assert (L' : forall b, In b (map (@tl stmt) others) -> length b = length first).
      { intros b I. apply in_map_iff in I as (c & <- & I). specialize (L c I). destruct c; [discriminate|]. cbn in *. lia. }
      destruct (IH _ _ _ _ _ E L') as (I1 & V1 & Q).
      { intros a t b Eq. destruct b as [|u b] using rev_ind.
        - apply app_inj_tail in Eq as (-> & ->). exact R.
        - rewrite app_comm_cons, app_assoc in Eq. apply app_inj_tail in Eq as (Eq & _). eapply V. exact Eq. }
      split; [exact I1|]. split; [exact V1|]. intros b [<-|I].
      * destruct (Q first (or_introl eq_refl)) as (q & E1 & B). exists q. rewrite <- app_assoc in E1. auto.
      * destruct (heads_spec _ _ H b I) as (t & r & -> & Et). apply eqb_true in Et. subst t.
        destruct (Q r) as (q & E1 & B). { right. apply in_map_iff. exists (s :: r). auto. }
        exists q. rewrite <- app_assoc in E1. auto.
    + intros E L _.
      assert (L' : forall b, In b (map (@tl stmt) others) -> length b = length first).
      { intros b I. apply in_map_iff in I as (c & <- & I). specialize (L c I). destruct c; [discriminate|]. cbn in *. lia. }
      destruct (IH _ _ _ _ _ E L') as (I1 & V1 & Q). { intros [|? ?] ? ?; discriminate. }
      assert (J : incl own own2 /\ incl (bound acc) own2 /\ incl (bound [s]) own2 /\
                  incl (bound (flat_map (fun b => firstn 1 b) others)) own2).
      { repeat split; intros x K; apply I1; rewrite !in_app_iff; auto. }
      destruct J as (J1 & J2 & J3 & J4). split; [exact J1|]. split; [exact V1|]. intros b I.
      assert (K : exists t r, b = t :: r /\ incl (bound [t]) own2 /\ In r (first :: map (@tl stmt) others)).
      { destruct I as [<-|I]; [exists s, first; cbn; auto|]. pose proof (L b I) as Lb. destruct b as [|t r]; [discriminate|].
        exists t, r. split; [reflexivity|]. split.
        - intros x K. apply J4. unfold bound in *. apply in_flat_map. cbn in K. rewrite app_nil_r in K. exists t. split; [|exact K].
          apply in_flat_map. exists (t :: r). cbn. auto.
        - right. apply in_map_iff. exists (t :: r). auto. }
      destruct K as (t & r & -> & Bt & Ir). destruct (Q r Ir) as (q & E1 & B). cbn [app] in E1. subst r.
      exists (acc ++ [t] ++ q). split; [rewrite <- !app_assoc; reflexivity|].
      rewrite !bound_app. intros x K. rewrite !in_app_iff in K. destruct K as [K|[K|K]]; auto.
Qed.
Lemma tails_spec p others : all_tails p others = true -> forall b, In b others -> exists e, snd b = Some e /\ p e = true.
Proof.
  unfold all_tails. rewrite forallb_forall. intros H b I. specialize (H b I). destruct (snd b) as [e|]; [exists e; auto|discriminate].
Qed.
Definition tail_names (t : option expr) : list name := match t with Some e => names e | None => [] end.

Lemma scan_spec cs first others n last : scan cs first others = (n, last) ->
  (forall b, In b (first :: others) -> n <= length (fst b) /\ firstn n (fst b) = firstn n (fst first)) /\
  (forall x, In x (flat_map names cs) -> ~ In x (bound (firstn n (fst first))) -> ~ In x (modifies (firstn n (fst first)))) /\
  match last with
  | None => True
  | Some (l, t) => exists own, visible own l (tail_names t) /\
      (forall b, In b (first :: others) -> length l <= length (fst b)) /\
      forall b, In b (first :: others) -> n + length l <= length (fst b) ->
        snd b = t /\ exists mid, fst b = firstn n (fst first) ++ mid ++ l /\ incl (bound mid) own
  end.
Proof.
  unfold scan. set (n' := start_end_eq _ _ _).
  destruct (start_spec (fst first) (flat_map names cs) (map fst others) n' eq_refl) as (B & M).
  assert (B' : forall b, In b (first :: others) -> n' <= length (fst b) /\ firstn n' (fst b) = firstn n' (fst first)).
  { intros b [<-|I]; apply B; [left; reflexivity|]. right. apply in_map. exact I. }
  clear B. intros E.
  assert (G : n = n' /\ match last with None => True | Some (l, t) => exists own, visible own l (tail_names t) /\
      (forall b, In b (first :: others) -> length l <= length (fst b)) /\
      forall b, In b (first :: others) -> n' + length l <= length (fst b) ->
        snd b = t /\ exists mid, fst b = firstn n' (fst first) ++ mid ++ l /\ incl (bound mid) own end).
  2:{ destruct G as (-> & G). split; [exact B'|]. split; [exact M|exact G]. }
  match type of E with (if ?c then _ else _) = _ => destruct c eqn:Hash end; [|injection E as <- <-; auto].
  set (k := end_search (rev (skipn n' (fst first))) (map (fun b : block => rev (fst b)) others)) in *.
  destruct (search_spec (rev (skipn n' (fst first))) (map (fun b : block => rev (fst b)) others)) as (K1 & K2).
  fold k in K1, K2. rewrite rev_length in K1.
  assert (K : forall b, In b (first :: others) -> k <= length (fst b)).
  { intros b [<-|I]; [rewrite skipn_length in K1; lia|]. rewrite <- rev_length. apply K2.
    apply in_map_iff. exists b. auto. }
  set (own0 := flat_map (fun b : block => bound (skipn n' (firstn (length (fst b) - k) (fst b)))) (first :: others)) in *.
  assert (O : forall b, In b (first :: others) -> incl (bound (skipn n' (firstn (length (fst b) - k) (fst b)))) own0).
  { intros b I x X. unfold own0. apply in_flat_map. exists b. auto. }
  clearbody own0.
  destruct (end_begin_eq _ _ own0 []) as [l own] eqn:En.
  assert (Ll : forall b, In b (map (fun b : block => last_n k (fst b)) others) -> length b = length (last_n k (fst first))).
  { intros b I. apply in_map_iff in I as (c & <- & I). unfold last_n. rewrite !skipn_length.
    pose proof (K c (or_intror I)). pose proof (K first (or_introl eq_refl)). lia. }
  destruct (end_spec _ _ _ _ _ _ En Ll) as (Io & V & Q). { intros [|? ?] ? ?; discriminate. }
  assert (Short : forall b, In b (first :: others) -> length l <= length (fst b)).
  { intros b I. destruct (Q (last_n k (fst b))) as (q & Eq & _).
    { destruct I as [<-|I]; [left; reflexivity|right; apply in_map_iff; exists b; auto]. }
    cbn [app] in Eq. apply (f_equal (@length stmt)) in Eq. unfold last_n in Eq. rewrite skipn_length, app_length in Eq. lia. }
  assert (Split : forall b, In b (first :: others) -> n' + length l <= length (fst b) ->
    exists mid, fst b = firstn n' (fst first) ++ mid ++ l /\ incl (bound mid) own).
  { intros b I Len. destruct (Q (last_n k (fst b))) as (q & Eq & Bq).
    { destruct I as [<-|I]; [left; reflexivity|right; apply in_map_iff; exists b; auto]. }
    cbn [app] in Eq. destruct (B' b I) as (Ln & Ef). specialize (K b I). specialize (O b I).
    set (p := firstn (length (fst b) - k) (fst b)) in *.
    assert (Eb : fst b = (p ++ q) ++ l). { rewrite <- app_assoc, <- Eq. unfold p, last_n. symmetry. apply firstn_skipn. }
    exists (skipn n' (p ++ q)). split.
    - rewrite <- Ef. rewrite Eb at 1 2. rewrite Eb, app_length in Len.
      assert (Lpq : n' <= length (p ++ q)) by lia.
      rewrite firstn_app. replace (n' - length (p ++ q)) with 0 by lia. cbn [firstn]. rewrite app_nil_r, app_assoc, firstn_skipn. reflexivity.
    - rewrite skipn_app, bound_app. intros x X. apply in_app_or in X as [X|X]; [apply Io, O, X|].
      apply Bq. clear - X. revert X. generalize (n' - length p). intros j X. rewrite <- (firstn_skipn j q), bound_app. apply in_or_app. auto. }
  destruct (snd first) as [e|] eqn:Et.
  - destruct (all_tails (eqb expr_dec e) others && resolves own l (names e)) eqn:T; injection E as <- <-; [|auto].
    apply andb_prop in T as (T & R). split; [reflexivity|]. exists own. split; [split; [exact V|exact R]|]. split; [exact Short|].
    intros b I Len. split; [|apply Split; assumption]. destruct I as [<-|I]; [exact Et|].
    destruct (tails_spec _ _ T b I) as (e2 & -> & Ee). apply eqb_true in Ee. congruence.
  - injection E as <- <-. split; [reflexivity|]. exists own. split; [split; [exact V|reflexivity]|]. split; [exact Short|].
    intros b I Len. split; [|apply Split; assumption]. destruct I as [<-|I]; [exact Et|].
    rewrite forallb_forall in Hash. specialize (Hash b I). destruct (snd b); [discriminate|reflexivity].
Qed.

Section R.
Variable op : nat -> Z -> Z -> Z.
Variable calls changes : nat -> Z -> trace -> Z.
Notation eval := (eval op calls changes).
Notation steps := (steps op calls changes).
Notation run_block := (run_block op calls changes).
Notation run_if := (run_if op calls changes).
Notation run_match := (run_match op calls changes).
Notation run_around := (run_around op calls changes).

Lemma steps_keep l : forall m h m' h' x, steps l m h = Go m' h' -> ~ In x (bound l) -> ~ In x (modifies l) -> lookup x m' = lookup x m.
Proof.
  induction l as [|s l IH]; intros m h m' h' x; cbn [BshSpec.steps].
  - intros E; injection E as <- <-; reflexivity.
  - change (bound (s :: l)) with (bound ([s] ++ l)). rewrite bound_app. unfold modifies. cbn [flat_map]. rewrite !in_app_iff.
    intros E N1 N2. destruct s as [y e|y e|e|e]; cbn [BshSpec.step modified bound flat_map app] in *;
      destruct (eval e m h) as [[v m1] h1] eqn:Ee; try discriminate E; destruct (eval_dom _ _ _ _ _ _ _ _ _ Ee) as (_ & L).
    + rewrite (IH _ _ _ _ x E) by tauto. cbn. destruct (Nat.eqb_spec y x) as [Eq|_]; [exfalso; apply N1; left; left; exact Eq|]. apply L. tauto.
    + rewrite (IH _ _ _ _ x E) by tauto. rewrite lookup_other; [apply L; intros F; apply N2; left; right; exact F|].
      intros ->. apply N2. left. left. reflexivity.
    + rewrite (IH _ _ _ _ x E) by tauto. apply L. tauto.
Qed.
Lemma skip_skip {A} a b (m : list A) : skipn a (skipn b m) = skipn (b + a) m.
Proof. revert m. induction b as [|b IH]; intros [|x m]; try reflexivity; [apply skipn_nil|]. apply IH. Qed.
Lemma leave_leave n k m : n <= k -> k <= length m -> leave n (leave k m) = leave n m.
Proof.
  intros A B. unfold leave. rewrite skipn_length, skip_skip. f_equal. lia.
Qed.
Definition outer (n : nat) (r : result) : result := match r with Value v m h => Value v (leave n m) h | r => r end.
Definition after (st : list stmt) (r : env -> trace -> result) (m : env) (h : trace) : result :=
  match steps st m h with Go m1 h => outer (length m) (r m1 h) | Ret v h => Returned v h end.

Lemma block_after st b t m h : run_block (st ++ b, t) m h = after st (run_block (b, t)) m h.
Proof.
  unfold after, BshSpec.run_block. cbn [fst snd]. rewrite steps_app.
  destruct (steps st m h) as [m1 h1|] eqn:E; [|reflexivity]. destruct (steps b m1 h1) as [m2 h2|] eqn:E2; [|reflexivity].
  destruct (steps_shape _ _ _ _ _ _ _ _ E) as (x1 & o1 & -> & _ & _ & D1).
  destruct (steps_shape _ _ _ _ _ _ _ _ E2) as (x2 & o2 & -> & _ & _ & D2).
  destruct (tail op calls changes t (x2 ++ o2) h2) as [[v m3] h3] eqn:Et. cbn [outer].
  assert (D3 : dom m3 = dom (x2 ++ o2)).
  { destruct t; cbn [tail] in Et; [apply (eval_dom _ _ _ _ _ _ _ _ _ Et)|injection Et as <- <- <-; reflexivity]. }
  apply dom_length in D1, D2, D3. rewrite !app_length in D3. rewrite app_length in D2.
  rewrite leave_leave; [reflexivity| |]; rewrite app_length; lia.
Qed.
Lemma start_out st rs : forall cs bs m h, length bs = S (length cs) ->
  forallb pure cs = true -> (forall x, In x (flat_map names cs) -> ~ In x (bound st) /\ ~ In x (modifies st)) ->
  Forall2 (fun b r => fst b = st ++ fst r /\ snd b = snd r) bs rs ->
  run_if cs bs m h = after st (run_if cs rs) m h.
Proof.
  intros cs bs. revert cs rs. induction bs as [|b bs IH]; intros cs rs m h L P N F; [discriminate L|].
  inversion F as [|? r ? rs' (F1 & F2) F' Eb Er]. subst. destruct cs as [|c cs]; cbn [BshSpec.run_if].
  - destruct b as [b t], r as [r t']. cbn in F1, F2. subst. apply block_after.
  - cbn in P. apply andb_prop in P as (Pc & P). destruct (pure_eval op calls changes c Pc m h) as (v & Ev & Same). rewrite Ev.
    unfold after. cbn [BshSpec.run_if].
    assert (L1 : length bs = S (length cs)) by (cbn in L; lia).
    assert (N1 : forall x, In x (flat_map names cs) -> ~ In x (bound st) /\ ~ In x (modifies st)).
    { intros x H. apply N. cbn. apply in_or_app. auto. }
    specialize (IH cs rs' m h L1 P N1 F').
    destruct (steps st m h) as [m1 h1|] eqn:E.
    + rewrite (Same m1 h1).
      2:{ intros x H. destruct (N x) as (A & B); [cbn; apply in_or_app; auto|]. exact (steps_keep _ _ _ _ _ x E A B). }
      destruct (v =? 0)%Z.
      * rewrite IH. unfold after. rewrite E. reflexivity.
      * destruct b as [b t], r as [r t']. cbn in F1, F2. subst. rewrite block_after. unfold after. rewrite E. reflexivity.
    + destruct (v =? 0)%Z.
      * rewrite IH. unfold after. rewrite E. reflexivity.
      * destruct b as [b t], r as [r t']. cbn in F1, F2. subst. rewrite block_after. unfold after. rewrite E. reflexivity.
Qed.
Definition before (r : result) (k : env -> trace -> result) : result := match r with Value _ m h => k m h | Returned v h => Returned v h end.
Lemma ends_out own l t rs : visible own l (tail_names t) -> forall cs bs m h, length bs = S (length cs) ->
  Forall2 (fun b r => fst b = fst r ++ l /\ snd b = t /\ snd r = None /\ incl (bound (fst r)) own) bs rs ->
  run_if cs bs m h = before (run_if cs rs m h) (run_block (l, t)).
Proof.
  intros V cs bs. revert cs rs. induction bs as [|b bs IH]; intros cs rs m h L F; [discriminate L|].
  inversion F as [|? r ? rs' (F1 & F2 & F3 & F4) F' Eb Er]. subst. destruct b as [b t'], r as [r t2]. cbn in F1, F3, F4, V |- *. subst.
  assert (X : forall m h, run_block (r ++ l, t') m h = before (run_block (r, None) m h) (run_block (l, t'))).
  { intros. rewrite (end_out op calls changes own) by assumption. destruct (run_block (r, None) _ _); reflexivity. }
  destruct cs as [|c cs]; [apply X|]. cbn [BshSpec.run_if]. destruct (eval c m h) as [[v m1] h1]. destruct (v =? 0)%Z; [|apply X].
  apply IH; [cbn in L; lia|exact F'].
Qed.

Definition enough (n : nat) (last : option (list stmt * option expr)) (b : block) : Prop :=
  n + match last with Some (l, _) => length l | None => 0 end <= length (fst b).
Theorem check_sound cs bs r : check cs bs = Some r -> length bs = S (length cs) ->
  forallb pure cs = true -> (forall x, In x (flat_map names cs) -> ~ In x (bound (start_ r))) ->
  (forall b, In b bs -> enough (length (start_ r)) (end_ r) b) ->
  forall m h, run_around (start_ r) (run_if cs (blocks_ r)) (end_ r) m h = run_if cs bs m h.
Proof.
  unfold check. destruct bs as [|first [|second others]]; [discriminate|discriminate|].
  set (oth := second :: others). destruct (scan cs first oth) as [n last] eqn:Es. intros E L P N Len m h.
  assert (Er : r = {| start_ := firstn n (fst first); blocks_ := map (rest n last) (first :: oth); end_ := last |}).
  { destruct n; [destruct last as [[[|] [|]]|]|]; congruence. }
  clear E. subst r. cbn [start_ blocks_ end_] in *.
  destruct (scan_spec _ _ _ _ _ Es) as (B & M & W). clear Es. set (st := firstn n (fst first)) in *.
  assert (Ln : length st = n). { unfold st. destruct (B first (or_introl eq_refl)) as (Z & _). apply firstn_length_le. exact Z. }
  rewrite Ln in Len.
  set (rs := map (fun b : block => (skipn n (fst b), snd b)) (first :: oth)).
  assert (F : Forall2 (fun b r => fst b = st ++ fst r /\ snd b = snd r) (first :: oth) rs).
  { unfold rs. clear - B. revert B. generalize (first :: oth) as all. intros all B.
    assert (B' : forall b, In b all -> fst b = st ++ skipn n (fst b)).
    { intros b I. destruct (B b I) as (_ & Eq). rewrite <- Eq. symmetry. apply firstn_skipn. }
    clear B. induction all as [|b all IH]; [constructor|]. constructor; [cbn; split; [apply B'; left; reflexivity|reflexivity]|].
    apply IH. intros c I. apply B'. right. exact I. }
  rewrite (start_out st rs cs (first :: oth) m h L P (fun x H => Logic.conj (N x H) (M x H (N x H))) F).
  unfold after, BshSpec.run_around. destruct (steps st m h) as [m1 h1|]; [|reflexivity].
  destruct last as [[l t]|].
  - destruct W as (own & V & _ & W).
    rewrite (ends_out own l t (map (rest n (Some (l, t))) (first :: oth)) V cs rs).
    + destruct (run_if cs (map (rest n (Some (l, t))) (first :: oth)) m1 h1); [|reflexivity]. cbn [before]. unfold outer. destruct (run_block (l, t) _ _); reflexivity.
    + unfold rs. rewrite map_length. exact L.
    + unfold rs. clear - W Len Ln. revert W Len. generalize (first :: oth) as all. intros all W Len.
      induction all as [|b all IH]; [constructor|]. constructor; [|apply IH; intros c I; [apply W|apply Len]; right; exact I].
      specialize (Len b (or_introl eq_refl)). unfold enough in Len. destruct (W b (or_introl eq_refl) Len) as (Et & mid & Eb & Im).
      cbn [rest fst snd]. assert (Mid : skipn n (firstn (length (fst b) - length l) (fst b)) = mid).
      { rewrite Eb, !app_length. replace (length st + (length mid + length l) - length l) with (length (st ++ mid) + 0) by (rewrite app_length; lia).
        rewrite app_assoc, firstn_app_2, app_nil_r, skipn_app, skipn_all2 by lia. rewrite Ln, Nat.sub_diag. reflexivity. }
      rewrite Mid. split; [|auto]. rewrite Eb. rewrite skipn_app, skipn_all2 by lia. rewrite Ln, Nat.sub_diag. reflexivity.
  - change (map (rest n None) (first :: oth)) with rs. destruct (run_if cs rs m1 h1); reflexivity.
Qed.

Lemma run_if_dom cs : forall bs m h v m' h', run_if cs bs m h = Value v m' h' -> dom m' = dom m.
Proof.
  induction cs as [|c cs IH]; intros [|b bs] m h v m' h'; cbn [BshSpec.run_if]; try (intros E; injection E as <- <- <-; reflexivity).
  - apply run_block_dom.
  - destruct (eval c m h) as [[u m1] h1] eqn:Ec. destruct (eval_dom _ _ _ _ _ _ _ _ _ Ec) as (D & _). rewrite <- D.
    destruct (u =? 0)%Z; [apply IH|apply run_block_dom].
Qed.
Theorem check_end_sound cs bs r : check cs bs = Some r -> length bs = S (length cs) -> start_ r = [] ->
  forall m h, run_around [] (run_if cs (blocks_ r)) (end_ r) m h = run_if cs bs m h.
Proof.
  unfold check. destruct bs as [|first [|second others]]; [discriminate|discriminate|].
  set (oth := second :: others). destruct (scan cs first oth) as [n last] eqn:Es. intros E L N m h.
  assert (Er : r = {| start_ := firstn n (fst first); blocks_ := map (rest n last) (first :: oth); end_ := last |}).
  { destruct n; [destruct last as [[[|] [|]]|]|]; congruence. }
  clear E. subst r. cbn [start_ blocks_ end_] in *.
  destruct (scan_spec _ _ _ _ _ Es) as (B & M & W).
  assert (n = 0).
  { destruct (B first (or_introl eq_refl)) as (Z & _). pose proof (firstn_length_le _ Z) as Q. rewrite N in Q. symmetry. exact Q. }
  subst n. clear Es B M N. unfold BshSpec.run_around. cbn [BshSpec.steps].
  destruct last as [[l t]|].
  - destruct W as (own & V & Short & W). rewrite (ends_out own l t (map (rest 0 (Some (l, t))) (first :: oth)) V cs (first :: oth) m h L).
    + destruct (run_if cs _ m h) as [v m1 h1|] eqn:R; [|reflexivity]. cbn [before].
      destruct (run_block (l, t) m1 h1) as [w m2 h2|] eqn:R2; [|reflexivity]. f_equal.
      apply run_block_dom, dom_length in R2. apply run_if_dom, dom_length in R. rewrite <- R, <- R2. apply leave_all.
    + clear - W Short. revert W Short. generalize (first :: oth) as all. intros all W Short.
      induction all as [|b all IH]; [constructor|]. constructor; [|apply IH; intros c I; [apply W|apply Short]; right; exact I].
      specialize (Short b (or_introl eq_refl)). destruct (W b (or_introl eq_refl) Short) as (Et & mid & Eb & Im).
      cbn [firstn app] in Eb. cbn [rest fst snd skipn]. rewrite Eb, app_length.
      replace (length mid + length l - length l) with (length mid + 0) by lia.
      rewrite firstn_app_2, app_nil_r. auto.
  - replace (map (rest 0 None) (first :: oth)) with (first :: oth).
    + destruct (run_if cs (first :: oth) m h) as [v m1 h1|] eqn:R; [|reflexivity].
      apply run_if_dom, dom_length in R. rewrite <- R, leave_all. reflexivity.
    + symmetry. rewrite <- (map_id (first :: oth)) at 2. apply map_ext. intros [a b]. reflexivity.
Qed.

Lemma select_map (P : name * block -> name * block) v arms : select v (map P arms) = option_map P (select v arms).
Proof.
  revert v. induction arms as [|a [|b arms] IH]; intros v; [reflexivity|reflexivity|]. cbn [map select] in *.
  destruct (v =? 0)%Z; [reflexivity|]. apply IH.
Qed.
Lemma select_in v arms a : select v arms = Some a -> In a arms.
Proof.
  revert v. induction arms as [|b [|c arms] IH]; intros v; [discriminate|intros E; injection E as ->; left; reflexivity|].
  cbn [select] in *. destruct (v =? 0)%Z; [intros E; injection E as ->; left; reflexivity|]. intros E. right. exact (IH _ E).
Qed.
Lemma select_some v a arms : exists b, select v (a :: arms) = Some b.
Proof.
  revert v a. induction arms as [|c arms IH]; intros v a; [eexists; reflexivity|]. cbn [select].
  destruct (v =? 0)%Z; [eexists; reflexivity|]. apply IH.
Qed.
Theorem match_sound e arms arms' t : check_match arms = Some (arms', t) ->
  forall m h, run_around [] (run_match e arms') (Some ([], Some t)) m h = run_match e arms m h.
Proof.
  unfold check_match. destruct arms as [|first [|second others]]; [discriminate|discriminate|].
  set (oth := second :: others). destruct (snd (snd first)) as [t'|] eqn:Et; [|discriminate].
  destruct (all_tails (eqb expr_dec t') (map snd oth) && _ && _) eqn:C; [|discriminate].
  apply andb_prop in C as (C & _). apply andb_prop in C as (C & R). intros E. injection E as <- <-. intros m h.
  assert (T : forall a, In a (first :: oth) -> snd (snd a) = Some t').
  { intros a [<-|I]; [exact Et|]. destruct (tails_spec _ _ C (snd a) (in_map snd _ _ I)) as (e2 & -> & Ee).
    apply eqb_true in Ee. congruence. }
  unfold BshSpec.run_around, BshSpec.run_match. cbn [BshSpec.steps].
  destruct (eval e m h) as [[v m1] h1] eqn:Ee. destruct (eval_dom _ _ _ _ _ _ _ _ _ Ee) as (D & _).
  assert (L : length m1 = length m) by (apply dom_length; exact D).
  replace (select v _) with (select v (map (fun a : name * block => (fst a, (fst (snd a), None) : block)) (first :: oth))) by reflexivity.
  rewrite select_map. destruct (select_some v first oth) as (a & Ea). rewrite Ea. cbn [option_map].
  pose proof (select_in _ _ _ Ea) as I. specialize (T a I). destruct a as [x [b ta]]. cbn [fst snd] in *. subst ta.
  set (own := flat_map arm_names (first :: oth)) in *.
  assert (O : incl (arm_names (x, (b, Some t'))) own) by (intros y Y; apply in_flat_map; exists (x, (b, Some t')); auto).
  (* as if the arm declared its variable *)
  pose proof (end_out op calls changes own (SLet x (ELit v) :: b) [] (Some t') m1 h1 O) as X.
  rewrite app_nil_r in X. specialize (X (Logic.conj (fun a s r (Q : [] = a ++ s :: r) => match app_cons_not_nil _ _ _ Q with end) R)).
  unfold BshSpec.run_block in *. cbn [fst snd BshSpec.steps BshSpec.step BshSpec.eval tail] in *.
  destruct (steps b ((x, v) :: m1) h1) as [m2 h2|w h2] eqn:Eb; [|reflexivity].
  destruct (steps_shape _ _ _ _ _ _ _ _ Eb) as (ext & o & -> & _ & _ & Do).
  destruct o as [|[x2 v2] o]; [discriminate Do|]. cbn in Do. injection Do as -> Do. pose proof (dom_length _ _ Do) as Lo.
  cbn [length] in *.
  rewrite (leave_app (S (length m1)) ext ((x, v2) :: o)) by (cbn; lia).
  rewrite (leave_app (length m1) [(x, v2)] o Lo : leave (length m1) ((x, v2) :: o) = o).
  replace (ext ++ (x, v2) :: o) with ((ext ++ [(x, v2)]) ++ o) in * by (rewrite <- app_assoc; reflexivity).
  rewrite (leave_app (length m1) (ext ++ [(x, v2)]) o) in X by exact Lo.
  destruct (eval t' ((ext ++ [(x, v2)]) ++ o) h2) as [[w3 m3] h3] eqn:E3.
  destruct (eval t' o h2) as [[w4 m4] h4] eqn:E4. injection X as -> X ->.
  destruct (eval_dom _ _ _ _ _ _ _ _ _ E3) as (D3 & _). destruct (eval_dom _ _ _ _ _ _ _ _ _ E4) as (D4 & _).
  apply dom_length in D3, D4. rewrite !app_length in D3. cbn in D3. rewrite L in *.
  f_equal. rewrite leave_leave by lia. rewrite (leave_leave (length m) (S (length m)) m3) by lia. rewrite X.
  rewrite Lo. reflexivity.
Qed.
End R.
