(** Proofs about [search_same]. *)
From Verif Require Export SameModel.
From Coq Require Import Permutation Sorted Lia.

Section Search.
  Context {T : Type}.
  Variable hash : T -> list Z.
  Variable eq : T -> T -> bool.
  Variable pos : T -> nat.
  Definition before (a b : T) : Prop := pos a < pos b.
  Definition headed (g : list T) (P : T -> list T -> Prop) : Prop := exists x rest, g = x :: rest /\ P x rest.

  Lemma add_bucket_cases x bucket :
    (exists pre y rest post, bucket = pre ++ (y :: rest) :: post /\ eq x y = true /\ (forall z zs, In (z :: zs) pre -> eq x z = false)
        /\ add_to_bucket eq x bucket = pre ++ ((y :: rest) ++ [x]) :: post)
    \/ ((forall z zs, In (z :: zs) bucket -> eq x z = false) /\ add_to_bucket eq x bucket = bucket ++ [[x]]).
  Proof.
    induction bucket as [|g bucket IH]; [right; split; [intros ? ? []|reflexivity]|]. cbn [add_to_bucket]. destruct g as [|y rest].
    - destruct IH as [(pre & y & rest & post & -> & E & N & R)|[N R]]; rewrite R.
      + left. exists ([] :: pre), y, rest, post. repeat split; auto. intros z zs [J|J]; [discriminate|eauto].
      + right. split; [|reflexivity]. intros z zs [J|J]; [discriminate|eauto].
    - destruct (eq x y) eqn:E.
      + left. exists [], y, rest, bucket. repeat split; auto. intros ? ? [].
      + destruct IH as [(pre & y' & rest' & post & -> & E' & N & R)|[N R]]; rewrite R.
        * left. exists ((y :: rest) :: pre), y', rest', post. repeat split; auto. intros z zs [J|J]; [injection J as -> ->; exact E|eauto].
        * right. split; [|reflexivity]. intros z zs [J|J]; [injection J as -> ->; exact E|eauto].
  Qed.
  Lemma codes_eqb_spec a b : reflect (a = b) (codes_eqb a b).
  Proof. unfold codes_eqb. destruct (list_eq_dec Z.eq_dec a b); constructor; assumption. Qed.
  Lemma add_buckets_cases x bs :
    (exists pre bucket post, bs = pre ++ (hash x, bucket) :: post /\ ~ In (hash x) (map fst pre)
        /\ add_to_buckets hash eq x bs = pre ++ (hash x, add_to_bucket eq x bucket) :: post)
    \/ (~ In (hash x) (map fst bs) /\ add_to_buckets hash eq x bs = bs ++ [(hash x, [[x]])]).
  Proof.
    induction bs as [|[h bucket] bs IH]; [right; split; [intros []|reflexivity]|]. cbn [add_to_buckets]. destruct (codes_eqb_spec (hash x) h) as [<-|N].
    - left. exists [], bucket, bs. repeat split; auto.
    - destruct IH as [(pre & b & post & -> & M & R)|[M R]]; rewrite R.
      + left. exists ((h, bucket) :: pre), b, post. repeat split; auto. intros [J|J]; auto.
      + right. split; [|reflexivity]. intros [J|J]; auto.
  Qed.

  Definition heads_differ (g g' : list T) : Prop := forall x xs y ys, g = x :: xs -> g' = y :: ys -> eq y x = false.
  Definition group_ok (h : list Z) (g : list T) : Prop :=
    headed g (fun x rest => hash x = h /\ forall y, In y rest -> hash y = h /\ eq y x = true) /\ StronglySorted before g.
  Record inv (bs : list (list Z * list (list T))) (done : list T) : Prop := {
    i_perm : Permutation (concat (flat_map snd bs)) done;
    i_groups : forall h bucket g, In (h, bucket) bs -> In g bucket -> group_ok h g;
    i_keys : NoDup (map fst bs);
    i_heads : forall h bucket, In (h, bucket) bs -> StronglySorted heads_differ bucket;
    i_some : forall h, ~ In (h, []) bs }.

  Lemma sorted_snoc {A} (R : A -> A -> Prop) l x : StronglySorted R l -> (forall y, In y l -> R y x) -> StronglySorted R (l ++ [x]).
  Proof.
    induction 1 as [|a l S IH F]; intros H; cbn; [repeat constructor|]. constructor; [apply IH; intros; apply H; right; assumption|].
    apply Forall_app. split; [exact F|]. constructor; [apply H; left; reflexivity|constructor].
  Qed.
  Lemma sorted_replace {A} (R : A -> A -> Prop) pre a a' post : StronglySorted R (pre ++ a :: post) -> (forall b, R b a -> R b a') -> (forall b, R a b -> R a' b) -> StronglySorted R (pre ++ a' :: post).
  Proof.
    intros S H K. induction pre as [|c pre IH]; cbn in *; inversion S as [|? ? S' F]; subst.
    - constructor; [exact S'|]. rewrite Forall_forall in F |- *. auto.
    - constructor; [apply IH, S'|]. rewrite Forall_forall in F |- *. intros b J. apply in_app_or in J. destruct J as [J|[<-|J]]; [apply F; apply in_or_app; auto| |apply F; apply in_or_app; right; right; exact J].
      apply H, F. apply in_or_app. right. left. reflexivity.
  Qed.
  Lemma concat_snoc_mid {A} (pre : list (list A)) g post x : Permutation (concat (pre ++ (g ++ [x]) :: post)) (x :: concat (pre ++ g :: post)).
  Proof.
    rewrite !concat_app. cbn. rewrite <- !app_assoc. cbn. rewrite !app_assoc. symmetry. apply Permutation_middle.
  Qed.
  Lemma add_inv bs done x : inv bs done -> (forall y, In y done -> before y x) -> inv (add_to_buckets hash eq x bs) (done ++ [x]).
  Proof.
    intros [IP IG IK IH IS] LT. destruct (add_buckets_cases x bs) as [(pre & bucket & post & -> & NP & ->)|[NK ->]].
    - assert (JB : In (hash x, bucket) (pre ++ (hash x, bucket) :: post)) by (apply in_or_app; right; left; reflexivity).
      assert (DONE : forall g y, In g bucket -> In y g -> In y done).
      { intros g y Jg Jy. apply (Permutation_in _ IP). apply in_concat. exists g. split; [|exact Jy]. apply in_flat_map. exists (hash x, bucket). auto. }
      destruct (add_bucket_cases x bucket) as [(pb & y & rest & qb & EB & E & N & ->)|[N ->]].
      + assert (JG : In (y :: rest) bucket) by (subst bucket; apply in_or_app; right; left; reflexivity).
        constructor.
        * transitivity (x :: done); [|apply Permutation_cons_append]. transitivity (x :: concat (flat_map snd (pre ++ (hash x, bucket) :: post))); [|apply perm_skip, IP].
          rewrite EB, !flat_map_app, !concat_app. cbn [flat_map snd]. rewrite !concat_app. cbn [concat]. set (A := concat (flat_map snd pre)). set (D := concat (flat_map snd post)). rewrite <- !app_assoc.
          symmetry. replace (A ++ concat pb ++ (y :: rest) ++ [x] ++ concat qb ++ D) with ((A ++ concat pb ++ y :: rest) ++ x :: concat qb ++ D) by (rewrite <- !app_assoc; reflexivity).
          replace (A ++ concat pb ++ (y :: rest) ++ concat qb ++ D) with ((A ++ concat pb ++ y :: rest) ++ concat qb ++ D) by (rewrite <- !app_assoc; reflexivity).
          apply Permutation_middle.
        * intros h b g Jb Jg. apply in_app_or in Jb. destruct Jb as [Jb|[Jb|Jb]].
          -- apply (IG h b g); [apply in_or_app; auto|exact Jg].
          -- injection Jb as <- <-. apply in_app_or in Jg. destruct Jg as [Jg|[<-|Jg]].
             ++ apply (IG (hash x) bucket); [exact JB|]. subst bucket. apply in_or_app. auto.
             ++ destruct (IG _ _ _ JB JG) as [(x0 & r0 & EQ & H0 & H1) SS]. injection EQ as <- <-. split.
                ** exists y, (rest ++ [x]). split; [reflexivity|]. split; [exact H0|]. intros z J. apply in_app_or in J. destruct J as [J|[<-|[]]]; auto.
                ** apply (sorted_snoc before (y :: rest)); [exact SS|]. intros z J. apply LT. exact (DONE _ _ JG J).
             ++ apply (IG (hash x) bucket); [exact JB|]. subst bucket. apply in_or_app. right. right. exact Jg.
          -- apply (IG h b g); [apply in_or_app; right; right; exact Jb|exact Jg].
        * rewrite map_app in *. exact IK.
        * intros h b Jb. apply in_app_or in Jb. destruct Jb as [Jb|[Jb|Jb]].
          -- apply (IH h b). apply in_or_app. auto.
          -- injection Jb as <- <-. pose proof (IH _ _ JB) as SS. rewrite EB in SS. apply (sorted_replace _ _ _ _ _ SS).
             ++ intros g D a a' b b' -> Q. injection Q as <- <-. exact (D a a' y rest eq_refl eq_refl).
             ++ intros g D a a' b b' Q ->. injection Q as <- <-. exact (D y rest b b' eq_refl eq_refl).
          -- apply (IH h b). apply in_or_app. right. right. exact Jb.
        * intros h Jb. apply in_app_or in Jb. destruct Jb as [Jb|[Jb|Jb]]; [apply (IS h), in_or_app; auto|injection Jb as _ Jb; destruct pb; discriminate|apply (IS h), in_or_app; right; right; exact Jb].
      + constructor.
        * transitivity (x :: done); [|apply Permutation_cons_append]. transitivity (x :: concat (flat_map snd (pre ++ (hash x, bucket) :: post))); [|apply perm_skip, IP].
          rewrite !flat_map_app, !concat_app. cbn [flat_map snd]. rewrite !concat_app. cbn [concat]. set (A := concat (flat_map snd pre)). set (D := concat (flat_map snd post)).
          symmetry. replace (A ++ (concat bucket ++ [x] ++ []) ++ D) with ((A ++ concat bucket) ++ x :: D) by (rewrite <- !app_assoc; reflexivity).
          rewrite app_assoc. apply Permutation_middle.
        * intros h b g Jb Jg. apply in_app_or in Jb. destruct Jb as [Jb|[Jb|Jb]].
          -- apply (IG h b g); [apply in_or_app; auto|exact Jg].
          -- injection Jb as <- <-. apply in_app_or in Jg. destruct Jg as [Jg|[<-|[]]]; [exact (IG _ _ _ JB Jg)|]. split; [|repeat constructor].
             exists x, []. split; [reflexivity|]. split; [reflexivity|]. intros ? [].
          -- apply (IG h b g); [apply in_or_app; right; right; exact Jb|exact Jg].
        * rewrite map_app in *. exact IK.
        * intros h b Jb. apply in_app_or in Jb. destruct Jb as [Jb|[Jb|Jb]].
          -- apply (IH h b). apply in_or_app. auto.
          -- injection Jb as <- <-. apply sorted_snoc; [exact (IH _ _ JB)|]. intros g Jg a a' b b' -> Q. injection Q as <- <-. exact (N a a' Jg).
          -- apply (IH h b). apply in_or_app. right. right. exact Jb.
        * intros h Jb. apply in_app_or in Jb. destruct Jb as [Jb|[Jb|Jb]]; [apply (IS h), in_or_app; auto|injection Jb as _ Jb; destruct bucket; discriminate|apply (IS h), in_or_app; right; right; exact Jb].
    - constructor.
      + rewrite flat_map_app, concat_app. cbn. apply Permutation_app_tail, IP.
      + intros h b g Jb Jg. apply in_app_or in Jb. destruct Jb as [Jb|[Jb|[]]]; [exact (IG _ _ _ Jb Jg)|]. injection Jb as <- <-. destruct Jg as [<-|[]]. split; [|repeat constructor].
        exists x, []. split; [reflexivity|]. split; [reflexivity|]. intros ? [].
      + rewrite map_app. cbn. apply (Permutation_NoDup (l := hash x :: map fst bs)); [apply Permutation_cons_append|]. constructor; assumption.
      + intros h b Jb. apply in_app_or in Jb. destruct Jb as [Jb|[Jb|[]]]; [exact (IH _ _ Jb)|]. injection Jb as <- <-. repeat constructor.
      + intros h Jb. apply in_app_or in Jb. destruct Jb as [Jb|[Jb|[]]]; [exact (IS _ Jb)|discriminate].
  Qed.
  Definition buckets_of (xs : list T) : list (list Z * list (list T)) := fold_left (fun bs x => add_to_buckets hash eq x bs) xs [].
  Lemma fold_inv xs : forall bs done, inv bs done -> StronglySorted before (done ++ xs) -> inv (fold_left (fun bs x => add_to_buckets hash eq x bs) xs bs) (done ++ xs).
  Proof.
    induction xs as [|x xs IH]; intros bs done I S; cbn; [rewrite app_nil_r; exact I|].
    replace (done ++ x :: xs) with ((done ++ [x]) ++ xs) in * by (rewrite <- app_assoc; reflexivity). apply IH; [|exact S]. apply add_inv; [exact I|].
    intros y J. clear - S J. rewrite <- app_assoc in S. cbn in S. induction done as [|d done IHd]; [destruct J|]. cbn in S. inversion S as [|? ? S' F]; subst. destruct J as [<-|J]; [|exact (IHd S' J)].
    rewrite Forall_forall in F. apply F, in_or_app. right. left. reflexivity.
  Qed.
  Lemma buckets_inv xs : StronglySorted before xs -> inv (buckets_of xs) xs.
  Proof. intros S. apply (fold_inv xs [] []); [|exact S]. constructor; cbn; [constructor|intros ? ? ? []|constructor|intros ? ? []|intros ? []]. Qed.
  Lemma search_cases xs : search_same hash eq xs = [] /\ length xs <= 1
    \/ (exists a b, xs = [a; b] /\ search_same hash eq xs = if eq a b then [[a; b]] else [])
    \/ (3 <= length xs /\ search_same hash eq xs = filter (fun g => 1 <? length g) (flat_map snd (buckets_of xs))).
  Proof.
    destruct xs as [|a [|b [|c xs]]]; [left; cbn; auto|left; cbn; auto|right; left; exists a, b; auto|right; right]. split; [cbn; lia|reflexivity].
  Qed.

  (** What the groups are. *)
  Lemma groups_sound xs g : StronglySorted before xs -> In g (search_same hash eq xs) ->
    2 <= length g /\ incl g xs /\ StronglySorted before g /\ exists x rest, g = x :: rest /\ forall y, In y rest -> eq x y = true \/ eq y x = true.
  Proof.
    intros S J. destruct (search_cases xs) as [[E _]|[(a & b & -> & E)|[_ E]]]; rewrite E in J; [destruct J| |].
    - destruct (eq a b) eqn:Q; [|destruct J]. destruct J as [<-|[]]. split; [cbn; lia|]. split; [apply incl_refl|]. split; [exact S|].
      exists a, [b]. split; [reflexivity|]. intros y [<-|[]]. auto.
    - apply filter_In in J. destruct J as [J L]. apply Nat.ltb_lt in L. destruct (buckets_inv xs S) as [IP IG IK IH IS]. pose proof J as JJ. apply in_flat_map in J. destruct J as ([h bucket] & Jb & Jg).
      destruct (IG _ _ _ Jb Jg) as [(x & rest & -> & Hx & Hr) SS]. split; [exact L|]. split.
      + intros y Jy. apply (Permutation_in _ IP). apply in_concat. eauto.
      + split; [exact SS|]. exists x, rest. split; [reflexivity|]. intros y Jy. right. apply (Hr y Jy).
  Qed.
  Lemma sorted_nodup xs : StronglySorted before xs -> NoDup xs.
  Proof. induction 1 as [|a l S IH F]; constructor; auto. intros J. rewrite Forall_forall in F. specialize (F a J). unfold before in F. lia. Qed.
  Lemma filter_concat {A} (f : list A -> bool) l : NoDup (concat l) -> NoDup (concat (filter f l)).
  Proof.
    induction l as [|g l IH]; cbn; intros N; [constructor|].
    assert (NS : NoDup g /\ NoDup (concat l) /\ forall x, In x g -> ~ In x (concat l)).
    { clear IH. induction g as [|x g IHg]; cbn in *; [repeat split; auto; constructor|]. inversion N as [|? ? N1 N2]; subst. destruct (IHg N2) as (A1 & A2 & A3).
      rewrite in_app_iff in N1. repeat split; [constructor; tauto|auto|]. intros y [<-|J]; [tauto|auto]. }
    destruct NS as (N1 & N2 & N3). destruct (f g); [|auto]. cbn. specialize (IH N2).
    assert (D : forall x, In x g -> ~ In x (concat (filter f l))).
    { intros x Jx J. apply (N3 x Jx). apply in_concat in J. destruct J as (h & Jh & J). apply filter_In in Jh. apply in_concat. exists h. tauto. }
    clear - N1 IH D. induction g as [|x g IHg]; cbn; [exact IH|]. inversion N1; subst. constructor.
    - intros J. apply in_app_or in J. destruct J as [J|J]; [contradiction|]. exact (D x (or_introl eq_refl) J).
    - apply IHg; [assumption|]. intros y Jy. apply D. right. exact Jy.
  Qed.
  (** No element is in two groups, or twice in one. *)
  Lemma groups_disjoint xs : StronglySorted before xs -> NoDup (concat (search_same hash eq xs)).
  Proof.
    intros S. destruct (search_cases xs) as [[E _]|[(a & b & -> & E)|[_ E]]]; rewrite E; [constructor| |].
    - destruct (eq a b); [|constructor]. cbn. apply (sorted_nodup _ S).
    - apply filter_concat. apply (Permutation_NoDup (Permutation_sym (i_perm _ _ (buckets_inv xs S)))). apply sorted_nodup, S.
  Qed.
  Lemma key_unique {A B} (bs : list (A * B)) h b b' : NoDup (map fst bs) -> In (h, b) bs -> In (h, b') bs -> b = b'.
  Proof.
    induction bs as [|[k c] bs IHb]; [intros _ []|]. cbn. intros IK. inversion IK as [|? ? N1 N2]; subst. intros [J|J] [J'|J']; try congruence.
    - injection J as -> ->. destruct N1. apply (in_map fst) in J'. exact J'.
    - injection J' as -> ->. destruct N1. apply (in_map fst) in J. exact J.
    - exact (IHb N2 J J').
  Qed.
  (** Equals are found, if being equal is an equivalence and equals have one hash. *)
  Lemma groups_complete xs x y :
    (forall a, eq a a = true) -> (forall a b, eq a b = true -> eq b a = true) -> (forall a b c, eq a b = true -> eq b c = true -> eq a c = true) ->
    (forall a b, eq a b = true -> hash a = hash b) ->
    StronglySorted before xs -> In x xs -> In y xs -> x <> y -> eq x y = true -> exists g, In g (search_same hash eq xs) /\ In x g /\ In y g.
  Proof.
    intros RE SY TR HE S Jx Jy NE E. destruct (search_cases xs) as [[_ L]|[(a & b & -> & R)|[_ R]]].
    - destruct xs as [|z [|? ?]]; cbn in L; [destruct Jx| |lia]. destruct Jx as [<-|[]], Jy as [<-|[]]. contradiction.
    - rewrite R. destruct Jx as [<-|[<-|[]]], Jy as [<-|[<-|[]]]; try contradiction.
      + rewrite E. exists [a; b]. cbn. auto.
      + rewrite (SY _ _ E). exists [a; b]. cbn. auto.
    - rewrite R. destruct (buckets_inv xs S) as [IP IG IK IH IS].
      apply (Permutation_in _ (Permutation_sym IP)) in Jx, Jy. apply in_concat in Jx, Jy. destruct Jx as (g & Jg & Jx), Jy as (g' & Jg' & Jy).
      apply in_flat_map in Jg, Jg'. destruct Jg as ([h b] & Jb & Jg), Jg' as ([h' b'] & Jb' & Jg'). cbn [snd] in *.
      destruct (IG _ _ _ Jb Jg) as [(a & rest & -> & Ha & Hr) SS]. destruct (IG _ _ _ Jb' Jg') as [(a' & rest' & -> & Ha' & Hr') SS'].
      assert (XA : hash x = h /\ eq x a = true) by (destruct Jx as [->|Jx]; auto). assert (YA : hash y = h' /\ eq y a' = true) by (destruct Jy as [->|Jy]; auto).
      destruct XA as [HX XA], YA as [HY YA]. pose proof (HE _ _ E) as HH. assert (HH' : h' = h) by congruence. rewrite HH' in *. clear h' HH'.
      assert (b = b') by exact (key_unique _ _ _ _ IK Jb Jb').
      subst b'. assert (AA : eq a a' = true) by (apply (TR _ x _ (SY _ _ XA)); apply (TR _ y _ E YA)).
      assert (G : a :: rest = a' :: rest').
      { pose proof (IH _ _ Jb) as SH. clear - SH Jg Jg' AA SY. induction SH as [|g b SH IHs F]; [destruct Jg|]. rewrite Forall_forall in F. destruct Jg as [->|Jg], Jg' as [Q|Jg'].
        - congruence.
        - specialize (F _ Jg' a rest a' rest' eq_refl eq_refl). rewrite (SY _ _ AA) in F. discriminate.
        - subst. specialize (F _ Jg a' rest' a rest eq_refl eq_refl). congruence.
        - auto. }
      exists (a :: rest). split; [|split; [exact Jx|rewrite G; exact Jy]]. apply filter_In. split; [apply in_flat_map; exists (h, b); auto|].
      apply Nat.ltb_lt. rewrite G in Jx. destruct rest' as [|? ?]; [|rewrite G; cbn; lia]. exfalso. apply NE. destruct Jx as [<-|[]], Jy as [<-|[]]. reflexivity.
  Qed.
  (** The groups are in the order of their first members if different hashes are the only difference. *)
  Definition led (g g' : list T) : Prop := forall x xs y ys, g = x :: xs -> g' = y :: ys -> before x y.
  Lemma sorted_filter {A} (R : A -> A -> Prop) f l : StronglySorted R l -> StronglySorted R (filter f l).
  Proof.
    induction 1 as [|a l S IH F]; cbn; [constructor|]. destruct (f a); [|exact IH]. constructor; [exact IH|]. rewrite Forall_forall in *. intros x J. apply filter_In in J. apply F, J.
  Qed.
  Lemma groups_sorted xs : (forall a b, hash a = hash b -> eq a b = true) -> StronglySorted before xs -> StronglySorted led (search_same hash eq xs).
  Proof.
    intros SEP S. destruct (search_cases xs) as [[E _]|[(a & b & -> & E)|[_ E]]]; rewrite E; [constructor|destruct (eq a b); repeat constructor|]. apply sorted_filter.
    enough (X : forall xs bs done, inv bs done -> StronglySorted before (done ++ xs) -> StronglySorted led (flat_map snd bs) ->
              StronglySorted led (flat_map snd (fold_left (fun bs x => add_to_buckets hash eq x bs) xs bs))).
    { apply (X xs [] []); [constructor; cbn; [constructor|intros ? ? ? []|constructor|intros ? ? []|intros ? []]|exact S|constructor]. }
    clear xs S E. induction xs as [|x xs IH]; intros bs done I S L; [exact L|]. cbn [fold_left].
    assert (LT : forall y, In y done -> before y x).
    { intros y J. clear - S J. induction done as [|d done IHd]; [destruct J|]. cbn in S. inversion S as [|? ? S' F]; subst. destruct J as [<-|J]; [|exact (IHd S' J)].
      rewrite Forall_forall in F. apply F, in_or_app. right. left. reflexivity. }
    apply (IH _ (done ++ [x])); [apply add_inv; assumption|rewrite <- app_assoc; exact S|].
    destruct I as [IP IG IK IH' IS]. destruct (add_buckets_cases x bs) as [(pre & bucket & post & -> & NP & ->)|[NK ->]].
    - assert (JB : In (hash x, bucket) (pre ++ (hash x, bucket) :: post)) by (apply in_or_app; right; left; reflexivity).
      destruct (add_bucket_cases x bucket) as [(pb & y & rest & qb & -> & E & N & ->)|[N ->]].
      + rewrite !flat_map_app in *. cbn in *. rewrite <- !app_assoc in *. cbn in *. rewrite !app_assoc in *. apply (sorted_replace _ _ _ _ _ L).
        * intros g D a a' b b' -> Q. injection Q as <- <-. exact (D a a' y rest eq_refl eq_refl).
        * intros g D a a' b b' Q ->. injection Q as <- <-. exact (D y rest b b' eq_refl eq_refl).
      + destruct bucket as [|g bucket].
        * destruct (IS _ JB).
        * destruct (IG _ _ g JB (or_introl eq_refl)) as [(z & zs & -> & Hz & _) _]. specialize (N z zs (or_introl eq_refl)). rewrite (SEP x z) in N; [discriminate|congruence].
    - rewrite flat_map_app. cbn. apply sorted_snoc; [exact L|]. intros g Jg a a' b b' -> Q. injection Q as <- <-. apply LT. apply (Permutation_in _ IP). apply in_concat. exists (a :: a'). split; [exact Jg|left; reflexivity].
  Qed.
End Search.
