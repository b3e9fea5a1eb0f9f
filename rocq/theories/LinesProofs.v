(** The line counter counts the lines with code, outside of strings and nested comments. *)
From Verif Require Export LinesModel LinesSpec.
From Coq Require Import Lia.

Definition slash : ascii := "/"%char. Definition star : ascii := "*"%char.
Definition ws_hd (t : text) : Prop := match t with [] => True | c :: _ => is_ws c = true end.
Definition free (p a t : text) : Prop := forall i, i < List.length a -> starts p (skipn i (a ++ t)) = false.
Lemma free_tl p c a t : free p (c :: a) t -> starts p (c :: a ++ t) = false /\ free p a t.
Proof. intros F. split; [exact (F 0 ltac:(cbn; lia))|]. intros i L. apply (F (S i)). cbn. lia. Qed.
Lemma ws_not c : is_ws c = true -> Ascii.eqb c "/" = false /\ Ascii.eqb c "*" = false /\ Ascii.eqb c """" = false.
Proof. intros H. repeat split; (destruct (Ascii.eqb_spec c "/") || destruct (Ascii.eqb_spec c "*") || destruct (Ascii.eqb_spec c """")); subst; try discriminate H; try reflexivity. all: match goal with |- (?a =? ?b)%char = false => destruct (Ascii.eqb_spec a b); subst; [discriminate H|reflexivity] end. Qed.
Lemma starts2 x y c r : starts [x; y] (c :: r) = match r with e :: _ => Ascii.eqb x c && Ascii.eqb y e | [] => false end.
Proof. unfold starts. cbn. destruct (Ascii.eqb x c); [|destruct r; reflexivity]. destruct r as [|e r]; [reflexivity|]. destruct (Ascii.eqb y e); reflexivity. Qed.
Lemma eqb_sym a b : Ascii.eqb a b = Ascii.eqb b a.
Proof. destruct (Ascii.eqb_spec a b), (Ascii.eqb_spec b a); congruence. Qed.
Definition nonws (a : text) : bool := existsb (fun c => negb (is_ws c)) a.
Lemma skip_code a : forall seen t, ~ In newline a -> free (tx "//") a t -> free (tx "/*") a t -> simple_from Code (a ++ t) = true ->
  scan Code seen (a ++ t) = scan Code (seen || nonws a) t /\ simple_from Code t = true.
Proof.
  induction a as [|c a IH]; intros seen t NN F1 F2 SI; [cbn; rewrite orb_false_r; auto|].
  destruct (free_tl _ _ _ _ F1) as [S1 F1']. destruct (free_tl _ _ _ _ F2) as [S2 F2']. cbn [app] in *. change (tx "//") with ["/"%char; "/"%char] in S1. change (tx "/*") with ["/"%char; "*"%char] in S2. rewrite starts2 in S1, S2.
  cbn [simple_from] in SI. apply andb_prop in SI. destruct SI as [NQ SI]. apply negb_true_iff in NQ. cbn [scan]. rewrite NQ.
  destruct (Ascii.eqb_spec c newline) as [->|N]; [destruct NN; left; reflexivity|].
  assert (NN' : ~ In newline a) by (intros J; apply NN; right; exact J).
  cbn [nonws existsb]. rewrite orb_assoc. destruct (a ++ t) as [|e q] eqn:E.
  - rewrite <- E. apply IH; auto. rewrite E. exact SI.
  - rewrite (eqb_sym c "/"), (eqb_sym e "/"), (eqb_sym e "*"), S1, S2 in *. rewrite <- E in *. apply IH; auto.
Qed.
Lemma skip_block a : forall seen t, ~ In newline a -> free (tx "*/") a t -> simple_from (BlockComment 0) (a ++ t) = true ->
  scan (BlockComment 0) seen (a ++ t) = scan (BlockComment 0) seen t /\ simple_from (BlockComment 0) t = true.
Proof.
  induction a as [|c a IH]; intros seen t NN F1 SI; [auto|].
  destruct (free_tl _ _ _ _ F1) as [S1 F1']. cbn [app] in *. change (tx "*/") with ["*"%char; "/"%char] in S1. rewrite starts2 in S1.
  cbn [simple_from] in SI. apply andb_prop in SI. destruct SI as [NQ SI]. cbn [scan].
  destruct (Ascii.eqb_spec c newline) as [->|N]; [destruct NN; left; reflexivity|].
  assert (NN' : ~ In newline a) by (intros J; apply NN; right; exact J).
  destruct (a ++ t) as [|e q] eqn:E.
  - rewrite <- E. apply IH; auto. rewrite E. exact SI.
  - rewrite (eqb_sym c "*"), (eqb_sym e "/"), S1 in *. apply andb_prop in SI. destruct SI as [S2 SI]. apply negb_true_iff in S2. rewrite S2. rewrite <- E in *. apply IH; auto.
Qed.
Lemma skip_line a : forall seen t, ~ In newline a -> simple_from LineComment (a ++ t) = true -> scan LineComment seen (a ++ t) = scan LineComment seen t /\ simple_from LineComment t = true.
Proof.
  induction a as [|c a IH]; intros seen t NN SI; [auto|]. cbn [app scan simple_from] in *. apply andb_prop in SI. destruct SI as [NQ SI].
  destruct (Ascii.eqb_spec c newline) as [->|N]; [destruct NN; left; reflexivity|]. apply IH; [intros J; apply NN; right; exact J|]. destruct (a ++ t); exact SI.
Qed.
Definition plain (m : mode) : Prop := match m with Code | LineComment | BlockComment 0 => True | _ => False end.
Lemma skip_ws w : forall m seen t, plain m -> ~ In newline w -> Forall (fun c => is_ws c = true) w -> simple_from m (w ++ t) = true -> scan m seen (w ++ t) = scan m seen t /\ simple_from m t = true.
Proof.
  induction w as [|c w IH]; intros m seen t P NN F SI; [auto|]. inversion F as [|? ? W F']; subst. destruct (ws_not c W) as (N1 & N2 & N3). cbn [app scan simple_from] in *. apply andb_prop in SI. destruct SI as [_ SI].
  destruct (Ascii.eqb_spec c newline) as [->|N]; [destruct NN; left; reflexivity|]. rewrite N1, N2, N3 in *. rewrite W. cbn [negb andb orb] in *. rewrite orb_false_r.
  assert (NN' : ~ In newline w) by (intros J; apply NN; right; exact J).
  destruct m as [| |[|d]|]; try contradiction; destruct (w ++ t) as [|e q] eqn:E; rewrite <- E in *; apply IH; auto; try exact I; rewrite E; exact SI.
Qed.
(** Leading and trailing white space, line ends included. *)
Lemma skip_lead w : forall t, Forall (fun c => is_ws c = true) w -> simple_from Code (w ++ t) = true -> scan Code false (w ++ t) = scan Code false t /\ simple_from Code t = true.
Proof.
  induction w as [|c w IH]; intros t F SI; [auto|]. inversion F as [|? ? W F']; subst. destruct (ws_not c W) as (N1 & N2 & N3). cbn [app scan simple_from] in *. apply andb_prop in SI. destruct SI as [_ SI].
  destruct (Ascii.eqb c newline); [apply IH; auto|]. rewrite N1, N3 in *. rewrite W. cbn [negb andb orb] in *. destruct (w ++ t) as [|e q] eqn:E; rewrite <- E in *; apply IH; auto.
Qed.
Lemma scan_ws w : forall m seen, plain m -> Forall (fun c => is_ws c = true) w -> scan m seen w = if seen then 1 else 0.
Proof.
  induction w as [|c w IH]; intros m seen P F; [reflexivity|]. inversion F as [|? ? W F']; subst. destruct (ws_not c W) as (N1 & N2 & N3). cbn [scan]. rewrite N1, N2, N3, W. cbn [negb andb]. rewrite orb_false_r.
  destruct (Ascii.eqb c newline). { rewrite (IH (match m with LineComment => Code | _ => m end)); [destruct seen; reflexivity| |exact F']. destruct m as [| |[|]|]; auto. }
  destruct m as [| |[|d]|]; try contradiction; destruct w as [|e q]; try reflexivity; apply IH; auto.
Qed.
Lemma skip_trail k : forall t m seen w, List.length t <= k -> plain m -> Forall (fun c => is_ws c = true) w -> simple_from m (t ++ w) = true -> scan m seen (t ++ w) = scan m seen t /\ simple_from m t = true.
Proof.
  induction k as [|k IH]; intros t m seen w L P F SI.
  { destruct t; [|cbn in L; lia]. cbn [app]. rewrite scan_ws by auto. auto. }
  destruct t as [|c t]; [cbn [app]; rewrite scan_ws by auto; auto|]. cbn [List.length] in L. cbn [app scan simple_from] in *. apply andb_prop in SI. destruct SI as [NQ SI]. rewrite NQ. apply negb_true_iff in NQ. cbn [andb]. rewrite NQ.
  destruct (Ascii.eqb c newline).
  { destruct (IH t (match m with LineComment => Code | _ => m end) false w) as [-> ->]; auto; try lia. destruct m as [| |[|]|]; auto. }
  destruct t as [|e q].
  - cbn [app] in *. destruct w as [|b w]; [cbn in *; auto|]. inversion F as [|? ? W F']; subst. destruct (ws_not b W) as (N1 & N2 & N3). rewrite N1, N2 in *. rewrite !andb_false_r in *. cbn [negb andb] in *.
    destruct m as [| |[|d]|]; try contradiction; cbn [simple_from]; rewrite (scan_ws (b :: w)) by (auto; exact I); cbn; auto.
  - cbn [app] in *. cbn [List.length] in L. destruct m as [| |[|d]|]; try contradiction.
    + destruct (Ascii.eqb c "/" && Ascii.eqb e "/"); [apply IH; auto; lia|]. destruct (Ascii.eqb c "/" && Ascii.eqb e "*"); [apply IH; auto; try lia; exact I|]. apply (IH (e :: q)); auto. cbn; lia.
    + apply (IH (e :: q)); auto. cbn; lia.
    + destruct (Ascii.eqb c "*" && Ascii.eqb e "/"); [apply IH; auto; try lia; exact I|]. apply andb_prop in SI. destruct SI as [S1 SI]. rewrite S1. apply negb_true_iff in S1. rewrite S1. cbn [andb]. apply (IH (e :: q)); auto. cbn; lia.
Qed.
(** What [find] finds. *)
Lemma skipn_le {A} (a b : list A) i : i <= List.length a -> skipn i (a ++ b) = skipn i a ++ b.
Proof. intros L. rewrite skipn_app. replace (i - List.length a) with 0 by lia. reflexivity. Qed.
Lemma cross x y s t : is_ws y = false -> is_ws x = false -> ws_hd t -> s <> [] -> starts [x; y] (s ++ t) = starts [x; y] s.
Proof.
  intros W V H NE. destruct s as [|c s]; [congruence|]. cbn [app]. rewrite !starts2. destruct s as [|e s]; [|reflexivity]. destruct t as [|b t]; [reflexivity|]. cbn [app].
  destruct (Ascii.eqb_spec y b) as [->|]; [cbn in H; congruence|apply andb_false_r].
Qed.
Lemma find_some p s i : find_str p s = Some i -> exists a b, s = a ++ p ++ b /\ List.length a = i /\ forall j, j < i -> starts p (skipn j s) = false.
Proof.
  unfold find_str. destruct (cut_str p s) as [[a b]|] eqn:E; [|discriminate]. intros [= <-]. apply cut_str_some in E. destruct E as [E M]. exists a, b. repeat split; auto. intros j L. destruct (starts p (skipn j s)) eqn:S; [|reflexivity].
  apply starts_iff in S. destruct S as [r S]. exfalso. assert (H : s = firstn j s ++ p ++ r) by (rewrite <- S; symmetry; apply firstn_skipn). apply M in H. rewrite firstn_length in H. cbn in L. lia.
Qed.
Lemma find_none p s j : p <> [] -> find_str p s = None -> starts p (skipn j s) = false.
Proof.
  unfold find_str. intros NE. destruct (cut_str p s) as [[a b]|] eqn:E; [discriminate|]. intros _. destruct (starts p (skipn j s)) eqn:S; [|reflexivity].
  apply starts_iff in S. destruct S as [r S]. exfalso. apply (proj1 (cut_str_none _ _) E (firstn j s) r). rewrite <- S. symmetry. apply firstn_skipn.
Qed.
Definition mode_of (in_comment : bool) : mode := if in_comment then BlockComment 0 else Code.
Definition ended (m : mode) (in_comment : bool) : Prop := m = mode_of in_comment \/ (m = LineComment /\ in_comment = false).
Lemma in_app_not {A} (x : A) a b : ~ In x (a ++ b) -> ~ In x a /\ ~ In x b.
Proof. intros H. split; intros J; apply H, in_or_app; auto. Qed.
Lemma skipn_not_nil {A} (s : list A) j : j < List.length s -> skipn j s <> [].
Proof. intros L E. apply (f_equal (@List.length A)) in E. rewrite skipn_length in E. cbn in E. lia. Qed.
Lemma first_free (x y : ascii) (a s t : text) : is_ws y = false -> is_ws x = false -> ws_hd t -> (exists b, s = a ++ b) -> (forall j, j < List.length a -> starts [x; y] (skipn j s) = false) -> forall b, s = a ++ b -> free [x; y] a (b ++ t).
Proof.
  intros W V H [b0 E0] N b E j L. rewrite app_assoc, <- E. assert (LS : List.length a <= List.length s) by (rewrite E, app_length; lia). rewrite skipn_le by lia. rewrite cross; auto. apply skipn_not_nil. lia.
Qed.
Lemma nonws_hd c a : is_ws c = false -> nonws (c :: a) = true.
Proof. intros H. cbn. now rewrite H. Qed.
Lemma line_ok fuel : forall ic code line t ic' code', List.length line < fuel -> ~ In newline line -> ws_hd t -> simple_from (mode_of ic) (line ++ t) = true -> line_loop fuel ic code line = (ic', code') ->
  exists m, ended m ic' /\ scan (mode_of ic) code (line ++ t) = scan m code' t /\ simple_from m t = true.
Proof.
  induction fuel as [|fuel IH]; intros ic code line t ic' code' L NN WT SI H; [lia|]. cbn [line_loop] in H.
  destruct (trim_start_decomp line) as (w & E & FW & HD). rewrite E in NN. apply in_app_not in NN. destruct NN as [NW NL]. rewrite E, <- app_assoc in SI.
  destruct (skip_ws w (mode_of ic) code (trim_start line ++ t) ltac:(destruct ic; exact I) NW FW SI) as [SC SI']. replace (line ++ t) with (w ++ trim_start line ++ t) by (rewrite app_assoc, <- E; reflexivity). rewrite SC. clear SC SI.
  assert (LL : List.length (trim_start line) < S fuel). { apply (f_equal (@List.length ascii)) in E. rewrite app_length in E. lia. }
  destruct (trim_start line) as [|c0 l0] eqn:TS. { injection H as <- <-. exists (mode_of ic). repeat split; auto. left; reflexivity. }
  rewrite <- TS in *. set (l := trim_start line) in *. clearbody l. subst l. clear E w NW FW. cbn [hd_not] in HD.
  set (l := c0 :: l0) in *. assert (NWH : forall a b, l = a ++ b -> nonws a = (0 <? List.length a)).
  { intros a b E. destruct a as [|c a]; [reflexivity|]. injection E as <- _. apply nonws_hd, HD. }
  destruct ic.
  - destruct (find_str (tx "*/") l) as [i|] eqn:FI.
    + destruct (find_some _ _ _ FI) as (a & b & E & LA & MIN). replace (skipn (i + 2) l) with b in H.
      2:{ rewrite E, <- LA, skipn_app. rewrite skipn_all2 by lia. replace (List.length a + 2 - List.length a) with 2 by lia. reflexivity. }
      rewrite E in NL. apply in_app_not in NL. destruct NL as [NA NB]. apply in_app_not in NB. destruct NB as [_ NB].
      assert (FR : free (tx "*/") a ((tx "*/" ++ b) ++ t)).
      { apply (first_free _ _ a l t); auto; try reflexivity; [eauto|rewrite LA; exact MIN]. }
      cbn [mode_of] in *. rewrite E in SI' |- *. rewrite <- app_assoc in SI' |- *. destruct (skip_block a code _ NA FR SI') as [-> S2]. cbn [tx list_ascii_of_string app] in S2 |- *. cbn in S2. cbn [scan]. cbn. 
      apply (IH false code b t); auto. rewrite E in LL. rewrite !app_length in LL. cbn in LL. lia.
    + injection H as <- <-. cbn [mode_of] in *. destruct (skip_block l code t NL) as [-> S2]; auto.
      { intros j J. rewrite skipn_le by lia. change (tx "*/") with ["*"%char; "/"%char]. rewrite cross; auto. - apply (find_none (tx "*/")); [discriminate|exact FI]. - apply skipn_not_nil. exact J. }
      exists (BlockComment 0). repeat split; auto. left; reflexivity.
  - cbn [mode_of] in *. set (mi := match find_str (tx "/*") l with Some i => i | None => List.length l end) in *. set (si := match find_str (tx "//") l with Some i => i | None => List.length l end) in *.
    assert (MI : forall j, j < mi -> starts (tx "/*") (skipn j l) = false).
    { intros j J. subst mi. destruct (find_str (tx "/*") l) as [i|] eqn:FI; [destruct (find_some _ _ _ FI) as (? & ? & _ & _ & M); auto|apply find_none; [discriminate|exact FI]]. }
    assert (SIN : forall j, j < si -> starts (tx "//") (skipn j l) = false).
    { intros j J. subst si. destruct (find_str (tx "//") l) as [i|] eqn:FI; [destruct (find_some _ _ _ FI) as (? & ? & _ & _ & M); auto|apply find_none; [discriminate|exact FI]]. }
    assert (FREE : forall a b, l = a ++ b -> List.length a <= mi -> List.length a <= si -> free (tx "//") a (b ++ t) /\ free (tx "/*") a (b ++ t)).
    { intros a b E L1 L2. split; apply (first_free _ _ a l t); auto; try reflexivity; try (exists b; exact E); intros j J; [apply SIN; lia|apply MI; lia]. }
    destruct (Nat.ltb_spec mi si) as [LT|GE].
    + assert (exists a b, l = a ++ tx "/*" ++ b /\ List.length a = mi) as (a & b & E & LA).
      { subst mi. destruct (find_str (tx "/*") l) as [i|] eqn:FI; [destruct (find_some _ _ _ FI) as (a & b & E & LA & _); eauto|]. subst si. destruct (find_str (tx "//") l) as [i|] eqn:FS; [|lia]. destruct (find_some _ _ _ FS) as (a & b & E & LA & _). apply (f_equal (@List.length ascii)) in E. rewrite app_length in E. lia. }
      replace (skipn (mi + 2) l) with b in H.
      2:{ rewrite E, <- LA, skipn_app. rewrite skipn_all2 by lia. replace (List.length a + 2 - List.length a) with 2 by lia. reflexivity. }
      destruct (FREE a (tx "/*" ++ b) E ltac:(lia) ltac:(lia)) as [F1 F2]. assert (NL' := NL). rewrite E in NL'. apply in_app_not in NL'. destruct NL' as [NA NB]. apply in_app_not in NB. destruct NB as [_ NB].
      assert (COD : code || (0 <? mi) && (0 <? si) = code || nonws a).
      { rewrite (NWH a _ E), LA. f_equal. destruct (Nat.ltb_spec 0 mi); [|reflexivity]. destruct (Nat.ltb_spec 0 si); [reflexivity|lia]. }
      rewrite COD in H. rewrite E in SI' |- *. rewrite <- app_assoc in SI' |- *. destruct (skip_code a code _ NA F1 F2 SI') as [-> S2]. cbn [tx list_ascii_of_string app] in S2 |- *. cbn in S2. cbn [scan]. cbn.
      apply (IH true (code || nonws a) b t); auto. rewrite E in LL. rewrite !app_length in LL. cbn in LL. lia.
    + injection H as <- <-. destruct (find_str (tx "//") l) as [i|] eqn:FS.
      * destruct (find_some _ _ _ FS) as (a & b & E & LA & _). subst si. destruct (FREE a (tx "//" ++ b) E ltac:(lia) ltac:(lia)) as [F1 F2].
        assert (NL' := NL). rewrite E in NL'. apply in_app_not in NL'. destruct NL' as [NA NB]. apply in_app_not in NB. destruct NB as [_ NB].
        assert (COD : code || (0 <? mi) && (0 <? i) = code || nonws a).
        { rewrite (NWH a _ E), LA. f_equal. destruct (Nat.ltb_spec 0 i); [|apply andb_false_r]. destruct (Nat.ltb_spec 0 mi); [reflexivity|lia]. }
        rewrite COD. rewrite E in SI' |- *. rewrite <- app_assoc in SI' |- *. destruct (skip_code a code _ NA F1 F2 SI') as [-> S2]. cbn [tx list_ascii_of_string app] in S2 |- *. cbn in S2. cbn [scan]. cbn.
        destruct (skip_line b (code || nonws a) t NB S2) as [-> S3]. exists LineComment. repeat split; auto. right; auto.
      * subst si. assert (EM : mi = List.length l). { revert GE. subst mi. destruct (find_str (tx "/*") l) as [i|] eqn:FI; [|reflexivity]. intros GE. destruct (find_some _ _ _ FI) as (a & b & E & LA & _). apply (f_equal (@List.length ascii)) in E. rewrite !app_length in E. cbn [tx list_ascii_of_string List.length] in E. lia. }
        destruct (FREE l [] ltac:(symmetry; apply app_nil_r) ltac:(lia) ltac:(lia)) as [F1 F2]. cbn [app] in F1, F2. destruct (skip_code l code t NL F1 F2 SI') as [-> S2].
        assert (COD : code || (0 <? mi) && (0 <? List.length l) = code || nonws l).
        { rewrite (NWH l [] ltac:(symmetry; apply app_nil_r)), EM. destruct code; destruct (0 <? List.length l); reflexivity. }
        rewrite COD. exists Code. repeat split; auto. left; reflexivity.
Qed.
Lemma drop_last_cr_cases s : drop_last_cr s = s \/ s = drop_last_cr s ++ [ascii_of_nat 13].
Proof.
  unfold drop_last_cr. destruct (rev s) as [|c r] eqn:E; [auto|]. destruct (Ascii.eqb_spec c (ascii_of_nat 13)) as [->|]; [right|auto]. apply (f_equal (@rev _)) in E. rewrite rev_involutive in E. exact E.
Qed.
Lemma count_ok l : forall ic m, ended m ic -> Forall (fun x => ~ In newline x) l -> simple_from (match m with LineComment => Code | _ => m end) (join [newline] l) = true ->
  count_loop ic (lines_tail l) = scan (match m with LineComment => Code | _ => m end) false (join [newline] l).
Proof.
  induction l as [|x l IH]; intros ic m EN F SI; [reflexivity|]. inversion F as [|? ? NX F']; subst.
  assert (MM : match m with LineComment => Code | _ => m end = mode_of ic) by (destruct EN as [->|[-> ->]]; [destruct ic|]; reflexivity). rewrite MM in *.
  destruct l as [|y l].
  - cbn [join] in *. destruct x as [|c x]; [reflexivity|]. change (lines_tail [c :: x]) with [c :: x]. cbn [count_loop]. destruct (line_loop _ ic false (c :: x)) as [ic' code'] eqn:LO.
    destruct (line_ok (S (List.length (c :: x))) ic false (c :: x) [] ic' code' ltac:(cbn; lia) NX I) as (m' & EN' & SC & _); auto. { rewrite app_nil_r. exact SI. }
    rewrite app_nil_r in SC. rewrite SC. cbn. lia.
  - assert (J : join [newline] (x :: y :: l) = x ++ newline :: join [newline] (y :: l)) by reflexivity. rewrite J in *. clear J. set (R := join [newline] (y :: l)) in *.
    assert (LT : lines_tail (x :: y :: l) = drop_last_cr x :: lines_tail (y :: l)) by (destruct x; reflexivity). rewrite LT. cbn [count_loop].
    destruct (line_loop _ ic false (drop_last_cr x)) as [ic' code'] eqn:LO.
    assert (exists m', ended m' ic' /\ scan (mode_of ic) false (x ++ newline :: R) = scan m' code' (newline :: R) /\ simple_from m' (newline :: R) = true) as (m' & EN' & SC & S2).
    { destruct (drop_last_cr_cases x) as [E|E].
      - rewrite E in LO. apply (line_ok (S (List.length x)) ic false x (newline :: R) ic' code'); auto. reflexivity.
      - set (x' := drop_last_cr x) in *. clearbody x'. subst x. apply in_app_not in NX. destruct NX as [NX _]. rewrite <- app_assoc in *. cbn [app] in *.
        destruct (line_ok (S (List.length x')) ic false x' (ascii_of_nat 13 :: newline :: R) ic' code' ltac:(lia) NX eq_refl SI LO) as (m' & EN' & SC & S2). exists m'.
        assert (P : plain m') by (destruct EN' as [->|[-> _]]; [destruct ic'; exact I|exact I]).
        destruct (skip_ws [ascii_of_nat 13] m' code' (newline :: R) P ltac:(intros [Q|[]]; discriminate Q) ltac:(repeat constructor) S2) as [E2 S3]. cbn [app] in E2. rewrite SC, E2. auto. }
    rewrite SC. cbn [scan]. rewrite Ascii.eqb_refl. f_equal. apply (IH ic' m' EN' F'). cbn [simple_from] in S2. rewrite Ascii.eqb_refl in S2. apply andb_prop in S2. destruct S2 as [_ S2]. exact S2.
Qed.
Lemma line_count_ok is_block src : simple (without_braces is_block src) = true -> line_count is_block src = lines_with_code (without_braces is_block src).
Proof.
  unfold line_count, lines_with_code, simple, tlines. set (s := without_braces is_block src). clearbody s. intros SI. unfold trim.
  destruct (trim_start_decomp s) as (w & E & FW & _). rewrite E in SI. destruct (skip_lead w _ FW SI) as [SC S1]. rewrite E at 2. rewrite SC.
  destruct (trim_end_decomp (trim_start s)) as (w' & E' & FW' & _). rewrite E' in S1. destruct (skip_trail _ _ Code false w' (Nat.le_refl _) I FW' S1) as [SC' S2]. rewrite E' at 2. rewrite SC'.
  set (u := trim_end (trim_start s)) in *. clearbody u. rewrite <- (join_split newline u) at 2. apply (count_ok (split_at newline u) false Code); [left; reflexivity|apply split_at_lacks|]. rewrite join_split. exact S2.
Qed.
