(** More about the command line: argument files, lint names, names of a wrapped compiler. *)
From Coq Require Import Lia.
From Verif Require Import CliModel CliSpec CliProofs.
Open Scope string_scope.

Lemma occurs_char_lacks c s : ~ occurs (String c "") s <-> lacks c s.
Proof.
  induction s as [|d s IH]; cbn.
  - split; [auto|]. intros _ (u & v & H). destruct u; discriminate.
  - split.
    + intros H. split.
      * intros ->. apply H. exists "", s. reflexivity.
      * apply IH. intros (u & v & ->). apply H. exists (String d u), v. reflexivity.
    + intros [N L] (u & v & H). destruct u as [|e u]; cbn in H; injection H as -> H.
      * now apply N.
      * apply IH in L. apply L. subst. exists u, v. reflexivity.
Qed.

(** ** Lines *)
Lemma split_nl_app raw rest : nl_free raw -> str_split nl (raw ++ String newline rest) = (raw :: str_split nl rest)%list.
Proof.
  unfold nl_free. rewrite occurs_char_lacks. unfold str_split, nl. induction raw as [|c raw IH]; intros L.
  - cbn [append split_go]. replace (prefix (String (ascii_of_nat 10) "") (String newline rest)) with true; [reflexivity|].
    symmetry. apply prefix_true. exists rest. reflexivity.
  - destruct L as [N L]. cbn [append split_go prefix]. destruct (ascii_dec (ascii_of_nat 10) c); [contradiction|]. now rewrite IH.
Qed.
Lemma split_nl_free s : nl_free s -> str_split nl s = [s].
Proof.
  unfold nl_free. rewrite occurs_char_lacks. unfold str_split, nl. induction s as [|c s IH]; [reflexivity|]. intros [N L].
  cbn [split_go prefix]. destruct (ascii_dec (ascii_of_nat 10) c); [contradiction|]. now rewrite IH.
Qed.
Lemma lines_app raw rest : nl_free raw -> lines (raw ++ String newline rest) = (drop_cr raw :: lines rest)%list.
Proof.
  intros N. unfold lines. rewrite split_nl_app by auto. cbn [lines_of].
  destruct (str_split nl rest) eqn:E; [|reflexivity]. unfold str_split in E. now apply split_go_nonempty in E.
Qed.
Lemma lines_free s : nl_free s -> lines s = if String.eqb s "" then [] else [s].
Proof. intros N. unfold lines. rewrite split_nl_free by auto. reflexivity. Qed.
Lemma cut_nl s : nl_free s \/ exists raw rest, nl_free raw /\ s = raw ++ String newline rest.
Proof.
  induction s as [|c s IH].
  - left. intros (u & v & H). destruct u; discriminate.
  - destruct (ascii_dec newline c) as [<-|N].
    + right. exists "", s. split; [|reflexivity]. intros (u & v & H). destruct u; discriminate.
    + destruct IH as [F|(raw & rest & F & ->)].
      * left. apply occurs_char_lacks. apply occurs_char_lacks in F. now split.
      * right. exists (String c raw), rest. split; [|reflexivity]. apply occurs_char_lacks. apply occurs_char_lacks in F. now split.
Qed.
Lemma drop_cr_last l : drop_cr (l ++ String (ascii_of_nat 13) "") = l.
Proof. induction l as [|c l IH]; [reflexivity|]. cbn [append drop_cr]. rewrite IH. destruct l; reflexivity. Qed.
Lemma drop_cr_other s : (forall l, s <> l ++ String (ascii_of_nat 13) "") -> drop_cr s = s.
Proof.
  induction s as [|c s IH]; [reflexivity|]. intros H. destruct s as [|d s].
  - cbn [drop_cr]. destruct (Ascii.eqb_spec c (ascii_of_nat 13)) as [->|]; [|reflexivity]. exfalso. now apply (H "").
  - change (drop_cr (String c (String d s))) with (String c (drop_cr (String d s))). rewrite IH; [reflexivity|].
    intros l E. apply (H (String c l)). cbn [append]. now rewrite <- E.
Qed.
Lemma ends_dec c s : (exists l, s = l ++ String c "") \/ forall l, s <> l ++ String c "".
Proof.
  induction s as [|d s IH].
  - right. intros [|? l]; discriminate.
  - destruct s as [|e s].
    + destruct (ascii_dec d c) as [->|N]; [left; now exists ""|]. right. intros [|x l] H; cbn in H; injection H; [congruence|]. intros H1 H2. destruct l; discriminate.
    + destruct IH as [[l E]|N]; [left; exists (String d l); cbn; now rewrite <- E|]. right. intros [|x l] H; cbn in H; injection H; [discriminate|].
      intros H1 _. now apply (N l).
Qed.
Lemma without_cr_drop raw l : without_cr raw l <-> drop_cr raw = l.
Proof.
  split.
  - intros [->|[-> H]]; [apply drop_cr_last|now apply drop_cr_other].
  - intros <-. destruct (ends_dec (ascii_of_nat 13) raw) as [[l ->]|N]; [left; now rewrite drop_cr_last|right]. now rewrite drop_cr_other.
Qed.
Lemma append_nl_inj r1 t1 r2 t2 : nl_free r1 -> nl_free r2 -> r1 ++ String newline t1 = r2 ++ String newline t2 -> r1 = r2 /\ t1 = t2.
Proof.
  unfold nl_free. rewrite !occurs_char_lacks. revert r2. induction r1 as [|c r1 IH]; intros [|d r2] L1 L2 H; cbn in H; injection H; intros.
  - auto.
  - exfalso. destruct L2 as [Q _]. apply Q. auto.
  - exfalso. destruct L1 as [Q _]. apply Q. auto.
  - destruct L1, L2. destruct (IH r2); auto. subst. auto.
Qed.
Lemma nl_free_app raw rest : ~ nl_free (raw ++ String newline rest).
Proof. intros H. apply H. exists raw, rest. reflexivity. Qed.

Lemma string_length_app a b : String.length (a ++ b) = String.length a + String.length b.
Proof. induction a; cbn; auto. Qed.
Lemma lines_spec txt l : In l (lines txt) <-> has_line txt l.
Proof.
  split.
  - remember (String.length txt) as n eqn:E. assert (String.length txt <= n) as B by lia. clear E. revert txt B. induction n as [|n IH]; intros txt B.
    { destruct txt; [|cbn in B; lia]. cbn. contradiction. }
    destruct (cut_nl txt) as [F|(raw & rest & F & ->)].
    + rewrite lines_free by auto. destruct (String.eqb_spec txt ""); [contradiction|]. intros [<-|[]]. now constructor.
    + rewrite lines_app by auto. intros [D|I].
      * apply line_first; [auto|]. now apply without_cr_drop.
      * apply line_later; [auto|]. apply IH; auto. rewrite string_length_app in B. cbn in B. lia.
  - induction 1 as [l F N|raw l rest F C|raw l rest F H IH].
    + rewrite lines_free by auto. destruct (String.eqb_spec l ""); [contradiction|]. now left.
    + rewrite lines_app by auto. left. now apply without_cr_drop.
    + rewrite lines_app by auto. now right.
Qed.

Lemma has_sysroot_spec fs args : has_sysroot_arg fs args = true <-> exists a, In a args /\ tells_sysroot fs a.
Proof.
  unfold has_sysroot_arg. rewrite existsb_exists. split; intros (a & I & H); exists a; (split; [exact I|]).
  - destruct (strip_prefix "@" a) as [path|] eqn:E.
    + apply strip_prefix_some in E. destruct (fs path) as [txt|] eqn:R.
      * left. apply existsb_exists in H as (l & Il & Hl). exists path, txt, l. split; [auto|]. split; [auto|]. split; [now apply lines_spec|now apply is_arg_spec].
      * right. split; [now apply is_arg_spec|]. intros path' txt E'. rewrite E in E'. cbn in E'. injection E' as <-. congruence.
    + right. split; [now apply is_arg_spec|]. intros path txt ->. assert (strip_prefix "@" ("@" ++ path) = Some path) by now apply strip_prefix_some. congruence.
  - destruct H as [(path & txt & l & -> & R & L & F)|[F N]].
    + replace (strip_prefix "@" ("@" ++ path)) with (Some path) by (symmetry; now apply strip_prefix_some). rewrite R.
      apply existsb_exists. exists l. split; [now apply lines_spec|now apply is_arg_spec].
    + destruct (strip_prefix "@" a) as [path|] eqn:E; [|now apply is_arg_spec]. apply strip_prefix_some in E.
      destruct (fs path) as [txt|] eqn:R; [exfalso; eapply N; eauto|now apply is_arg_spec].
Qed.

Lemma pass_sysroot_spec fs var args : with_sysroot fs var args (pass_sysroot fs var args).
Proof.
  unfold with_sysroot, pass_sysroot. destruct var as [r|]; [|reflexivity]. destruct (has_sysroot_arg fs args) eqn:E.
  - left. split; [now apply has_sysroot_spec|reflexivity].
  - right. split; [|reflexivity]. intros a I T. assert (has_sysroot_arg fs args = true) by (apply has_sysroot_spec; eauto). congruence.
Qed.

(** ** Lint names *)
Lemma lower_char_fun c d : lower_char c d <-> ascii_lower c = d.
Proof.
  unfold lower_char, ascii_lower. cbv zeta. pose proof (nat_ascii_bounded c) as B. set (n := nat_of_ascii c) in *.
  destruct (Nat.leb_spec 65 n), (Nat.leb_spec n 90); cbn [andb].
  - split.
    + intros [[_ H1]|[H1 _]]; [|lia]. rewrite <- H1. now rewrite ascii_nat_embedding.
    + intros <-. left. split; [lia|]. rewrite nat_ascii_embedding; [reflexivity|]. lia.
  - split; [intros [[H1 _]|[_ ->]]; [lia|auto]|intros <-; right; split; [lia|auto]].
  - split; [intros [[H1 _]|[_ ->]]; [lia|auto]|intros <-; right; split; [lia|auto]].
  - split; [intros [[H1 _]|[_ ->]]; [lia|auto]|intros <-; right; split; [lia|auto]].
Qed.
Lemma lower_dash c : ascii_lower c = "-"%char <-> c = "-"%char.
Proof.
  split; [|intros ->; reflexivity]. intros H. apply lower_char_fun in H. destruct H as [[H1 H2]|[_ H]]; [|auto].
  change (nat_of_ascii "-") with 45 in H2. lia.
Qed.
Lemma name_char_fun c d : name_char c d <-> (if Ascii.eqb (ascii_lower c) "-" then "_"%char else ascii_lower c) = d.
Proof.
  unfold name_char. destruct (Ascii.eqb_spec (ascii_lower c) "-") as [E|E]; rewrite lower_dash in E.
  - split; [intros [[_ ->]|[N _]]; [auto|contradiction]|intros <-; left; auto].
  - split; [intros [[-> _]|[_ L]]; [contradiction|now apply lower_char_fun]|intros H; right; split; [auto|now apply lower_char_fun]].
Qed.
Lemma each_map R f : (forall c d, R c d <-> f c = d) -> forall s t, each R s t <-> map_string f s = t.
Proof.
  intros F s. induction s as [|c s IH]; intros t; cbn [map_string].
  - split; [intros H; inversion H; auto|intros <-; constructor].
  - split.
    + intros H. inversion H; subst. f_equal; [now apply F|now apply IH].
    + intros <-. constructor; [now apply F|now apply IH].
Qed.
Lemma map_string_app f a b : map_string f (a ++ b) = map_string f a ++ map_string f b.
Proof. induction a; cbn; congruence. Qed.
Lemma map_string_map f g s : map_string f (map_string g s) = map_string (fun c => f (g c)) s.
Proof. induction s; cbn; congruence. Qed.
Lemma map_string_cut f s : forall p r, map_string f s = p ++ r -> exists u v, s = u ++ v /\ map_string f u = p /\ map_string f v = r.
Proof.
  induction s as [|c s IH]; intros [|d p] r H; cbn in H.
  - exists "", "". auto.
  - discriminate.
  - exists "", (String c s). auto.
  - injection H as <- H. apply IH in H as (u & v & -> & <- & <-). exists (String c u), v. auto.
Qed.
Lemma explain_name_spec arg name : explain_name arg = name <-> lint_named arg name.
Proof.
  unfold explain_name, lint_named. cbv zeta.
  assert (M : forall s n, map_string (fun c => if Ascii.eqb c "-" then "_"%char else c) (map_string ascii_lower s) = n <-> each name_char s n).
  { intros s n. rewrite map_string_map. symmetry. apply each_map. intros c d. apply name_char_fun. }
  pose proof (each_map _ _ lower_char_fun) as L.
  destruct (strip_prefix "clippy::" (map_string ascii_lower arg)) as [r|] eqn:E.
  - apply strip_prefix_some in E. pose proof (map_string_cut _ _ _ _ E) as (pre & body & -> & P & B). rewrite <- B. rewrite M. split.
    + intros H. left. exists pre, body. rewrite L. auto.
    + intros [(pre' & body' & E' & P' & H)|[N _]].
      * assert (pre' = pre /\ body' = body) as [-> ->]; [|auto].
        apply L in P'. clear -E' P P'. assert (String.length pre = String.length pre').
        { assert (Q : forall s, String.length (map_string ascii_lower s) = String.length s) by (induction s; cbn; congruence).
          rewrite <- (Q pre), <- (Q pre'). congruence. }
        clear P P'. revert pre' E' H. induction pre as [|c pre IH]; intros [|d pre'] E H; cbn in *; try discriminate; auto.
        injection E as <- E. injection H as H. destruct (IH _ E H). subst. auto.
      * exfalso. apply (N pre body); [auto|]. now apply L.
  - rewrite M. split.
    + intros H. right. split; [|auto]. intros pre body -> P. apply L in P. rewrite map_string_app, P in E.
      assert (strip_prefix "clippy::" ("clippy::" ++ map_string ascii_lower body) = Some (map_string ascii_lower body)) by now apply strip_prefix_some. congruence.
    + intros [(pre & body & -> & P & H)|[_ H]]; [|auto]. apply L in P. rewrite map_string_app, P in E.
      assert (strip_prefix "clippy::" ("clippy::" ++ map_string ascii_lower body) = Some (map_string ascii_lower body)) by now apply strip_prefix_some. congruence.
Qed.

(** ** The name of a wrapped compiler *)
Lemma last_dot_none s : last_dot s = None <-> lacks "." s.
Proof.
  induction s as [|c s IH]; cbn; [tauto|]. destruct (last_dot s) eqn:E.
  - split; [discriminate|]. intros [_ L]. apply IH in L. discriminate.
  - destruct (Ascii.eqb_spec c ".") as [->|N]; split; try discriminate; auto; try tauto.
    + intros _. split; [congruence|]. now apply IH.
Qed.
Lemma last_dot_some s a : last_dot s = Some a <-> exists b, s = a ++ String "." b /\ lacks "." b.
Proof.
  revert a. induction s as [|c s IH]; intros a; cbn.
  - split; [discriminate|]. intros (b & H & _). destruct a; discriminate.
  - destruct (last_dot s) as [x|] eqn:E.
    + split.
      * intros [= <-]. destruct (proj1 (IH x) eq_refl) as (b & -> & L). exists b. auto.
      * intros (b & H & L). destruct a as [|d a]; cbn in H; injection H as -> H.
        -- subst s. apply last_dot_none in L. congruence.
        -- f_equal. f_equal. assert (Some x = Some a); [|congruence]. apply IH. eauto.
    + destruct (Ascii.eqb_spec c ".") as [->|N].
      * apply last_dot_none in E. split.
        -- intros [= <-]. exists s. auto.
        -- intros (b & H & L). destruct a as [|d a]; [auto|]. cbn in H. injection H as _ H. exfalso. subst s.
           clear -E. induction a as [|e a IHa]; destruct E as [Q E]; [apply Q; reflexivity|]. apply IHa. exact E.
      * split; [discriminate|]. intros (b & H & L). destruct a as [|d a]; cbn in H; injection H as -> H; [contradiction|].
        exfalso. subst s. apply last_dot_none in E. clear -E. induction a as [|e a IHa]; destruct E as [Q E]; [apply Q; reflexivity|]. apply IHa. exact E.
Qed.
Lemma wrapper_name_spec dir name : lacks "/" name ->
  file_stem (dir ++ "/" ++ name) = Some "rustc" <-> (name = "rustc" \/ exists ext, name = "rustc." ++ ext /\ lacks "." ext) \/
    ((name = "" \/ name = ".") /\ file_stem dir = Some "rustc").
Proof.
  intros L. destruct (string_dec name "") as [->|N1]; [|destruct (string_dec name ".") as [->|N2]].
  - cbn [append]. assert (file_stem (dir ++ "/") = file_stem dir) as ->.
    { unfold file_stem. rewrite (split_slash_app dir "") by exact L. rewrite filter_app. cbn [filter]. now rewrite app_nil_r. }
    split; [auto|]. intros [[H|(e & H & _)]|[_ H]]; [discriminate|discriminate|auto].
  - cbn [append]. assert (file_stem (dir ++ "/.") = file_stem dir) as ->.
    { unfold file_stem. rewrite (split_slash_app dir ".") by exact L. rewrite filter_app. cbn [filter]. now rewrite app_nil_r. }
    split; [auto|]. intros [[H|(e & H & _)]|[_ H]]; [discriminate|discriminate|auto].
  - cbn [append]. rewrite file_stem_dir by auto. unfold file_stem. rewrite split_no_slash by auto. cbn [filter].
    rewrite (proj2 (String.eqb_neq _ _) N1), (proj2 (String.eqb_neq _ _) N2). cbn [orb negb rev app].
    destruct (String.eqb_spec name "..") as [->|N3].
    { split; [discriminate|]. intros [[H|(e & H & _)]|[[H|H] _]]; discriminate. }
    destruct (last_dot name) as [a|] eqn:E.
    + destruct (proj1 (last_dot_some _ _) E) as (b & -> & Lb). destruct a as [|c a].
      * split; [intros [= H]|]; intros; exfalso. destruct H as [[H|(e & H & _)]|[[H|H] _]]; try discriminate; contradiction.
      * split.
        -- intros [= -> ->]. left. right. exists b. auto.
        -- intros [[H|(e & H & Le)]|[[H|H] _]]; try contradiction.
           ++ exfalso. assert (lacks "." "rustc") as Q by (cbn; repeat split; discriminate). rewrite <- H in Q. apply last_dot_none in Q. congruence.
           ++ rewrite <- E. rewrite H. apply last_dot_some. exists e. split; auto.
    + split.
      * intros [= ->]. auto.
      * intros [[->|(e & -> & Le)]|[[H|H] _]]; try contradiction; [reflexivity|]. exfalso. assert (last_dot ("rustc." ++ e) = Some "rustc") as Q by (apply last_dot_some; exists e; auto). cbn [append] in Q, E. rewrite E in Q. discriminate.
Qed.
