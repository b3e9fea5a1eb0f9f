(** C65, C66, C69: string literals. *)
From Verif Require Import LitModel LitSpec LitProofs.
Open Scope Z_scope.

(** C65: the suggested literal is read as the same content, with the fewest hashes (or one, if the setting says so).
    Missing: contents where a quote and hashes are followed at once by a quote with more hashes (false, see below). *)
Theorem raw_hashes_removed_partial allow prefix max content lit new : (max <= 255)%nat -> reads_raw prefix max lit content -> no_longer_run content ->
  needless_raw_string_hashes allow (length prefix) (Z.of_nat max) content lit = Some new ->
  exists n, (n < max)%nat /\ reads_raw prefix n new content /\ (allow = true -> (1 <= n)%nat) /\
    forall m lit', reads_raw prefix m lit' content -> (m < n)%nat -> allow = true /\ m = 0%nat.
Proof. exact (raw_hashes_suggestion allow prefix max content lit new). Qed.
Print Assumptions raw_hashes_removed_partial.
(** Every literal that could do with fewer hashes is reported. *)
Theorem raw_hashes_all_found allow prefix max content lit : reads_raw prefix max lit content ->
  (exists n lit', (n < max)%nat /\ (allow = true -> (1 <= n)%nat) /\ reads_raw prefix n lit' content) ->
  exists new, needless_raw_string_hashes allow (length prefix) (Z.of_nat max) content lit = Some new.
Proof. exact (raw_hashes_found allow prefix max content lit). Qed.
Print Assumptions raw_hashes_all_found.
(** `r##"a""#b"##` becomes `r#"a""#b"#`, which ends before the `b`. *)
Theorem raw_hashes_removed_refuted : exists lit content new, reads_raw [114] 2 lit content /\
  needless_raw_string_hashes false 1 2 content lit = Some new /\ exists rest, rest <> [] /\
  new = [114; 35; 34] ++ [97; 34] ++ closer 1 ++ rest /\ raw_ends 1 ([97; 34] ++ closer 1 ++ rest) [97; 34] rest.
Proof.
  exists (raw_literal [114] 2 (97 :: quote :: quote :: zx "#b")), (97 :: quote :: quote :: zx "#b"), (raw_literal [114] 1 (97 :: quote :: quote :: zx "#b")).
  split; [apply reads_raw_iff; split; [reflexivity|vm_compute; repeat constructor]|]. split; [vm_compute; reflexivity|].
  exists (98 :: quote :: hashes 1). split; [discriminate|]. split; [reflexivity|]. apply raw_ends_iff. vm_compute. repeat constructor.
Qed.
Print Assumptions raw_hashes_removed_refuted.
(** Without the `r` and the hashes the literal denotes the same string, byte string or C string ([p] is empty, `b` or `c`). *)
Theorem raw_string_to_plain bytes enc p max content lit new : reads_raw (p ++ [114]) max lit content -> ~ In 13 content ->
  needless_raw_strings (length (p ++ [114])) (Z.of_nat max) content lit = Some new ->
  new = p ++ quote :: content ++ [quote] /\ string_value bytes enc content = Some content.
Proof. exact (raw_to_plain bytes enc p max content lit new). Qed.
Print Assumptions raw_string_to_plain.

Example C65_nontrivial :
  let content := 97 :: quote :: zx "#b" in
  reads_raw [114] 4 (raw_literal [114] 4 content) content /\ no_longer_run content /\
  needless_raw_string_hashes false 1 4 content (raw_literal [114] 4 content) = Some (raw_literal [114] 2 content) /\
  needless_raw_string_hashes true 1 1 (zx "a\d") (raw_literal [114] 1 (zx "a\d")) = None /\
  needless_raw_strings 2 1 (zx "a#d") (raw_literal [98; 114] 1 (zx "a#d")) = Some (98 :: quote :: zx "a#d" ++ [quote]).
Proof.
  cbn zeta. split; [apply reads_raw_iff; split; [reflexivity|vm_compute; repeat constructor]|]. split; [|vm_compute; auto].
  intros a k j b E. do 2 (destruct a as [|? a]; [try discriminate E|injection E as _ E]).
  - injection E as E. destruct k as [|[|k]]; discriminate E.
  - destruct a as [|? [|? [|]]]; discriminate E.
Qed.

(** C66: reports point exactly at the escapes `\0` with a digit below 8 after them. *)
Theorem octal_reports_exact bytes enc s v i : string_value bytes enc s = Some v ->
  (octal_at bytes enc s i <-> exists o, In o (octal_escapes s) /\ at_ o = i).
Proof.
  intros V. split; [exact (octal_complete bytes enc s i)|]. intros (o & I & <-).
  destruct (octal_sound bytes enc s v o V I) as (_ & _ & H & _). exact H.
Qed.
Print Assumptions octal_reports_exact.
(** The first suggestion puts the code of the octal number in the place of the zero code and the digits, and changes nothing else. *)
Theorem octal_hex_suggestion bytes enc s v o : string_value bytes enc s = Some v -> In o (octal_escapes s) -> exists before digits after,
  v = before ++ 0 :: digits ++ after /\ Forall (fun d => 48 <= d <= 55) digits /\ (1 <= length digits <= 2)%nat /\
  string_value bytes enc (replace o (hex_escape o) s) = Some (before ++ [fold_left (fun n d => 8 * n + (d - 48)) digits 0] ++ after).
Proof.
  intros V I. destruct (octal_sound bytes enc s v o V I) as (b & a & _ & (H & L & K) & E & R & _). exists b, (digits o), a.
  apply octal_range in H, L. split; [exact E|]. rewrite R. unfold digits. destruct K as [->|(-> & Z)]; cbn.
  - repeat split; auto.
  - rewrite Z. repeat split; auto.
Qed.
Print Assumptions octal_hex_suggestion.
(** The second leaves the string as it is.  Missing: one digit only (false, see below). *)
Theorem octal_null_suggestion_partial bytes enc s v o : string_value bytes enc s = Some v -> In o (octal_escapes s) -> len o <> 3%nat ->
  string_value bytes enc (replace o (null_escape o) s) = Some v.
Proof.
  intros V I N. destruct (octal_sound bytes enc s v o V I) as (b & a & _ & (_ & _ & K) & -> & _ & R). rewrite R. unfold digits.
  destruct K as [->|(? & _)]; [reflexivity|contradiction].
Qed.
Print Assumptions octal_null_suggestion_partial.
(** `"\03"` becomes `"\x0003"`, which has another zero in it. *)
Theorem octal_null_suggestion_refuted : exists s v w o, string_value false one s = Some v /\ In o (octal_escapes s) /\
  string_value false one (replace o (null_escape o) s) = Some w /\ v = [0; 51] /\ w = [0; 48; 51].
Proof.
  exists (zx "\03"), [0; 51], [0; 48; 51], {| at_ := 0; len := 3; c_hi := 48; c_lo := 51 |}. vm_compute. repeat split; auto.
Qed.
Print Assumptions octal_null_suggestion_refuted.

Example C66_nontrivial : octal_escapes (zx "\\033 \033[0m\x30\01") = [{| at_ := 6; len := 4; c_hi := 51; c_lo := 51 |}; {| at_ := 17; len := 3; c_hi := 48; c_lo := 49 |}] /\
  string_value false one (zx "\\033 \033[0m\x30\01") = Some (92 :: zx "033 " ++ [0; 51; 51] ++ zx "[0m0" ++ [0; 49]) /\
  hex_escape {| at_ := 6; len := 4; c_hi := 51; c_lo := 51 |} = zx "\x1b".
Proof. vm_compute. auto. Qed.

(** C69: a string of one character becomes the character literal of that character.
    Missing: literals with a newline, a tab or a carriage return in their text (false, see below). *)
Theorem str_to_char_partial ascii_only raw lit value hint : string_literal raw lit value -> ~ In 10 lit -> ~ In 13 lit -> ~ In 9 lit ->
  str_to_char ascii_only raw lit value = Some hint -> exists c, value = [c] /\ char_literal hint c.
Proof. exact (str_to_char_ok ascii_only raw lit value hint). Qed.
Print Assumptions str_to_char_partial.
Theorem str_to_char_found ascii_only raw lit c : (ascii_only = true -> c < 128) -> exists hint, str_to_char ascii_only raw lit [c] = Some hint.
Proof. exact (str_to_char_some ascii_only raw lit c). Qed.
Print Assumptions str_to_char_found.
(** A tab in quotes becomes a tab in single quotes, which is no character literal; so does a line continuation before a character. *)
Theorem str_to_char_refuted : exists lit lit' hint hint', string_literal None lit [9] /\ str_to_char true None lit [9] = Some hint /\
  string_literal None lit' [97] /\ str_to_char true None lit' [97] = Some hint' /\ forall c, ~ char_literal hint c /\ ~ char_literal hint' c.
Proof.
  exists [34; 9; 34], [34; 92; 10; 32; 97; 34], [39; 9; 39], [39; 92; 10; 32; 97; 39].
  split; [exists [9]; now split|]. split; [vm_compute; reflexivity|]. split; [exists [92; 10; 32; 97]; now split|]. split; [vm_compute; reflexivity|].
  intros c. split; intros (body & E & H).
  - injection E as E. destruct body as [|x [|y body]]; [discriminate| |destruct body; discriminate]. injection E as <-.
    destruct H as [(E & N)|(e & r & E & _)]; [|discriminate]. injection E as <-. apply N. do 4 right. now left.
  - injection E as E. change (92 :: 10 :: 32 :: 97 :: [39]) with ([92; 10; 32; 97] ++ [39]) in E. apply app_inj_tail in E as (<- & _).
    destruct H as [(E & _)|(e & r & E & N & _)]; [discriminate|]. injection E as <- _. now apply N.
Qed.
Print Assumptions str_to_char_refuted.

Example C69_nontrivial : string_literal None (quote :: zx "\u{41}" ++ [quote]) [65] /\
  str_to_char false None (quote :: zx "\u{41}" ++ [quote]) [65] = Some (zx "'\u{41}'") /\
  str_to_char false (Some 1%nat) (raw_literal [114] 1 [quote]) [quote] = Some [39; 34; 39] /\
  str_to_char true None [34; 39; 34] [39] = Some (zx "'\''") /\
  str_to_char true None [34; 233; 34] [233] = None /\ str_to_char false None [34; 233; 34] [233] = Some [39; 233; 39].
Proof. split; [exists (zx "\u{41}"); vm_compute; auto|vm_compute; auto]. Qed.
