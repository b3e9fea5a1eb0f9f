(** C34: camel-case positions, splitting, common prefixes and suffixes, case conversion. *)
From Coq Require Import Ascii String Lia Sorted.
From Verif Require Import CamelModel CamelSpec CamelProofs.

(** The characters of ISO 8859-1, the non-ASCII ones taking two bytes. *)
Definition in_range (lo hi : nat) (c : ascii) : bool := (lo <=? nat_of_ascii c) && (nat_of_ascii c <=? hi).
Definition latin_upper (c : ascii) : bool := in_range 65 90 c || in_range 192 214 c.
Definition latin_lower (c : ascii) : bool := in_range 97 122 c || in_range 224 246 c.
Definition latin : chars :=
  {| chr := ascii; len_utf8 := fun c => if nat_of_ascii c <? 128 then 1 else 2;
     is_uppercase := latin_upper; is_lowercase := latin_lower;
     to_lowercase := fun c => [if latin_upper c then ascii_of_nat (nat_of_ascii c + 32) else c];
     to_uppercase := fun c => [if latin_lower c then ascii_of_nat (nat_of_ascii c - 32) else c];
     chr_eqb := Ascii.eqb; underscore := "_"%char |}.
Lemma latin_ok : unicode latin.
Proof.
  constructor.
  - intros c. change (0 < if nat_of_ascii c <? 128 then 1 else 2). destruct (nat_of_ascii c <? 128); lia.
  - intros c. cbn [latin is_uppercase is_lowercase chr]. destruct c as [[] [] [] [] [] [] [] []]; vm_compute; auto.
  - apply Ascii.eqb_eq.
Qed.
Lemma latin_simple (c : latin) : is_uppercase latin c = true -> simple_case c.
Proof.
  intros H. exists (ascii_of_nat (nat_of_ascii c + 32)). cbn in H. destruct c as [[] [] [] [] [] [] [] []]; vm_compute in H; try discriminate H; vm_compute; repeat split; discriminate.
Qed.
Definition lt (s : string) : list latin := list_ascii_of_string s.
Definition oe : list latin := [ascii_of_nat 246].

(** The indices are exactly the starts of the components and the end, each once and in order; no loop. *)
Theorem camel_indices_exact (A : chars) (U : unicode A) (s : list A) :
  exists l, camel_case_indices s = Some l /\ StronglySorted before l /\ forall p, In p l <-> p = pos s \/ starts_component s p.
Proof. destruct (indices_spec U s) as (l & H1 & H2 & H3 & _). eauto. Qed.
Print Assumptions camel_indices_exact.
(** `camel_case_start_from_idx`: the leftmost component start from the given byte on, else the end. *)
Theorem camel_start_leftmost (A : chars) (U : unicode A) (s : list A) start :
  let r := camel_case_start_from_idx s start in
  (r = pos s /\ forall p, starts_component s p -> snd p < start) \/
  (starts_component s r /\ start <= snd r /\ forall p, starts_component s p -> start <= snd p -> snd r <= snd p).
Proof. exact (from_idx_spec U s start). Qed.
Print Assumptions camel_start_leftmost.
(** `camel_case_split` does not panic and cuts the string into nonempty pieces: each but the first is a
    word (upper-case letter, then lower-case letters), and so is the first if a component starts there. *)
Theorem camel_split_partition (A : chars) (U : unicode A) (s : list A) :
  exists parts, camel_case_split s = Some parts /\ concat parts = s /\ Forall (fun m => m <> []) parts /\
    match parts with [] => True | m :: ms => (starts_component s (0, 0) -> is_word m) /\ Forall is_word ms end.
Proof. exact (split_spec U s). Qed.
Print Assumptions camel_split_partition.
(** `camel_case_until`: the end of the longest prefix made of words. *)
Theorem camel_until_longest (A : chars) (U : unicode A) (s : list A) :
  exists w r, s = w ++ r /\ camel_case_until s = pos w /\ words w /\ forall w' r', s = w' ++ r' -> words w' -> List.length w' <= List.length w.
Proof. exact (until_spec U s). Qed.
Print Assumptions camel_until_longest.
(** `count_match_start`, `count_match_end`: the size of the longest common prefix and suffix. *)
Theorem count_match_start_longest (A : chars) (U : unicode A) (s1 s2 : list A) :
  exists p r1 r2, s1 = p ++ r1 /\ s2 = p ++ r2 /\ differ r1 r2 /\ count_match_start s1 s2 = pos p.
Proof.
  unfold count_match_start, chars_of, bytes_of. destruct (match_start_spec U s1 s2 0 0 0 0 None) as (p & r1 & r2 & E1 & E2 & D & R). exists p, r1, r2. repeat split; auto.
  cbv zeta in R. destruct R as [[-> ->]|(q & c & -> & ->)]; [reflexivity|]. unfold pos. rewrite app_length, blen_app. cbn. f_equal. lia.
Qed.
Print Assumptions count_match_start_longest.
Theorem count_match_end_longest (A : chars) (U : unicode A) (s1 s2 : list A) :
  exists p r1 r2, s1 = r1 ++ p /\ s2 = r2 ++ p /\ differ (rev r1) (rev r2) /\ count_match_end s1 s2 = pos p.
Proof.
  unfold count_match_end. destruct (match_end_spec U s1 s2 None) as (p & r1 & r2 & E1 & E2 & D & R). exists p, r1, r2. repeat split; auto.
  cbv zeta in R. destruct R as [[-> ->]|(q & c & -> & ->)]; [reflexivity|]. subst. unfold pos. rewrite app_length, blen_app. f_equal; lia.
Qed.
Print Assumptions count_match_end_longest.
(** A snake-case name has no upper-case letter and is its own snake-case form. *)
Theorem snake_case_stable (A : chars) (s : list A) :
  (forall c : A, is_uppercase A c = true -> Forall (fun d => is_uppercase A d = false) (to_lowercase A c)) -> is_uppercase A (underscore A) = false ->
  Forall (fun d => is_uppercase A d = false) (to_snake_case s) /\ to_snake_case (to_snake_case s) = to_snake_case s.
Proof. intros H N. pose proof (snake_no_upper H N s 0) as F. split; [exact F|]. unfold to_snake_case at 1. apply snake_fixed; auto. Qed.
Print Assumptions snake_case_stable.
(** Camel case to snake case and back, for names that start with an upper-case letter, have no
    underscore, and whose upper-case letters have a one-letter lower case that maps back. *)
Theorem camel_snake_round_trip (A : chars) (U : unicode A) c (s : list A) :
  is_uppercase A (underscore A) = false -> is_uppercase A c = true -> ~ In (underscore A) (c :: s) -> (forall d, In d (c :: s) -> is_uppercase A d = true -> simple_case d) ->
  to_camel_case (to_snake_case (c :: s)) = c :: s.
Proof.
  intros NU UC N F. unfold to_camel_case, to_snake_case. rewrite (round_trip U NU (c :: s) 0 true); auto; [now apply Forall_forall|congruence].
Qed.
Print Assumptions camel_snake_round_trip.
(** Not so with an underscore. *)
Theorem camel_snake_round_trip_refuted : exists s : list latin, to_camel_case (to_snake_case s) <> s /\ match s with c :: _ => is_uppercase latin c = true | [] => False end.
Proof. exists (lt "Ab_Cd"). split; [vm_compute; discriminate|reflexivity]. Qed.
Print Assumptions camel_snake_round_trip_refuted.

Example C34_nontrivial :
  unicode latin
  /\ camel_case_split (oe ++ oe ++ lt "AabABcd") = Some [oe ++ oe; lt "Aab"; lt "A"; lt "Bcd"]
  /\ camel_case_indices (oe ++ lt "aDef") = Some [(2, 3); (5, 6)]
  /\ camel_case_start_from_idx (lt "AbcDef") 1 = (3, 3)
  /\ camel_case_until (lt "Abc" ++ oe ++ oe ++ lt "DD") = (5, 7)
  /\ count_match_start (lt "T" ++ oe ++ lt "ffT") (lt "T" ++ oe ++ lt "ff") = (4, 5)
  /\ count_match_end (lt "MyT" ++ oe ++ lt "ff") (lt "YourT" ++ oe ++ lt "ff") = (4, 5)
  /\ to_snake_case (lt "AbcDD") = lt "abc_d_d" /\ to_camel_case (lt "abc_d_d") = lt "AbcDD".
Proof. split; [exact latin_ok|]. vm_compute. repeat split. Qed.
(** The hypotheses of the conversions hold for these characters. *)
Example C34_latin_conversions : (forall c : latin, is_uppercase latin c = true -> simple_case c) /\ is_uppercase latin (underscore latin) = false
  /\ (forall c : latin, is_uppercase latin c = true -> Forall (fun d => is_uppercase latin d = false) (to_lowercase latin c)).
Proof.
  split; [exact latin_simple|]. split; [reflexivity|]. intros c H. destruct (latin_simple c H) as (l & E & _ & N & _). rewrite E. constructor; [exact N|constructor].
Qed.
