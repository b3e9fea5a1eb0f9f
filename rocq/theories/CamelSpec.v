(** What the functions of str_utils.rs are documented to return. *)
From Verif Require Export CamelModel.
Section Spec.
  Context {A : chars}.
  (** Facts of Unicode used: characters take at least a byte, none is both cases, equality. *)
  Record unicode : Prop := {
    some_byte : forall c : A, 0 < len_utf8 A c;
    one_case : forall c : A, is_uppercase A c = true -> is_lowercase A c = false;
    eqb_eq : forall c d : A, chr_eqb A c d = true <-> c = d
  }.
  Definition letter (c : A) : Prop := is_uppercase A c = true \/ is_lowercase A c = true.
  (** The position after [a] in characters and bytes. *)
  Definition pos (a : list A) : nat * nat := (length a, blen a).
  (** A component starts after [a]: an upper-case letter, then letters up to the end, the last one lower-case. *)
  Definition starts_component (s : list A) (p : nat * nat) : Prop :=
    exists a c b z, s = a ++ c :: b ++ [z] /\ p = pos a /\ is_uppercase A c = true /\ Forall letter b /\ is_lowercase A z = true.
  (** A run of words, each an upper-case letter and at least one lower-case letter. *)
  Inductive words : list A -> Prop :=
  | words_nil : words []
  | words_snoc w u l : words w -> is_uppercase A u = true -> l <> [] -> Forall (fun c => is_lowercase A c = true) l -> words (w ++ u :: l).
  (** Order of positions. *)
  Definition before (p q : nat * nat) : Prop := snd p < snd q.
  (** An upper-case letter and then lower-case letters only. *)
  Definition is_word (m : list A) : Prop := exists u l, m = u :: l /\ is_uppercase A u = true /\ Forall (fun c => is_lowercase A c = true) l.
  (** The first characters differ, or one string is empty. *)
  Definition differ (r1 r2 : list A) : Prop := match r1, r2 with c :: _, d :: _ => c <> d | _, _ => True end.
  (** A character whose lower case is one other character with it as upper case. *)
  Definition simple_case (c : A) : Prop := exists l, to_lowercase A c = [l] /\ to_uppercase A l = [c] /\ is_uppercase A l = false /\ l <> underscore A.
End Spec.
Arguments unicode A : clear implicits.
