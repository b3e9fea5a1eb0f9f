(** What the command line of cargo-clippy and clippy-driver is documented to mean. *)
From Coq Require Export Strings.String Strings.Ascii List Bool ZArith.
Export ListNotations.
Open Scope string_scope.
Open Scope list_scope.

(** [s] has [p] somewhere inside. *)
Definition occurs (p s : string) : Prop := exists u v, s = (u ++ p ++ v)%string.

(** The arguments before the first `--` and those after it. *)
Inductive cut_at_dashes : list string -> list string -> list string -> Prop :=
| cut_end : cut_at_dashes [] [] []
| cut_dash post : cut_at_dashes ("--" :: post) [] post
| cut_cons a l pre post : a <> "--" -> cut_at_dashes l pre post -> cut_at_dashes (a :: l) (a :: pre) post.

(** `--flag=value` and `--flag value`: reading the vector from the left, an argument that is not
    [f] in either form is passed over, `f` takes the next argument as its value.  [gives f l v]:
    some reading of [l] gives the flag the value [v]. *)
Inductive gives (f : string) : list string -> string -> Prop :=
| gives_eq v l : gives f ((f ++ "=" ++ v)%string :: l) v
| gives_sep v l : gives f (f :: v :: l) v
| gives_after_eq v w l : gives f l v -> gives f ((f ++ "=" ++ w)%string :: l) v
| gives_after_sep v w l : gives f l v -> gives f (f :: w :: l) v
| gives_skip a v l : a <> f -> (forall w, a <> (f ++ "=" ++ w)%string) -> gives f l v -> gives f (a :: l) v.

(** [sublist_without f l l']: [l'] is [l] without the elements in [f], order kept. *)
Inductive without (drop : string -> Prop) : list string -> list string -> Prop :=
| without_nil : without drop [] []
| without_drop a l l' : drop a -> without drop l l' -> without drop (a :: l) l'
| without_keep a l l' : ~ drop a -> without drop l l' -> without drop (a :: l) (a :: l').

(** Arguments of the driver that are not passed on to the compiler. *)
Definition dropped (s : string) : Prop := s = "" \/ s = "--no-deps".
(** Arguments of `cargo clippy` that are not passed on to cargo. *)
Definition own_flag (s : string) : Prop := s = "--fix" \/ s = "--no-deps".

(** [s] is the flag [k], alone or with a value. *)
Definition flag_form (k s : string) : Prop := s = k \/ exists v, s = (k ++ "=" ++ v)%string.

(** Does some line of a text satisfy [P]?  (Lines end at a newline or at the end of the text.) *)
Definition newline : ascii := ascii_of_nat 10.
(** [has_line txt l]: [l] is a line of [txt]; lines end at a newline, a carriage return in front of
    it does not belong to the line, and text after the last newline is a line if there is any. *)
Definition nl_free (s : string) : Prop := ~ occurs (String newline "") s.
Definition without_cr (raw l : string) : Prop :=
  raw = (l ++ String (ascii_of_nat 13) "")%string \/ raw = l /\ forall l', raw <> (l' ++ String (ascii_of_nat 13) "")%string.
Inductive has_line : string -> string -> Prop :=
| line_last l : nl_free l -> l <> "" -> has_line l l
| line_first raw l rest : nl_free raw -> without_cr raw l -> has_line (raw ++ String newline rest) l
| line_later raw l rest : nl_free raw -> has_line rest l -> has_line (raw ++ String newline rest) l.
(** An argument by which rustc is told its sysroot: the flag itself, or `@file` with the flag on a
    line of the file (an argument whose file cannot be read stands for itself). *)
Definition tells_sysroot (fs : string -> option string) (a : string) : Prop :=
  (exists path txt l, a = ("@" ++ path)%string /\ fs path = Some txt /\ has_line txt l /\ flag_form "--sysroot" l) \/
  (flag_form "--sysroot" a /\ forall path txt, a = ("@" ++ path)%string -> fs path <> Some txt).

(** The arguments with the sysroot of the environment added, unless they give one themselves. *)
Definition with_sysroot (fs : string -> option string) (var : option string) (args args' : list string) : Prop :=
  match var with
  | None => args' = args
  | Some r => ((exists a, In a args /\ tells_sysroot fs a) /\ args' = args) \/
              ((forall a, In a args -> ~ tells_sysroot fs a) /\ args' = args ++ ["--sysroot"; r])
  end.

(** `clippy::Some-Lint` and `some_lint` name the same lint: case does not matter, `-` stands for `_`,
    the tool prefix may be left out. *)
Definition lower_char (c d : ascii) : Prop :=
  let n := nat_of_ascii c in
  (65 <= n <= 90 /\ nat_of_ascii d = n + 32) \/ (~ (65 <= n <= 90) /\ d = c).
Definition name_char (c d : ascii) : Prop :=
  (c = "-"%char /\ d = "_"%char) \/ (c <> "-"%char /\ lower_char c d).
Inductive each (R : ascii -> ascii -> Prop) : string -> string -> Prop :=
| each_nil : each R "" ""
| each_cons c d s t : R c d -> each R s t -> each R (String c s) (String d t).
Definition lint_named (arg name : string) : Prop :=
  (exists pre body, arg = (pre ++ body)%string /\ each lower_char pre "clippy::" /\ each name_char body name) \/
  ((forall pre body, arg = (pre ++ body)%string -> ~ each lower_char pre "clippy::") /\ each name_char arg name).
