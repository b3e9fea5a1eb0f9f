(** * What configuration and MSRV handling should do

    Written without the functions of ConfModel.v (only its data types are
    used): the innermost attribute in force, the entries of a list, the value
    a key sets, the nearest configuration file, a listing of values. *)
From Coq Require Import List String Ascii Arith Bool Permutation.
From Verif Require Import ConfModel.
Import ListNotations.
Local Open Scope nat_scope.

(** ** MSRV *)

(** The version a list of attributes declares: that of its first
    `clippy::msrv` attribute. *)
Inductive declares (pv : string -> option version) : list attr -> version -> Prop :=
| declares_here : forall s v rest,
    pv s = Some v -> declares pv (mk_attr true (Some s) :: rest) v
| declares_later : forall x rest v,
    declares pv rest v -> declares pv (mk_attr false x :: rest) v.

(** [in_force pv conf chain o]: [chain] is the attributes of a node and its
    parents, innermost first. *)
Inductive in_force (pv : string -> option version) (conf : option version)
  : list (list attr) -> option version -> Prop :=
| force_conf : forall chain,
    (forall attrs v, In attrs chain -> ~ declares pv attrs v) -> in_force pv conf chain conf
| force_attr : forall inner attrs outer v,
    (forall a w, In a inner -> ~ declares pv a w) -> declares pv attrs v ->
    in_force pv conf (inner ++ attrs :: outer) (Some v).

(** [occurs_at t chain id]: the node labelled [id] occurs in [t] below the
    attributes [chain] (its own first). *)
Inductive occurs_at : tree -> list (list attr) -> nat -> Prop :=
| occurs_root : forall id attrs children, occurs_at (Node id attrs children) [attrs] id
| occurs_below : forall id attrs children c chain i,
    In c children -> occurs_at c chain i ->
    occurs_at (Node id attrs children) (chain ++ [attrs]) i.

(** Lexicographic order of versions. *)
Inductive version_le : version -> version -> Prop :=
| vle_major : forall a b c a' b' c', a < a' -> version_le (a, b, c) (a', b', c')
| vle_minor : forall a b c b' c', b < b' -> version_le (a, b, c) (a, b', c')
| vle_patch : forall a b c c', c <= c' -> version_le (a, b, c) (a, b, c').

(** A list of attributes with nothing to complain about: at most one
    `clippy::msrv`, and it gives a version. *)
Definition well_formed_attrs (pv : string -> option version) (attrs : list attr) : Prop :=
  (forall a, In a attrs -> is_msrv a = false) \/
  (exists before s v after, attrs = before ++ mk_attr true (Some s) :: after /\ pv s = Some v /\
     forall a, In a (before ++ after) -> is_msrv a = false).

(** ** Lists *)

(** [entries deser l r]: the entries of [l] other than ".." that can be read,
    in order. *)
Inductive entries {V T D} (deser : toml V -> option T * list D) : list (toml V) -> list T -> Prop :=
| entries_nil : entries deser [] []
| entries_dots : forall l r, entries deser l r -> entries deser (TStr ".." :: l) r
| entries_bad : forall x l r, x <> TStr ".." -> fst (deser x) = None ->
    entries deser l r -> entries deser (x :: l) r
| entries_good : forall x t l r, x <> TStr ".." -> fst (deser x) = Some t ->
    entries deser l r -> entries deser (x :: l) (t :: r).

(** ** Keys *)

(** Requirements on the table of keys: distinct keys, the reserved key not
    among them, every field without a type is renamed to a field with one, no
    two to the same. *)
Record table_ok (tbl : list entry) : Prop := {
  ok_distinct : NoDup (map e_name tbl);
  ok_reserved : ~ In "third-party"%string (map e_name tbl);
  ok_renamed : forall e, In e tbl -> e_typed e = false ->
    exists e', e_rename e = Some (e_name e') /\ In e' tbl /\ e_typed e' = true;
  ok_injective : forall e e' n, In e tbl -> In e' tbl -> e_typed e = false -> e_typed e' = false ->
    e_rename e = Some n -> e_rename e' = Some n -> e = e' }.

(** The field a key is for: its new name if it has been renamed. *)
Definition target (e : entry) : string :=
  match e_rename e with Some n => n | None => e_name e end.

(** ** Search for the configuration file *)

Definition no_file (e : fs_entry) : Prop := e = Missing \/ e = NotAFile.

(** ** Listing of values *)

(** [laid_out cells line]: the cells, separated by four or more spaces. *)
Inductive laid_out : list string -> string -> Prop :=
| laid_one : forall c, laid_out [c] c
| laid_more : forall c k cells line, 4 <= k -> laid_out cells line ->
    laid_out (c :: cells) (c ++ string_of_list_ascii (repeat " "%char k) ++ line)%string.

(** ** Item ordering groups *)

(** Position of the group that contains a kind. *)
Definition in_group (g : groups) (i : nat) (name : string) (k : item_kind) : Prop :=
  exists items, nth_error g i = Some (name, items) /\ In k items.

(** [inline values line]: the values in backquotes, separated by ", ". *)
Inductive inline : list string -> string -> Prop :=
| inline_none : inline [] ""
| inline_one : forall v, inline [v] ("`" ++ v ++ "`")%string
| inline_more : forall v v' vs line, inline (v' :: vs) line ->
    inline (v :: v' :: vs) ("`" ++ v ++ "`, " ++ line)%string.

(** Every kind of item is in exactly one group, and "use" is alone in its group. *)
Definition groups_ok (g : groups) : Prop :=
  (forall k, count_occ item_kind_eq_dec (List.concat (map snd g)) k = 1) /\
  exists name, In (name, [KUse]) g.

(** The message for a list of values: on one line that fits, or one or more
    lines each holding one or more values; the values are read down the
    columns; if there are several columns every line fits the terminal (11 is
    the length of "   = note: ", 28 that of "   = note: possible values: "). *)
Definition listing (width : nat) (values : list string) (msg : list string) : Prop :=
  (exists body, msg = [("possible values: " ++ body)%string] /\ inline values body /\
     List.length values <= 8 /\ 28 + String.length body <= width) \/
  (exists rows lines, msg = "possible values:"%string :: lines /\
     Forall2 laid_out rows lines /\ Permutation (List.concat rows) values /\
     (forall r j cells c, nth_error rows r = Some cells -> nth_error cells j = Some c ->
        nth_error values (r + j * List.length rows) = Some c) /\
     ((exists cells, In cells rows /\ 2 <= List.length cells) ->
        forall line, In line lines -> 11 + String.length line <= width)).
