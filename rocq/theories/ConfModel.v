(** * Configuration and MSRV handling

    Model of clippy_config/src/{conf.rs, de.rs, types.rs} and
    clippy_utils/src/msrvs.rs.

    Simplifications, common to the whole file: spans are dropped, a diagnostic
    is a constructor carrying the strings it mentions; the TOML parser and
    [parse_version] (both outside /repo) are parameters; strings are byte
    strings, so that the padding of `{:width$}` (which counts characters) is
    modelled for ASCII values, which all configuration names are. *)
From Coq Require Import List String Ascii Arith Bool Lia.
From Verif Require Import CliModel.
Import ListNotations.
Local Open Scope nat_scope.

(** ** MSRV tracking: clippy_utils/src/msrvs.rs *)

(** [RustcVersion { major, minor, patch }] of rustc_hir, with the derived
    lexicographic order. *)
Definition version : Type := nat * nat * nat.
Definition version_leb (a b : version) : bool :=
  let '(a1, a2, a3) := a in
  let '(b1, b2, b3) := b in
  (a1 <? b1) || ((a1 =? b1) && ((a2 <? b2) || ((a2 =? b2) && (a3 <=? b3)))).
Definition version_eqb (a b : version) : bool :=
  let '(a1, a2, a3) := a in
  let '(b1, b2, b3) := b in
  (a1 =? b1) && (a2 =? b2) && (a3 =? b3).

(** An attribute, reduced to what msrvs.rs looks at: does its path match
    `clippy::msrv`, and its [value_str]. *)
Record attr := mk_attr { is_msrv : bool; value_str : option string }.

Section Msrv.
(** rustc_attr_parsing's [parse_version]. *)
Variable parse_version : string -> option version.

(** msrvs.rs:257-263 [parse_attrs]. *)
Definition parse_attrs (attrs : list attr) : option version :=
  match List.find is_msrv attrs with
  | None => None
  | Some a => match value_str a with
              | None => None
              | Some s => parse_version s
              end
  end.

(** [MsrvStack], msrvs.rs:220-223; the stack is kept top first. *)
Definition msrv_stack := list version.

(** msrvs.rs:225-232 [From<Option<RustcVersion>> for MsrvStack]. *)
Definition stack_from (conf : option version) : msrv_stack :=
  match conf with Some v => [v] | None => [] end.

(** msrvs.rs:235-237 [MsrvStack::current]. *)
Definition stack_current (st : msrv_stack) : option version := hd_error st.

(** msrvs.rs:149-151, 157-159 and 239-241: [is_none_or(|msrv| msrv >= required)]. *)
Definition meets_version (cur : option version) (required : version) : bool :=
  match cur with None => true | Some v => version_leb required v end.

(** msrvs.rs:239-241 [MsrvStack::meets]. *)
Definition stack_meets (st : msrv_stack) (required : version) : bool :=
  meets_version (stack_current st) required.

(** msrvs.rs:243-248 [MsrvStack::check_attributes]; the second component is
    SEEN_MSRV_ATTR. *)
Definition check_attributes (st : msrv_stack) (seen : bool) (attrs : list attr)
  : msrv_stack * bool :=
  match parse_attrs attrs with
  | Some v => (v :: st, true)
  | None => (st, seen)
  end.

(** msrvs.rs:250-254 [MsrvStack::check_attributes_post]; [SmallVec::pop] on an
    empty stack does nothing. *)
Definition check_attributes_post (st : msrv_stack) (attrs : list attr) : msrv_stack :=
  match parse_attrs attrs with
  | Some _ => tl st
  | None => st
  end.

(** The syntax tree as far as attributes go: a label, the attributes, the
    children. *)
Inductive tree : Type := Node (id : nat) (attrs : list attr) (children : list tree).

(** An early lint pass that uses [extract_msrv_attr!] / [check_attributes]:
    rustc calls check_attributes before and check_attributes_post after
    visiting a node.  Returns the stack, SEEN_MSRV_ATTR and what
    [MsrvStack::current] answers when a lint asks on entering and on leaving
    each node. *)
Fixpoint early_run (st : msrv_stack) (seen : bool) (t : tree)
  : msrv_stack * bool * list (nat * option version) :=
  match t with
  | Node id attrs children =>
      let '(st1, seen1) := check_attributes st seen attrs in
      let '(st2, seen2, vis) :=
        (fix run_all (st : msrv_stack) (seen : bool) (ts : list tree) :=
           match ts with
           | [] => (st, seen, [])
           | t :: ts =>
               let '(st', seen', v) := early_run st seen t in
               let '(st'', seen'', vs) := run_all st' seen' ts in
               (st'', seen'', v ++ vs)
           end) st1 seen1 children in
      (check_attributes_post st2 attrs, seen2,
       (id, stack_current st1) :: vis ++ [(id, stack_current st2)])
  end.

(** msrvs.rs:138-143 [Msrv::for_attrs]: the attributes of the node, then of
    its parents, innermost first. *)
Fixpoint for_attrs (conf : option version) (chain : list (list attr)) : option version :=
  match chain with
  | [] => conf
  | attrs :: rest =>
      match parse_attrs attrs with
      | Some v => Some v
      | None => for_attrs conf rest
      end
  end.

(** msrvs.rs:118-124 [Msrv::current], 130-136 [Msrv::at]. *)
Definition msrv_at (seen : bool) (conf : option version) (chain : list (list attr))
  : option version :=
  if seen then for_attrs conf chain else conf.

(** msrvs.rs:149-151 [Msrv::meets], 157-159 [Msrv::meets_at]. *)
Definition msrv_meets (seen : bool) (conf : option version) (chain : list (list attr))
  (required : version) : bool :=
  meets_version (msrv_at seen conf chain) required.

(** Stability levels, msrvs.rs:198-215 [Msrv::stability_met]. *)
Inductive stability := Unstable | StableVersion (v : version) | StableCurrent | StableErr.
Definition stability_met (cur : option version) (current_rustc : version)
  (level : option stability) : bool :=
  match level with
  | None => true
  | Some Unstable => false
  | Some (StableVersion v) => meets_version cur v
  | Some StableCurrent => meets_version cur current_rustc
  | Some StableErr => false
  end.

Inductive msrv_diag := MDuplicate | MBadAttr | MInvalid (s : string).

(** msrvs.rs:265-288 [check_attrs]. *)
Definition check_attrs (attrs : list attr) : list msrv_diag :=
  match filter is_msrv attrs with
  | [] => []
  | a :: more =>
      (match more with [] => [] | _ :: _ => [MDuplicate] end) ++
      match value_str a with
      | None => [MBadAttr]
      | Some s => match parse_version s with
                  | None => [MInvalid s]
                  | Some _ => []
                  end
      end
  end.

(** conf.rs:956-972, the end of [Conf::load_inner]: the MSRV of clippy.toml
    and CARGO_PKG_RUST_VERSION.  The second component tells whether the
    "differ" warning is given. *)
Definition merge_msrv (conf_msrv : option version) (cargo_var : option string)
  : option version * bool :=
  let cargo_msrv := match cargo_var with Some s => parse_version s | None => None end in
  match conf_msrv, cargo_msrv with
  | None, Some c => (Some c, false)
  | Some v, Some c => (Some v, negb (version_eqb v c))
  | _, None => (conf_msrv, false)
  end.

End Msrv.

(** ** Lists in the configuration: de.rs:484-516 [deserialize_array] *)

(** A TOML value, as far as deserialize_array looks at it. *)
Inductive toml (V : Type) := TStr (s : string) | TOther (v : V) | TArr (l : list (toml V)).
Arguments TStr {V} _.
Arguments TOther {V} _.
Arguments TArr {V} _.

Inductive array_diag (D : Type) := DupDots | NotArray | ElemDiag (d : D).
Arguments DupDots {D}.
Arguments NotArray {D}.
Arguments ElemDiag {D} _.

Section Array.
Context {V T D : Type}.
(** [T::deserialize]: a value or nothing, and the diagnostics it emits. *)
Variable deser : toml V -> option T * list D.

(** The loop of the lazy iterator chain filter / filter_map / collect
    (de.rs:493-508): entry by entry, in order. *)
Fixpoint array_loop (has_default : bool) (l : list (toml V))
  : bool * list T * list (array_diag D) :=
  match l with
  | [] => (has_default, [], [])
  | x :: l' =>
      if match x with TStr s => String.eqb s ".." | _ => false end then
        let '(h, r, ds) := array_loop true l' in
        (h, r, (if has_default then [DupDots] else []) ++ ds)
      else
        let '(o, d) := deser x in
        let '(h, r, ds) := array_loop has_default l' in
        (h, match o with Some t => t :: r | None => r end, map ElemDiag d ++ ds)
  end.

(** de.rs:484-516; [defaults] is [default.iter().map(from_default)].  The
    collection is a list ([C = Vec]); for a [HashSet] take its elements. *)
Definition deserialize_array (value : toml V) (defaults : list T)
  : list T * list (array_diag D) :=
  match value with
  | TArr values =>
      let '(h, r, ds) := array_loop false values in
      ((if h then r ++ defaults else r), ds)
  | _ => (defaults, [NotArray])
  end.
End Array.

(** ** Configuration keys: conf.rs:74-219 [define_Conf!] *)

(** One line of [define_Conf!]: the key, `#[rename = ..]`, and whether a type
    is given.  The Rust identifier of a field is its key with `-` for `_`
    (checked by a unit test, conf.rs:213-216), so a field is identified by its
    key. *)
Record entry := mk_entry { e_name : string; e_rename : option string; e_typed : bool }.

Inductive conf_field := Fld (e : entry) | ThirdParty.

Definition lookup_entry (tbl : list entry) (s : string) : option entry :=
  List.find (fun e => String.eqb (e_name e) s) tbl.

(** conf.rs:106-112 [ConfField::parse]. *)
Definition conf_parse (tbl : list entry) (s : string) : option conf_field :=
  match lookup_entry tbl s with
  | Some e => Some (Fld e)
  | None => if String.eqb s "third-party" then Some ThirdParty else None
  end.

(** conf.rs:97-99 [ConfField::name]. *)
Definition conf_name (f : conf_field) : string :=
  match f with Fld e => e_name e | ThirdParty => "third-party" end.

(** conf.rs:94, 101-103 [ConfField::FIELDS], [new_field].  A rename to an
    identifier that is not a field does not compile; the model then stays put. *)
Definition new_field (tbl : list entry) (f : conf_field) : conf_field :=
  match f with
  | Fld e => match e_rename e with
             | Some n => match conf_parse tbl n with Some g => g | None => f end
             | None => f
             end
  | ThirdParty => ThirdParty
  end.

(** conf.rs:95 [ConfField::SUGG_NAMES] with [filtered_names!], conf.rs:64-72. *)
Definition sugg_names (tbl : list entry) : list string :=
  map e_name (filter (fun e => match e_rename e with Some _ => false | None => true end) tbl)
  ++ ["third-party"%string].

Inductive conf_diag (D : Type) :=
| UnknownKey (k : string)
| DeprecatedKey (k new : string) (machine_applicable : bool)
| DuplicateKey (k new : string)
| ValueDiag (k : string) (d : D).
Arguments UnknownKey {D} _.
Arguments DeprecatedKey {D} _ _ _.
Arguments DuplicateKey {D} _ _.
Arguments ValueDiag {D} _ _.

Section Keys.
Context {V W D : Type}.
(** [deserialize_or_default] of each field's type on a value, and the
    field's default. *)
Variable deser : string -> V -> W * list D.
Variable default : string -> W.

Definition doc := list (string * V).
Definition has_key (d : doc) (k : string) : bool :=
  existsb (fun kv => String.eqb (fst kv) k) d.
(** The local variables [let mut $name: Option<$ty> = None]. *)
Definition slots := string -> option W.
Definition set_slot (s : slots) (k : string) (w : W) : slots :=
  fun k' => if String.eqb k k' then Some w else s k'.

(** conf.rs:158-193, the inner [loop].  [None]: out of fuel. *)
Fixpoint key_loop (fuel : nat) (tbl : list entry) (d : doc) (key : string) (value : V)
  (f : conf_field) (s : slots) : option (slots * list (conf_diag D)) :=
  match fuel with
  | O => None
  | S fuel' =>
      match f with
      | ThirdParty => Some (s, [])
      | Fld e =>
          if e_typed e then
            let '(w, ds) := deser (e_name e) value in
            Some (set_slot s (e_name e) w, map (ValueDiag (e_name e)) ds)
          else
            let g := new_field tbl f in
            let other := has_key d (conf_name g) in
            let dep := DeprecatedKey key (conf_name g) (negb other) in
            if other then Some (s, [dep; DuplicateKey key (conf_name g)])
            else
              match key_loop fuel' tbl d key value g s with
              | Some (s', ds) => Some (s', dep :: ds)
              | None => None
              end
      end
  end.

(** conf.rs:147-195, the loop over the document's keys. *)
Fixpoint keys_loop (tbl : list entry) (d : doc) (todo : doc) (s : slots)
  : option (slots * list (conf_diag D)) :=
  match todo with
  | [] => Some (s, [])
  | (key, value) :: todo' =>
      match conf_parse tbl key with
      | None =>
          match keys_loop tbl d todo' s with
          | Some (s', ds) => Some (s', UnknownKey key :: ds)
          | None => None
          end
      | Some f =>
          match key_loop (S (S (List.length tbl))) tbl d key value f s with
          | Some (s1, ds1) =>
              match keys_loop tbl d todo' s1 with
              | Some (s', ds) => Some (s', ds1 ++ ds)
              | None => None
              end
          | None => None
          end
      end
  end.

(** conf.rs:144-204 [Conf::deserialize]; the resulting structure as a function
    from typed fields to values. *)
Definition conf_deserialize (tbl : list entry) (d : doc)
  : option ((string -> W) * list (conf_diag D)) :=
  match keys_loop tbl d d (fun _ => None) with
  | Some (s, ds) => Some (fun k => match s k with Some w => w | None => default k end, ds)
  | None => None
  end.
End Keys.

(** conf.rs:221-830: the table itself (keys, renames, presence of a type). *)
Definition conf_table : list entry :=
  [ mk_entry "absolute-paths-allowed-crates" None true;
    mk_entry "absolute-paths-max-segments" None true;
    mk_entry "accept-comment-above-attributes" None true;
    mk_entry "accept-comment-above-statement" None true;
    mk_entry "allow-comparison-to-zero" None true;
    mk_entry "allow-dbg-in-tests" None true;
    mk_entry "allow-exact-repetitions" None true;
    mk_entry "allow-expect-in-consts" None true;
    mk_entry "allow-expect-in-tests" None true;
    mk_entry "allow-indexing-slicing-in-tests" None true;
    mk_entry "allow-large-stack-frames-in-tests" None true;
    mk_entry "allow-mixed-uninlined-format-args" None true;
    mk_entry "allow-one-hash-in-raw-strings" None true;
    mk_entry "allow-panic-in-tests" None true;
    mk_entry "allow-print-in-tests" None true;
    mk_entry "allow-private-module-inception" None true;
    mk_entry "allow-renamed-params-for" None true;
    mk_entry "allow-unwrap-in-consts" None true;
    mk_entry "allow-unwrap-in-tests" None true;
    mk_entry "allow-unwrap-types" None true;
    mk_entry "allow-useless-vec-in-tests" None true;
    mk_entry "allowed-dotfiles" None true;
    mk_entry "allowed-duplicate-crates" None true;
    mk_entry "allowed-idents-below-min-chars" None true;
    mk_entry "allowed-prefixes" None true;
    mk_entry "allowed-scripts" None true;
    mk_entry "allowed-wildcard-imports" None true;
    mk_entry "arithmetic-side-effects-allowed" None true;
    mk_entry "arithmetic-side-effects-allowed-binary" None true;
    mk_entry "arithmetic-side-effects-allowed-unary" None true;
    mk_entry "array-size-threshold" None true;
    mk_entry "avoid-breaking-exported-api" None true;
    mk_entry "await-holding-invalid-types" None true;
    mk_entry "blacklisted-names" (Some "disallowed-names") false;
    mk_entry "cargo-ignore-publish" None true;
    mk_entry "check-grouped-late-init" None true;
    mk_entry "check-incompatible-msrv-in-tests" None true;
    mk_entry "check-inconsistent-struct-field-initializers" None true;
    mk_entry "check-private-items" None true;
    mk_entry "cognitive-complexity-threshold" None true;
    mk_entry "const-literal-digits-threshold" None true;
    mk_entry "cyclomatic-complexity-threshold" (Some "cognitive-complexity-threshold") false;
    mk_entry "disallowed-fields" None true;
    mk_entry "disallowed-macros" None true;
    mk_entry "disallowed-methods" None true;
    mk_entry "disallowed-names" None true;
    mk_entry "disallowed-types" None true;
    mk_entry "doc-valid-idents" None true;
    mk_entry "enable-raw-pointer-heuristic-for-send" None true;
    mk_entry "enforce-iter-loop-reborrow" None true;
    mk_entry "enforced-import-renames" None true;
    mk_entry "enum-variant-name-threshold" None true;
    mk_entry "enum-variant-size-threshold" None true;
    mk_entry "excessive-nesting-threshold" None true;
    mk_entry "future-size-threshold" None true;
    mk_entry "ignore-interior-mutability" None true;
    mk_entry "inherent-impl-lint-scope" None true;
    mk_entry "large-error-ignored" None true;
    mk_entry "large-error-threshold" None true;
    mk_entry "lint-commented-code" None true;
    mk_entry "lint-inconsistent-struct-field-initializers" (Some "check-inconsistent-struct-field-initializers") true;
    mk_entry "literal-representation-threshold" None true;
    mk_entry "matches-for-let-else" None true;
    mk_entry "max-fn-params-bools" None true;
    mk_entry "max-include-file-size" None true;
    mk_entry "max-struct-bools" None true;
    mk_entry "max-suggested-slice-pattern-length" None true;
    mk_entry "max-trait-bounds" None true;
    mk_entry "min-ident-chars-lint-trait-impl" None true;
    mk_entry "min-ident-chars-threshold" None true;
    mk_entry "missing-docs-allow-unused" None true;
    mk_entry "missing-docs-in-crate-items" None true;
    mk_entry "module-item-order-groupings" None true;
    mk_entry "module-items-ordered-within-groupings" None true;
    mk_entry "msrv" None true;
    mk_entry "pass-by-value-size-limit" None true;
    mk_entry "pub-underscore-fields-behavior" None true;
    mk_entry "recursive-self-in-type-definitions" None true;
    mk_entry "semicolon-inside-block-ignore-singleline" None true;
    mk_entry "semicolon-outside-block-ignore-multiline" None true;
    mk_entry "single-char-binding-names-threshold" None true;
    mk_entry "source-item-ordering" None true;
    mk_entry "stack-size-threshold" None true;
    mk_entry "standard-macro-braces" None true;
    mk_entry "struct-field-name-threshold" None true;
    mk_entry "suppress-restriction-lint-in-const" None true;
    mk_entry "too-large-for-stack" None true;
    mk_entry "too-many-arguments-threshold" None true;
    mk_entry "too-many-lines-threshold" None true;
    mk_entry "trait-assoc-item-kinds-order" None true;
    mk_entry "trait-impl-item-order" None true;
    mk_entry "trivial-copy-size-limit" None true;
    mk_entry "type-complexity-threshold" None true;
    mk_entry "unnecessary-box-size" None true;
    mk_entry "unreadable-literal-lint-fractions" None true;
    mk_entry "upper-case-acronyms-aggressive" None true;
    mk_entry "vec-box-size-threshold" None true;
    mk_entry "verbose-bit-mask-threshold" None true;
    mk_entry "warn-on-all-wildcard-imports" None true;
    mk_entry "warn-unsafe-macro-metavars-in-private-macros" None true ]%string.

(** ** Finding the configuration file: conf.rs:863-929 [load_conf_file] *)

(** What is at a path: nothing, something that is not a readable file
    (NotFound after a race, a directory, ...: conf.rs:907-912), a file that
    cannot be read, a file. *)
Inductive fs_entry := Missing | NotAFile | Unreadable | File (content : string).

(** A directory, as far as the search is concerned: `.clippy.toml` and
    `clippy.toml`. *)
Record dir := mk_dir { dot_clippy : fs_entry; clippy_toml : fs_entry }.

Inductive load_result :=
| LoadNone
| LoadError (level : nat) (name : string)
| Loaded (level : nat) (name : string) (content : string) (warned : bool).

(** conf.rs:893-918, the [for] over the two names in one directory. The
    already loaded file is a file, so the [metadata] test succeeds. *)
Fixpoint scan_names (level : nat) (names : list (string * fs_entry))
  (loaded : option (string * string * bool)) : option (string * string * bool) + string :=
  match names with
  | [] => inl loaded
  | (n, e) :: names' =>
      match e with
      | Missing => scan_names level names' loaded
      | _ =>
          match loaded with
          | Some (n0, c0, _) => scan_names level names' (Some (n0, c0, true))
          | None =>
              match e with
              | File c => scan_names level names' (Some (n, c, false))
              | Unreadable => inr n
              | _ => scan_names level names' None
              end
          end
      end
  end.

(** conf.rs:891-928, the [loop] walking up; [dirs] starts at the directory
    found from CLIPPY_CONF_DIR / CARGO_MANIFEST_DIR / "." and ends at the
    root. *)
Fixpoint search_dirs (level : nat) (dirs : list dir) : load_result :=
  match dirs with
  | [] => LoadNone
  | d :: dirs' =>
      match scan_names level [(".clippy.toml"%string, dot_clippy d);
                              ("clippy.toml"%string, clippy_toml d)] None with
      | inr n => LoadError level n
      | inl (Some (n, c, w)) => Loaded level n c w
      | inl None => search_dirs (S level) dirs'
      end
  end.

(** conf.rs:869-882: which directory the search starts from. *)
Definition start_dir (env : string -> option string) : string :=
  match env "CLIPPY_CONF_DIR"%string with
  | Some p => p
  | None => match env "CARGO_MANIFEST_DIR"%string with
            | Some p => p
            | None => "."%string
            end
  end.

(** ** Suggesting a key: de.rs:57-66 [find_closest_match] *)

Definition dash (s : string) : string :=
  map_string (fun c => if Ascii.eqb c "_"%char then "-"%char else c) s.

Fixpoint min_by_key {A : Type} (best : nat * A) (l : list (nat * A)) : nat * A :=
  match l with
  | [] => best
  | x :: l' => min_by_key (if fst x <? fst best then x else best) l'
  end.

(** [edit_distance] is rustc's, a parameter: Some distance if at most the limit. *)
Definition find_closest_match (edit_distance : string -> string -> nat -> option nat)
  (s : string) (options : list string) : option string :=
  let s := map_string ascii_lower (dash s) in
  match flat_map (fun o => match edit_distance s (map_string ascii_lower o) 4 with
                           | Some x => [(x, o)]
                           | None => []
                           end) options with
  | [] => None
  | x :: l => Some (snd (min_by_key x l))
  end.

(** ** Listing possible values: de.rs:69-167 [create_value_list_msg] *)

Definition NOTE_WITH_MSG_LEN : nat := String.length "   = note: possible values: ".
Definition NOTE_LEN : nat := String.length "   = note: ".
Definition TBL_SEP : string := "    ".
Definition INLINE_SEP : string := ", ".

Definition div_ceil (a b : nat) : nat := (a + b - 1) / b.

Definition sum (l : list nat) : nat := fold_right Nat.add 0 l.

Definition min_len (values : list string) : nat :=
  match map String.length values with
  | [] => 0
  | x :: l => fold_left Nat.min l x
  end.

(** de.rs:101-109, the [try_fold]: [inl] continues, [inr] breaks. *)
Fixpoint start_size (n row_count : nat) (cols : list nat) : nat + nat * nat :=
  match cols with
  | [] => inl row_count
  | c :: cs =>
      let needed := div_ceil n c in
      if needed + 3 <=? row_count then start_size n needed cs
      else inr (row_count, c - 1)
  end.

(** [slice::chunks]. *)
Fixpoint chunks_fuel {A : Type} (fuel k : nat) (l : list A) : list (list A) :=
  match fuel with
  | O => []
  | S fuel' => match l with
               | [] => []
               | _ => firstn k l :: chunks_fuel fuel' k (skipn k l)
               end
  end.
Definition chunks {A : Type} (k : nat) (l : list A) := chunks_fuel (List.length l) k l.

(** de.rs:129-143, the inner [for]: new column width and total width, or
    [None] when the total exceeds the terminal. *)
Fixpoint widen_col (limit : nat) (vals : list string) (w total : nat) : option (nat * nat) :=
  match vals with
  | [] => Some (w, total)
  | v :: vals' =>
      if w <? String.length v then
        let delta := String.length v - w in
        if limit <? total + delta then None
        else widen_col limit vals' (w + delta) (total + delta)
      else widen_col limit vals' w total
  end.

(** de.rs:128-145, the outer [for]. *)
Fixpoint widen_cols (limit : nat) (cols : list (list string)) (ws : list nat) (total : nat)
  : option (list nat) :=
  match cols, ws with
  | c :: cols', w :: ws' =>
      match widen_col limit c w total with
      | None => None
      | Some (w', total') =>
          match widen_cols limit cols' ws' total' with
          | None => None
          | Some ws'' => Some (w' :: ws'')
          end
      end
  | _, _ => Some ws
  end.

Inductive layout := OnePerLine | Columns (rows : nat) (ws : list nat) | OutOfFuel.

(** de.rs:120-147 ['outer: loop].  [cols] is [col_widths.len()]; the widths
    are all [min_width] at the start of each round. *)
Fixpoint fit (fuel limit min_width : nat) (values : list string) (rows cols : nat) : layout :=
  match fuel with
  | O => OutOfFuel
  | S fuel' =>
      if cols <=? 1 then OnePerLine
      else
        match widen_cols limit (chunks rows values) (repeat min_width cols)
                (cols * (min_width + String.length TBL_SEP) + NOTE_LEN) with
        | Some ws => Columns rows ws
        | None => fit fuel' limit min_width values
                    (div_ceil (List.length values) (cols - 1)) (cols - 1)
        end
  end.

Definition pad (w : nat) (s : string) : string :=
  s ++ string_of_list_ascii (repeat " "%char (w - String.length s)).

Fixpoint join (sep : string) (l : list string) : string :=
  match l with
  | [] => ""
  | [x] => x
  | x :: l' => x ++ sep ++ join sep l'
  end.

(** [(i..n).step_by(k)]; [step_by(0)] panics. *)
Fixpoint step_by (fuel i n k : nat) : list nat :=
  match fuel with
  | O => []
  | S fuel' => if i <? n then i :: step_by fuel' (i + k) n k else []
  end.

(** de.rs:150-160: one row. *)
Definition row_cells (values : list string) (rows : nat) (ws : list nat) (row : nat)
  : list string :=
  let n := List.length values in
  map (fun iw : nat * nat =>
         let '(i, w) := iw in
         pad (if i + rows <? n then w else 0) (nth i values ""%string))
    (combine (step_by n row n rows) ws).

(** The message as lines (the newlines are between them).  [width] is the
    terminal width and [pretty] DiagCtxt's [render_pretty]. *)
Definition create_value_list_msg (width : nat) (pretty : bool) (values : list string)
  : list string :=
  let n := List.length values in
  if (n <=? 8)
     && (NOTE_WITH_MSG_LEN
         + sum (map (fun x => String.length x + String.length INLINE_SEP + 2) values) <=? width)
  then [("possible values: " ++ join INLINE_SEP (map (fun x => "`" ++ x ++ "`") values))%string]
  else if pretty then
    let min_width := min_len values in
    let max_col := (width - NOTE_WITH_MSG_LEN) / (min_width + String.length TBL_SEP) in
    let '(rows, cols) :=
      match start_size n n (seq 2 (max_col - 1)) with
      | inl x => (x, max_col)
      | inr x => x
      end in
    match fit (S cols) width min_width values rows cols with
    | OnePerLine => "possible values:"%string :: values
    | Columns rows ws =>
        "possible values:"%string
        :: map (fun row => join TBL_SEP (row_cells values rows ws row)) (seq 0 rows)
    | OutOfFuel => []
    end
  else "possible values:"%string :: values.

(** ** Item ordering groups: types.rs:443-706 *)

(** types.rs:443-463 [SourceItemOrderingModuleItemKind]. *)
Inductive item_kind :=
| KExternCrate | KMod | KForeignMod | KUse | KMacro | KGlobalAsm | KStatic | KConst
| KTyAlias | KEnum | KStruct | KUnion | KTrait | KTraitAlias | KImpl | KFn.

Definition item_kind_eq_dec (a b : item_kind) : {a = b} + {a <> b}.
Proof. decide equality. Defined.
Definition item_kind_eqb (a b : item_kind) : bool :=
  if item_kind_eq_dec a b then true else false.

(** types.rs:465-489 [all_variants]. *)
Definition all_variants : list item_kind :=
  [KExternCrate; KMod; KForeignMod; KUse; KMacro; KGlobalAsm; KStatic; KConst;
   KTyAlias; KEnum; KStruct; KUnion; KTrait; KTraitAlias; KImpl; KFn].

Definition groups := list (string * list item_kind).

(** types.rs:508-530 [build_lut], [build_back_lut]: later insertions
    overwrite.  A [HashMap] is modelled by its lookup function. *)
Fixpoint build_lut (i : nat) (g : groups) (acc : item_kind -> option (nat * string))
  : item_kind -> option (nat * string) :=
  match g with
  | [] => acc
  | (name, items) :: g' =>
      build_lut (S i) g'
        (fold_left (fun a it => fun k => if item_kind_eqb it k then Some (i, name) else a k)
           items acc)
  end.

Inductive groups_result := GOk (g : groups) (lut : item_kind -> option (nat * string))
| GUseNotAlone | GWrongCount | GNotAll | GInternal.

(** types.rs:549-618 [Deserialize for SourceItemOrderingModuleItemGroupings],
    after the groups have been read. *)
Definition check_groups (g : groups) : groups_result :=
  let items_total := sum (map (fun p => List.length (snd p)) g) in
  let lut := build_lut 0 g (fun _ => None) in
  let expected := filter (fun i => match lut i with Some _ => false | None => true end)
                    all_variants in
  if (match expected with [] => true | _ => false end)
     && (items_total =? List.length all_variants)
  then
    match lut KUse with
    | None => GInternal
    | Some (i, _) =>
        match nth_error g i with
        | None => GInternal
        | Some (_, its) => if 1 <? List.length its then GUseNotAlone else GOk g lut
        end
    end
  else if negb (items_total =? List.length all_variants) then GWrongCount
  else GNotAll.

(** types.rs:619-704 [from_default]: the groups, and the two hand-written
    tables. *)
Definition default_groups : groups :=
  [("modules", [KExternCrate; KMod; KForeignMod]); ("use", [KUse]); ("macros", [KMacro]);
   ("global_asm", [KGlobalAsm]); ("UPPER_SNAKE_CASE", [KStatic; KConst]);
   ("PascalCase", [KTyAlias; KEnum; KStruct; KUnion; KTrait; KTraitAlias; KImpl]);
   ("lower_snake_case", [KFn])]%string.

Definition default_lut (k : item_kind) : option nat :=
  Some match k with
       | KExternCrate | KMod | KForeignMod => 0
       | KUse => 1
       | KMacro => 2
       | KGlobalAsm => 3
       | KStatic | KConst => 4
       | KTyAlias | KEnum | KStruct | KUnion | KTrait | KTraitAlias | KImpl => 5
       | KFn => 6
       end.

Definition default_back_lut (k : item_kind) : option string :=
  Some match k with
       | KExternCrate | KMod | KForeignMod => "modules"
       | KUse => "use"
       | KMacro => "macros"
       | KGlobalAsm => "global_asm"
       | KStatic | KConst => "UPPER_SNAKE_CASE"
       | KTyAlias | KEnum | KStruct | KUnion | KTrait | KTraitAlias | KImpl => "PascalCase"
       | KFn => "lower_snake_case"
       end%string.
