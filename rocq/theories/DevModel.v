(** Models of the maintainers' tool /repo/clippy_dev: manifest editing, delimited text regions,
    work splitting, grouping of slices, lint renames, test-file selection and list formatting; and
    of the transitive relation in /repo/clippy_utils/src/mir/transitive_relation.rs. *)
From Verif Require Export Text.
From Coq Require Export NArith.
From Coq Require Import DecimalString DecimalN.

(** ** Versions: clippy_dev/src/utils.rs:150-194 *)
Record version := { v_major : N; v_minor : N }.
(** Decimal display of an unsigned integer ([impl Display for u16]). *)
Definition dec (n : N) : text := tx (NilZero.string_of_uint (N.to_uint n)).
(** [u16::from_str]: an optional [+], then decimal digits, at most 65535. *)
Definition parse_u16 (s : text) : option N :=
  let s := match s with "+"%char :: (_ :: _) as r => tl s | _ => s end in
  match NilZero.uint_of_string (string_of_list_ascii s) with
  | Some d => if (N.of_uint d <=? 65535)%N then Some (N.of_uint d) else None
  | None => None
  end.
(** [Version::from_str], utils.rs:155-168. *)
Definition version_parse (s : text) : option version :=
  match strip_pre (tx "0.") s with
  | Some s =>
      match cut "."%char s with
      | Some (ma, mi) =>
          match parse_u16 ma, parse_u16 mi with
          | Some ma, Some mi => Some {| v_major := ma; v_minor := mi |}
          | _, _ => None
          end
      | None => None
      end
  | None => None
  end.
(** [rust_display] and [toml_display], utils.rs:169-194. *)
Definition rust_display (v : version) : text := dec (v_major v) ++ tx "." ++ dec (v_minor v) ++ tx ".0".
Definition toml_display (v : version) : text := tx "0." ++ dec (v_major v) ++ tx "." ++ dec (v_minor v).

(** ** Manifests: clippy_dev/src/utils.rs:195-266 *)
Inductive toml_part := TTable (name : text) | TValue (key value : text).
(** The [filter_map] of [toml_iter], utils.rs:207-217. *)
Definition toml_line (l : text) : option toml_part :=
  match strip_pre (tx "[") l with
  | Some r => option_map (fun '(name, _) => TTable name) (cut "]"%char r)
  | None =>
      match l with
      | c :: _ =>
          if is_alnum c || Ascii.eqb c "_"%char
          then option_map (fun '(k, v) => TValue k v) (cut "="%char l) else None
      | [] => None
      end
  end.
(** [toml_iter], utils.rs:200-218: each line with its byte offset. *)
Fixpoint toml_from (pos : nat) (ls : list text) : list (nat * toml_part) :=
  match ls with
  | [] => []
  | l :: r =>
      let rest := toml_from (pos + List.length l + 1) r in
      match toml_line l with Some p => (pos, p) :: rest | None => rest end
  end.
Definition toml_iter (s : text) : list (nat * toml_part) := toml_from 0 (split_at newline s).

Record cargo_package := {
  in_package : bool;
  in_platform : bool;
  p_name : text;
  ver_start : nat; ver_end : nat;       (* version_range *)
  plat_start : nat; plat_end : nat;     (* not_a_platform_range *)
}.
(** One turn of the loop of [parse_cargo_package], utils.rs:232-260. *)
Definition package_step (st : cargo_package) (op : nat * toml_part) : cargo_package :=
  let '(offset, part) := op in
  match part with
  | TTable name =>
      let pend := if in_platform st then offset else plat_end st in
      let name := trim name in
      let plat := teqb name (tx "target.'cfg(NOT_A_PLATFORM)'.dependencies") in
      {| in_package := teqb name (tx "package"); in_platform := plat; p_name := p_name st;
         ver_start := ver_start st; ver_end := ver_end st;
         plat_start := if plat then offset else plat_start st; plat_end := pend |}
  | TValue key value =>
      if in_package st then
        if teqb (trim_end key) (tx "name") then
          {| in_package := true; in_platform := in_platform st; p_name := trim value;
             ver_start := ver_start st; ver_end := ver_end st;
             plat_start := plat_start st; plat_end := plat_end st |}
        else if teqb (trim_end key) (tx "version") then
          {| in_package := true; in_platform := in_platform st; p_name := p_name st;
             ver_start := offset + (List.length value - List.length (trim value)) + List.length key + 1;
             ver_end := offset + List.length key + List.length (trim_end value) + 1;
             plat_start := plat_start st; plat_end := plat_end st |}
        else st
      else st
  end.
Definition package_init : cargo_package :=
  {| in_package := false; in_platform := false; p_name := []; ver_start := 0; ver_end := 0;
     plat_start := 0; plat_end := 0 |}.
Definition parse_cargo_package (s : text) : cargo_package :=
  fold_left package_step (toml_iter s) package_init.

(** [str::get(range)]: [None] when the range is not inside the text (character boundaries are not
    an issue in a byte model; a non-empty range only is asked for). *)
Definition get_range (s e : nat) (t : text) : option text :=
  if (s <=? e) && (e <=? List.length t) then Some (firstn (e - s) (skipn s t)) else None.
Definition opt_teqb (a b : option text) : bool :=
  match a, b with Some a, Some b => teqb a b | None, None => true | _, _ => false end.

(** The update function of [bump_version], clippy_dev/src/release.rs:16-28: the new text and
    whether it counts as changed.  [version] is the already incremented one. *)
Definition bump_text (version : text) (src : text) : text * bool :=
  let p := parse_cargo_package src in
  if ver_end p <=? ver_start p then (src, false)
  else
    let dst := firstn (ver_start p) src ++ tx """" ++ version ++ tx """" ++ skipn (ver_end p) src in
    (dst, negb (opt_teqb (get_range (ver_start p) (ver_end p) src) (get_range (ver_start p) (ver_end p) dst))).

(** [FileUpdater], utils.rs:342-431: [update_file] writes the new text only if it counts as
    changed; [update_file_checked] in check mode never writes and fails instead. *)
Inductive update_mode := MCheck | MChange.
Inductive file_outcome := FileIs (contents : text) | CheckFailed.
Definition update_file (update : text -> text * bool) (src : text) : text :=
  let '(dst, changed) := update src in if changed then dst else src.
Definition update_file_checked (mode : update_mode) (update : text -> text * bool) (src : text) : file_outcome :=
  let '(dst, changed) := update src in
  match mode, changed with
  | MCheck, true => CheckFailed
  | MChange, true => FileIs dst
  | _, false => FileIs src
  end.
(** [bump_version] on one manifest, release.rs:12-29. *)
Definition bump_file (v : version) (src : text) : text :=
  update_file (bump_text (toml_display {| v_major := v_major v; v_minor := v_minor v + 1 |})) src.

(** The version read back from a manifest, [ClippyInfo::search_for_manifest], utils.rs:281-296. *)
Definition read_version (src : text) : option version :=
  let p := parse_cargo_package src in
  match get_range (ver_start p) (ver_end p) src with
  | Some s =>
      match strip_pre (tx """") s with
      | Some s => match strip_suf (tx """") s with Some s => version_parse s | None => None end
      | None => None
      end
  | None => None
  end.

(** ** Delimited regions: [update_text_region], clippy_dev/src/utils.rs:433-456.  [None] is the
    panic for a missing marker. *)
Definition update_text_region (start end_ inserted src : text) : option (text * bool) :=
  match cut_str start src with
  | None => None
  | Some (src_start, src_end) =>
      match cut_str end_ src_end with
      | None => None
      | Some (replaced, rest) =>
          Some (src_start ++ start ++ inserted ++ end_ ++ rest, negb (teqb inserted replaced))
      end
  end.

(** ** Work splitting: [split_args_for_threads], clippy_dev/src/utils.rs:558-617.  An argument is
    represented by its text; the commands built are represented by their argument lists. *)
Record split_state := { s_args : list text; s_size : nat; s_threads : nat }.
Definition ceil_div (a b : nat) : nat := a / b + (if a mod b =? 0 then 0 else 1).
(** The [for] loop, utils.rs:582-604: takes at most [k] arguments, stopping after the one that
    brings the length over 30000; returns the batch, what is left, the length reached and whether
    the limit was exceeded. *)
Fixpoint take_batch (limit k : nat) (cmd_len : nat) (args : list text) : list text * list text * nat * bool :=
  match k, args with
  | O, _ => ([], args, cmd_len, false)
  | _, [] => ([], [], cmd_len, false)
  | S k, a :: r =>
      let cmd_len := cmd_len + (List.length a + 8) + 8 in
      if limit <? cmd_len then ([a], r, cmd_len, true)
      else let '(b, rest, n, over) := take_batch limit k cmd_len r in (a :: b, rest, n, over)
  end.
Definition split_next (limit min_batch : nat) (st : split_state) : option (list text) * split_state :=
  let threads := if 1 <? s_threads st then s_threads st - 1 else s_threads st in
  let '(batch, rest, n, over) := take_batch limit (s_size st) 0 (s_args st) in
  let size := if over then Nat.max (ceil_div (List.length rest) threads) min_batch else s_size st in
  (if n =? 0 then None else Some batch, {| s_args := rest; s_size := size; s_threads := threads |}).
Definition split_start (min_batch threads : nat) (args : list text) : split_state :=
  {| s_args := args; s_size := Nat.max (ceil_div (List.length args) threads) min_batch; s_threads := threads |}.
(** Driving the iterator to its end. *)
Inductive iterates (limit min_batch : nat) : split_state -> list (list text) -> Prop :=
| it_end st st' : split_next limit min_batch st = (None, st') -> iterates limit min_batch st []
| it_next st st' b bs : split_next limit min_batch st = (Some b, st') -> iterates limit min_batch st' bs ->
    iterates limit min_batch st (b :: bs).

(** ** [slice_groups], clippy_dev/src/utils.rs:654-673 (and [slice_groups_mut], 676-700, which
    differs in mutability only). *)
Section Groups.
Context {A : Type} (split_idx : A -> list A -> nat).
Fixpoint slice_groups (fuel : nat) (l : list A) : list (list A) :=
  match fuel, l with
  | O, _ | _, [] => []
  | S fuel, head :: tail =>
      let idx := split_idx head tail + 1 in
      if idx <=? List.length l then firstn idx l :: slice_groups fuel (skipn idx l) else []
  end.
End Groups.

(** ** The lint table: clippy_dev/src/edit_lints.rs and parse.rs:198-300 *)
Inductive lint_tool := Rustc | Clippy.
Record lint_name := { l_tool : lint_tool; l_name : string }.
Inductive lint := Active (file : string) | Deprecated | Renamed (target : lint_name).
Definition table := string -> option lint.
Definition lint_tool_eqb (a b : lint_tool) : bool :=
  match a, b with Rustc, Rustc | Clippy, Clippy => true | _, _ => false end.
Definition lint_name_eqb (a b : lint_name) : bool :=
  lint_tool_eqb (l_tool a) (l_tool b) && String.eqb (l_name a) (l_name b).
Definition clippy_lint (n : string) : lint_name := {| l_tool := Clippy; l_name := n |}.
Definition rustc_lint (n : string) : lint_name := {| l_tool := Rustc; l_name := n |}.
Definition upd (t : table) (n : string) (l : lint) : table := fun m => if String.eqb m n then Some l else t m.
(** [update_rename_targets], edit_lints.rs:177-190. *)
Definition update_rename_targets (t : table) (old : string) (new : lint_name) : table :=
  fun m => match t m with
           | Some (Renamed x) => Some (Renamed (if lint_name_eqb x (clippy_lint old) then new else x))
           | o => o
           end.
(** What a command leaves in the source tree ([gen_decls] writes the table out; a [return] before
    it leaves the old one) and whether it reported success. *)
(** [deprecate], edit_lints.rs:22-44. *)
Definition deprecate (t : table) (name : string) : table * bool :=
  match t name with
  | Some (Active _) => (upd t name Deprecated, true)
  | _ => (t, false)
  end.
(** [uplift], edit_lints.rs:46-78. *)
Definition uplift (t : table) (old new : string) : table * bool :=
  let t' := update_rename_targets t old (rustc_lint new) in
  match t' old with
  | Some (Active _) => (upd t' old (Renamed (rustc_lint new)), true)
  | _ => (t, false)
  end.
(** [rename], edit_lints.rs:96-147.  The file of the renamed lint may be renamed with it
    (107-124); [moved] stands for that path. *)
Definition rename (t : table) (old new : string) (moved : string -> string) : table * bool :=
  let t' := update_rename_targets t old (clippy_lint new) in
  match t' old with
  | Some (Active file) =>
      let t'' := upd t' old (Renamed (clippy_lint new)) in
      match t'' new with
      | None => (upd t'' new (Active (moved file)), true)
      | Some _ => (t, true)        (* "Renamed `old` to `new`", then [return] before [gen_decls] *)
      end
  | _ => (t, false)
  end.
(** Adding a lint (new_lint.rs writes a new declaration; a name that is already in the table makes
    the next [parse_lint_decls] panic, parse.rs:352-366). *)
Definition add_lint (t : table) (name file : string) : table * bool :=
  match t name with None => (upd t name (Active file), true) | Some _ => (t, false) end.
Inductive command := CDeprecate (n : string) | CUplift (old new : string) | CRename (old new : string) (moved : string -> string) | CAdd (n file : string).
Definition run_command (t : table) (c : command) : table * bool :=
  match c with
  | CDeprecate n => deprecate t n
  | CUplift o n => uplift t o n
  | CRename o n m => rename t o n m
  | CAdd n f => add_lint t n f
  end.
Definition run_history (t : table) (h : list command) : table := fold_left (fun t c => fst (run_command t c)) h t.

(** ** Test files of a lint: edit_lints.rs:193-300 *)
(** [create_ignored_prefixes], 193-199; [names] are the keys of the table. *)
Definition ignored_prefixes (name : text) (names : list text) : list text :=
  filter (fun x => (List.length name <? List.length x) && starts name x) names.
(** [collect_ui_test_names] and [collect_ui_toml_test_names], 201-232, on the entries of the
    directory. [kind] says which kinds of entry are taken. *)
Definition collect_tests (name : text) (ignored : list text) (entries : list text) : list text :=
  filter (fun e => starts name e && negb (existsb (fun p => starts p e) ignored)) entries.
(** The path buffer of [delete_test_files] (275-300) and [rename_test_files] (236-271): [base] is
    pushed first, then for each name the name is pushed, the path used, and the buffer truncated
    to the length of "tests/ui/". *)
Fixpoint buffer_paths (buf : text) (names : list text) : list text :=
  match names with
  | [] => []
  | n :: r => (buf ++ n) :: buffer_paths (firstn (List.length (tx "tests/ui/")) (buf ++ n)) r
  end.
Definition ui_paths (names : list text) : list text := buffer_paths (tx "tests/ui/") names.
(** 259-271 and 289-300: the buffer is truncated to "tests/ui", then "-toml/" is pushed. *)
Definition ui_toml_paths (names : list text) : list text := buffer_paths (tx "tests/ui" ++ tx "-toml/") names.

(** [snake_to_pascal], edit_lints.rs:302-317. *)
Fixpoint pascal_rest (s : text) : text :=
  match s with
  | [] => []
  | c :: r =>
      if Ascii.eqb c "_"%char
      then match r with [] => [] | d :: r' => upper d :: pascal_rest r' end
      else c :: pascal_rest r
  end.
Definition snake_to_pascal (s : text) : text :=
  match s with [] => [] | c :: r => upper c :: pascal_rest r end.

(** The text edit of [remove_lint_declaration], edit_lints.rs:161-174. *)
Definition remove_declaration (pre post : text) : text :=
  (if ends (tx "" ++ [newline; newline]) pre then removelast pre else pre)
  ++ (if starts [newline; newline] post then tl post else post).

(** ** Byte-wise order on texts ([Ord for str]) and sorting *)
Fixpoint text_cmp (a b : text) : comparison :=
  match a, b with
  | [], [] => Eq
  | [], _ :: _ => Lt
  | _ :: _, [] => Gt
  | x :: a', y :: b' => match Nat.compare (nat_of_ascii x) (nat_of_ascii y) with Eq => text_cmp a' b' | c => c end
  end.
Definition text_leb (a b : text) : bool := match text_cmp a b with Gt => false | _ => true end.
(** [sort_by_key] (stable), [sort_unstable] (on texts the two agree, equal keys being equal). *)
Section Sort.
Context {A : Type} (key : A -> text).
Fixpoint insert_sorted (x : A) (l : list A) : list A :=
  match l with
  | [] => [x]
  | y :: r => if text_leb (key x) (key y) then x :: l else y :: insert_sorted x r
  end.
Definition sort_by (l : list A) : list A := fold_right insert_sorted [] l.
End Sort.

(** [fmt_syms], clippy_dev/src/fmt.rs:248-282. *)
Definition sym_entry (line : text) : text :=
  let line := trim line in
  trim_end (match strip_suf (tx ",") line with Some l => l | None => line end).
Definition syms_start : text := tx "generate! {" ++ [newline].
Definition syms_end : text := [newline] ++ tx "}" ++ [newline].
Definition fmt_syms (src : text) : option (text * bool) :=
  match cut_str syms_start src with
  | None => None
  | Some (pre, conf) =>
      match cut_str syms_end conf with
      | None => None
      | Some (conf, post) =>
          let ls := sort_by (fun x => x) (map sym_entry (tlines conf)) in
          let dst := pre ++ syms_start ++ tx "    " ++ join (tx "," ++ [newline] ++ tx "    ") ls ++ tx "," ++ syms_end ++ post in
          Some (dst, negb (teqb src dst))
      end
  end.

(** [offset_to_line], clippy_dev/src/fmt.rs:52-65. *)
Fixpoint offset_loop (line pos offset : nat) (ls : list text) : nat :=
  match ls with
  | [] => line
  | s :: r =>
      let pos := pos + List.length s + 1 in
      if offset <? pos then line else offset_loop (line + 1) pos offset r
  end.
Definition offset_to_line (t : text) (offset : nat) : nat := offset_loop 1 0 offset (split_at newline t).

(** The [mod] lines of [gen_decls], clippy_dev/src/generate.rs:142-163: the module paths of one
    crate in sorted order (46-52), the first component of each, written when it differs from the
    one before. [sep] is the platform's path separator. *)
Definition top_module (sep : ascii) (mod_path : text) : text :=
  match cut sep mod_path with Some (x, _) => x | None => mod_path end.
Fixpoint mod_lines (sep : ascii) (prev : text) (paths : list text) : list text :=
  match paths with
  | [] => []
  | p :: r =>
      let m := top_module sep p in
      if teqb m prev then mod_lines sep prev r else m :: mod_lines sep m r
  end.
Definition gen_mods (sep : ascii) (mod_paths : list text) : list text :=
  mod_lines sep [] (sort_by (fun x => x) mod_paths).

(** ** [TransitiveRelation], clippy_utils/src/mir/transitive_relation.rs:5-28.  Locals are numbers;
    the map from a local to its list of successors is given by the edges in the order of [add]. *)
Definition edge_list := list (nat * nat).
Definition rel_add (r : edge_list) (a b : nat) : edge_list := r ++ [(a, b)].
Definition successors (r : edge_list) (u : nat) : list nat :=
  map snd (filter (fun e => fst e =? u) r).
(** The [for] loop, 20-24: [seen] is the bit set, the stack grows at its end (here: its head). *)
Definition visit (st : list nat * list nat) (v : nat) : list nat * list nat :=
  let '(seen, stack) := st in
  if existsb (Nat.eqb v) seen then (seen, stack) else (v :: seen, v :: stack).
Fixpoint reach_loop (fuel : nat) (r : edge_list) (seen stack : list nat) : option (list nat) :=
  match stack with
  | [] => Some seen
  | u :: stack =>
      match fuel with
      | O => None
      | S fuel => let '(seen, stack) := fold_left visit (successors r u) (seen, stack) in reach_loop fuel r seen stack
      end
  end.
(** The loop runs at most once per recorded edge and once for the start. *)
Definition reachable_from (r : edge_list) (a : nat) : option (list nat) := reach_loop (S (List.length r)) r [] [a].
