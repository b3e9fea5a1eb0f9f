(** Models of the command-line front end /repo/src/main.rs and of the argument handling of the
    driver /repo/src/driver.rs.  Strings are byte strings (Rust strings are UTF-8; all searches
    below are for ASCII text, for which searching bytes and searching characters agree). *)
From Coq Require Export Strings.String Strings.Ascii List Bool ZArith.
Export ListNotations.
Open Scope string_scope.
Open Scope list_scope.

(** ** String functions of the standard library used below *)

(** [str::split(sep)] for a non-empty [sep]: leftmost non-overlapping occurrences. [skip] counts
    the characters of a separator still to be passed. *)
Fixpoint split_go (sep : string) (skip : nat) (s : string) : list string :=
  match s with
  | EmptyString => [EmptyString]
  | String c r =>
      match skip with
      | S k => split_go sep k r
      | O =>
          if prefix sep s then EmptyString :: split_go sep (pred (String.length sep)) r
          else match split_go sep 0 r with
               | x :: l => String c x :: l
               | [] => []
               end
      end
  end.
Definition str_split (sep s : string) : list string := split_go sep 0 s.

(** [str::splitn(2, c)]: the text before the first [c], and the text after it if there is one. *)
Fixpoint split_once (c : ascii) (s : string) : string * option string :=
  match s with
  | EmptyString => (EmptyString, None)
  | String d r =>
      if Ascii.eqb c d then (EmptyString, Some r)
      else let '(a, b) := split_once c r in (String d a, b)
  end.
(** [str::strip_prefix]. *)
Fixpoint strip_prefix (p s : string) : option string :=
  match p, s with
  | EmptyString, _ => Some s
  | String a p', String b s' => if Ascii.eqb a b then strip_prefix p' s' else None
  | String _ _, EmptyString => None
  end.
Definition starts_with (c : ascii) (s : string) : bool :=
  match s with String d _ => Ascii.eqb c d | EmptyString => false end.
(** [str::contains]. *)
Fixpoint contains (p s : string) : bool :=
  prefix p s || match s with EmptyString => false | String _ r => contains p r end.
(** [str::replace(char, char)] and [make_ascii_lowercase]. *)
Fixpoint map_string (f : ascii -> ascii) (s : string) : string :=
  match s with EmptyString => EmptyString | String c r => String (f c) (map_string f r) end.
Definition ascii_lower (c : ascii) : ascii :=
  let n := nat_of_ascii c in if (Nat.leb 65 n && Nat.leb n 90)%bool then ascii_of_nat (n + 32) else c.
(** [str::lines]: split at newlines, a final empty piece is not a line; a carriage return before
    the newline is dropped. *)
Definition nl : string := String (ascii_of_nat 10) EmptyString.
Fixpoint drop_cr (s : string) : string :=
  match s with
  | EmptyString => EmptyString
  | String c EmptyString => if Ascii.eqb c (ascii_of_nat 13) then EmptyString else s
  | String c r => String c (drop_cr r)
  end.
Fixpoint lines_of (l : list string) : list string :=
  match l with
  | [] => []
  | [x] => if String.eqb x EmptyString then [] else [x]
  | x :: l => drop_cr x :: lines_of l
  end.
Definition lines (s : string) : list string := lines_of (str_split nl s).

Fixpoint position {A} (f : A -> bool) (l : list A) : option nat :=
  match l with [] => None | x :: l => if f x then Some 0 else option_map S (position f l) end.
Fixpoint remove_nth {A} (n : nat) (l : list A) : list A :=
  match n, l with _, [] => [] | O, _ :: l => l | S n, x :: l => x :: remove_nth n l end.

(** ** src/main.rs *)

(** main.rs:55-59 [ClippyCmd]. *)
Record clippy_cmd := Cmd { cargo_subcommand : string; cargo_args : list string; clippy_args : list string }.

(** main.rs:70-85: the loop over the arguments; returns the sub-command, the cargo arguments, the
    clippy arguments pushed so far and the arguments left in the iterator after `--`. *)
Fixpoint cmd_loop (sub : string) (args clippy : list string) (old : list string)
  : string * list string * list string * list string :=
  match old with
  | [] => (sub, args, clippy, [])
  | arg :: old =>
      if String.eqb arg "--fix" then cmd_loop "fix" args clippy old
      else if String.eqb arg "--no-deps" then cmd_loop sub args (clippy ++ ["--no-deps"]) old
      else if String.eqb arg "--" then (sub, args, clippy, old)
      else cmd_loop sub (args ++ [arg]) clippy old
  end.
(** main.rs:62-97 [ClippyCmd::new]. *)
Definition cmd_new (old_args : list string) : clippy_cmd :=
  let '(sub, args, clippy, rest) := cmd_loop "check" [] [] old_args in
  let clippy := clippy ++ rest in
  let clippy :=
    if String.eqb sub "fix" && negb (existsb (fun a => String.eqb a "--no-deps") clippy)
    then clippy ++ ["--no-deps"] else clippy in
  Cmd sub args clippy.

Definition hackery : string := "__CLIPPY_HACKERY__".
(** main.rs:113-116: the value of CLIPPY_ARGS. *)
Definition join_args (l : list string) : string :=
  fold_left (fun s arg => (s ++ arg ++ hackery)%string) l EmptyString.

(** main.rs:111-124 [into_std_cmd]: the process that is started; [path] is the value of
    RUSTC_WORKSPACE_WRAPPER (main.rs:99-109). *)
Record process_spec := Proc {
  program : string;
  proc_args : list string;
  env_wrapper : string;
  env_clippy_args : string
}.
Definition into_std_cmd (cargo_env : option string) (driver_path : string) (c : clippy_cmd) : process_spec :=
  Proc (match cargo_env with Some c => c | None => "cargo" end)
       (cargo_subcommand c :: cargo_args c) driver_path (join_args (clippy_args c)).

(** main.rs:27-53 [main], 127-146 [process]: what the program does with its argument vector
    ([argv] includes the program name). *)
Inductive action :=
| ShowHelp
| ShowVersion
| Explain (lint : string)
| Spawn (p : process_spec).
Definition is_help (a : string) : bool := String.eqb a "--help" || String.eqb a "-h".
Definition is_version (a : string) : bool := String.eqb a "--version" || String.eqb a "-V".
Definition explain_name (lint : string) : string :=
  let lint := map_string ascii_lower lint in
  map_string (fun c => if Ascii.eqb c "-"%char then "_"%char else c)
    (match strip_prefix "clippy::" lint with Some l => l | None => lint end).
Definition cargo_clippy (cargo_env : option string) (driver_path : string) (argv : list string) : action :=
  if existsb is_help argv then ShowHelp
  else if existsb is_version argv then ShowVersion
  else match position (fun a => String.eqb a "--explain") argv with
       | Some pos => match nth_error argv (pos + 1) with
                     | Some lint => Explain (explain_name lint)
                     | None => ShowHelp
                     end
       | None => Spawn (into_std_cmd cargo_env driver_path (cmd_new (skipn 2 argv)))
       end.
(** main.rs:141-145 and 50-52: the exit status of the program, given that of cargo ([None]:
    killed by a signal). *)
Definition exit_status (cargo : option Z) : Z :=
  match cargo with Some 0%Z => 0 | Some c => c | None => -1 end.

(** ** src/driver.rs *)

(** driver.rs:33-47 [arg_value]. *)
Fixpoint arg_value (args : list string) (find_arg : string) (pred : string -> bool) : bool :=
  match args with
  | [] => false
  | arg :: args' =>
      let '(name, v) := split_once "=" arg in
      if negb (String.eqb name find_arg) then arg_value args' find_arg pred
      else match v with
           | Some v => if pred v then true else arg_value args' find_arg pred
           | None => match args' with
                     | [] => false
                     | v :: args'' => if pred v then true else arg_value args'' find_arg pred
                     end
           end
  end.
(** driver.rs:50-54 [is_arg]. *)
Definition is_arg (argument key : string) : bool :=
  match strip_prefix key argument with
  | Some s => String.eqb s EmptyString || starts_with "=" s
  | None => false
  end.
(** driver.rs:210-223 [has_sysroot_arg]; [fs] is the file system ([read_to_string(..).ok()]). *)
Definition has_sysroot_arg (fs : string -> option string) (args : list string) : bool :=
  existsb (fun arg =>
    match (match strip_prefix "@" arg with Some path => fs path | None => None end) with
    | Some file => existsb (fun a => is_arg a "--sysroot") (lines file)
    | None => is_arg arg "--sysroot"
    end) args.
(** driver.rs:228-234 [pass_sysroot_env_if_given]. *)
Definition pass_sysroot (fs : string -> option string) (sys_root : option string) (args : list string) : list string :=
  match sys_root with
  | Some r => if has_sysroot_arg fs args then args else args ++ ["--sysroot"; r]
  | None => args
  end.
(** [Path::file_stem] on Unix: the last component that is not empty and not `.` (none for `..`),
    without the extension; a dot in front is not an extension. *)
Fixpoint last_dot (s : string) : option string :=
  match s with
  | EmptyString => None
  | String c r =>
      match last_dot r with
      | Some x => Some (String c x)
      | None => if Ascii.eqb c "." then Some EmptyString else None
      end
  end.
Definition file_stem (path : string) : option string :=
  let comps := filter (fun c => negb (String.eqb c EmptyString || String.eqb c ".")) (str_split "/" path) in
  match rev comps with
  | [] => None
  | name :: _ =>
      if String.eqb name ".." then None
      else match last_dot name with
           | None | Some EmptyString => Some name
           | Some stem => Some stem
           end
  end.

(** The environment the driver looks at. *)
Record drv_env := DrvEnv {
  fs : string -> option string;
  sysroot_var : option string;
  clippy_args_var : option string;
  primary_package : bool  (* CARGO_PRIMARY_PACKAGE is set *)
}.
(** What the driver does: which arguments the compiler is run with, and with which callbacks. *)
Inductive callbacks := DefaultCallbacks | RustcCallbacks | ClippyCallbacks.
Inductive drv_action :=
| DrvVersion
| DrvHelp
| DrvRun (args : list string) (cb : callbacks)
| DrvPanic. (* `orig_args[0]` on an empty vector; `argv` always has a program name *)

(** driver.rs:275-290: the arguments taken out of CLIPPY_ARGS, and whether `--no-deps` was there. *)
Definition clippy_args_of (var : option string) : list string :=
  filter (fun s => negb (String.eqb s EmptyString || String.eqb s "--no-deps"))
    (str_split hackery (match var with Some v => v | None => EmptyString end)).
Definition no_deps_of (var : option string) : bool :=
  existsb (fun s => String.eqb s "--no-deps")
    (str_split hackery (match var with Some v => v | None => EmptyString end)).
(** driver.rs:292-304. *)
Definition cap_lints_allow (orig_args : list string) : bool :=
  arg_value orig_args "--cap-lints" (fun v => String.eqb v "allow") &&
  negb (arg_value orig_args "--force-warn" (contains "clippy::")).
Definition info_query (args orig_args : list string) : bool :=
  existsb (fun a => String.eqb a "-vV") args ||
  arg_value orig_args "--print" (fun v => negb (String.eqb v "crate-root-lint-levels")).
(** driver.rs:196-313 [main]. *)
Definition driver (E : drv_env) (argv : list string) : drv_action :=
  match position (fun a => String.eqb a "--rustc") argv with
  | Some pos =>
      match remove_nth pos argv with
      | [] => DrvPanic
      | _ :: l => DrvRun (pass_sysroot (fs E) (sysroot_var E) ("rustc" :: l)) DefaultCallbacks
      end
  | None =>
      if existsb is_version argv then DrvVersion
      else
        let wrapper_mode :=
          match nth_error argv 1 with
          | Some a => match file_stem a with Some st => String.eqb st "rustc" | None => false end
          | None => false
          end in
        let orig_args := if wrapper_mode then remove_nth 1 argv else argv in
        if negb wrapper_mode && (existsb is_help orig_args || Nat.eqb (List.length orig_args) 1) then DrvHelp
        else
          let args := pass_sysroot (fs E) (sysroot_var E) orig_args in
          let relevant_package := negb (no_deps_of (clippy_args_var E)) || primary_package E in
          let clippy_enabled :=
            negb (cap_lints_allow orig_args) && relevant_package && negb (info_query args orig_args) in
          if clippy_enabled then
            DrvRun (args ++ clippy_args_of (clippy_args_var E) ++ ["--cfg"; "clippy"]) ClippyCallbacks
          else DrvRun args RustcCallbacks
  end.
