(** Property theorems: command line and driver (C37-C39). *)
From Verif Require Import CliModel CliSpec CliProofs CliMore.
Open Scope string_scope.
Open Scope list_scope.

(** Flags that make cargo-clippy do something else than run cargo. *)
Definition plain_argv (argv : list string) : Prop :=
  forall a, In a argv -> a <> "--help" /\ a <> "-h" /\ a <> "--version" /\ a <> "-V" /\ a <> "--explain".

(** ** C37: the arguments after `--` arrive at the compiler, unchanged and in order.  Missing from the
    full statement: arguments that are empty or contain the transport separator (refuted below). *)
Theorem lint_args_reach_compiler_partial : forall cargo_env path prog sub rest pre post,
  plain_argv (prog :: sub :: rest) -> cut_at_dashes rest pre post ->
  Forall (fun a => ~ occurs "__CLIPPY_HACKERY" a) post ->
  exists p, cargo_clippy cargo_env path (prog :: sub :: rest) = Spawn p /\
  forall E dargv args, clippy_args_var E = Some (env_clippy_args p) ->
    driver E dargv = DrvRun args ClippyCallbacks ->
    exists base user, args = base ++ user ++ ["--cfg"; "clippy"] /\ without dropped post user /\
      (base = dargv \/ base = remove_nth 1 dargv \/
       exists r, sysroot_var E = Some r /\ (base = dargv ++ ["--sysroot"; r] \/ base = remove_nth 1 dargv ++ ["--sysroot"; r])).
Proof.
  intros ce path prog sub rest pre post HP Hcut Hsafe.
  eexists. split; [apply cargo_clippy_spawn; exact HP|].
  intros E dargv args Hvar Hdrv. cbn [skipn into_std_cmd env_clippy_args] in Hvar.
  destruct (cmd_new_spec _ _ _ Hcut) as (_ & _ & flags & tail & Hc & Hnd & _).
  rewrite Hc in Hvar.
  assert (S : Forall (fun a => ~ occurs "__CLIPPY_HACKERY" a) (flags ++ post ++ tail)).
  { apply Forall_app in Hnd as [F1 F2].
    assert (N : ~ occurs "__CLIPPY_HACKERY" "--no-deps").
    { intros K. apply contains_occurs in K. vm_compute in K. discriminate. }
    apply Forall_app. split; [eapply Forall_impl; [|exact F1]; intros ? ->; exact N|].
    apply Forall_app. split; [exact Hsafe|]. eapply Forall_impl; [|exact F2]. intros ? ->. exact N. }
  destruct (driver_run _ _ _ _ Hdrv) as [(_ & _ & Ha)|(K & _)]; [discriminate| |discriminate].
  rewrite Hvar, (proj1 (transport_args _ S)) in Ha.
  assert (W : without dropped (flags ++ post ++ tail) (filter (fun s => negb (String.eqb s "" || String.eqb s "--no-deps")) (flags ++ post ++ tail))).
  { apply filter_without; [apply dropped_bool|apply dropped_dec]. }
  eexists _, (filter (fun s => negb (String.eqb s "" || String.eqb s "--no-deps")) post).
  split; [rewrite Ha; f_equal; f_equal|].
  - apply (without_unique _ _ _ _ W). apply Forall_app in Hnd as [F1 F2].
    change (filter (fun s => negb ((s =? "") || (s =? "--no-deps"))) post)
      with ([] ++ filter (fun s => negb ((s =? "") || (s =? "--no-deps"))) post).
    apply without_app. { apply without_all. eapply Forall_impl; [|exact F1]. intros ? ->. now right. }
    rewrite <- (app_nil_r (filter _ post)). apply without_app.
    + apply filter_without; [apply dropped_bool|apply dropped_dec].
    + apply without_all. eapply Forall_impl; [|exact F2]. intros ? ->. now right.
  - split; [apply filter_without; [apply dropped_bool|apply dropped_dec]|].
    destruct (pass_sysroot_form (fs E) (sysroot_var E) (if wrapped dargv then remove_nth 1 dargv else dargv)) as [->|(r & Hr & ->)];
      destruct (wrapped dargv); eauto 7.
Qed.
Print Assumptions lint_args_reach_compiler_partial.
Example lint_args_ex :
  exists p, cargo_clippy None "drv" ["cargo-clippy"; "clippy"; "--release"; "--"; "-W"; "clippy::all"] = Spawn p /\
  driver (DrvEnv (fun _ => None) None (Some (env_clippy_args p)) true) ["drv"; "/bin/rustc"; "a.rs"]
   = DrvRun ["drv"; "a.rs"; "-W"; "clippy::all"; "--cfg"; "clippy"] ClippyCallbacks.
Proof. eexists. split; vm_compute; reflexivity. Qed.

(** An empty argument, and one that contains the separator, do not arrive. *)
Theorem lint_args_empty_refuted : exists rest p, cargo_clippy None "drv" ("cargo-clippy" :: "clippy" :: "--" :: rest) = Spawn p /\
  exists E args, clippy_args_var E = Some (env_clippy_args p) /\ driver E ["drv"; "a.rs"] = DrvRun args ClippyCallbacks /\
  ~ (exists a b, args = a ++ rest ++ b).
Proof.
  exists ["--cfg"; ""]. eexists. split; [vm_compute; reflexivity|].
  exists (DrvEnv (fun _ => None) None (Some "--cfg__CLIPPY_HACKERY____CLIPPY_HACKERY__") true). eexists.
  split; [vm_compute; reflexivity|]. split; [vm_compute; reflexivity|].
  intros (a & b & H). assert (I : In "" (a ++ ["--cfg"; ""] ++ b)) by (apply in_or_app; right; cbn; auto).
  rewrite <- H in I. cbn in I. repeat destruct I as [I|I]; try discriminate; contradiction.
Qed.
Print Assumptions lint_args_empty_refuted.
Theorem lint_args_separator_refuted : exists rest p, cargo_clippy None "drv" ("cargo-clippy" :: "clippy" :: "--" :: rest) = Spawn p /\
  exists E args, clippy_args_var E = Some (env_clippy_args p) /\ driver E ["drv"; "a.rs"] = DrvRun args ClippyCallbacks /\
  ~ (exists a b, args = a ++ rest ++ b).
Proof.
  exists ["x__CLIPPY_HACKERY"]. eexists. split; [vm_compute; reflexivity|].
  exists (DrvEnv (fun _ => None) None (Some "x__CLIPPY_HACKERY__CLIPPY_HACKERY__") true). eexists.
  split; [vm_compute; reflexivity|]. split; [vm_compute; reflexivity|].
  intros (a & b & H). assert (I : In "x__CLIPPY_HACKERY" (a ++ ["x__CLIPPY_HACKERY"] ++ b)) by (apply in_or_app; right; cbn; auto).
  rewrite <- H in I. cbn in I. repeat destruct I as [I|I]; try discriminate; contradiction.
Qed.
Print Assumptions lint_args_separator_refuted.

(** ** C38 *)
(** Help before version before explain, wherever the flag stands. *)
Theorem cargo_clippy_help : forall ce path argv, In "--help" argv \/ In "-h" argv -> cargo_clippy ce path argv = ShowHelp.
Proof.
  intros ce path argv H. unfold cargo_clippy.
  rewrite (proj2 (existsb_in is_help _ argv is_help_spec)); [reflexivity|]. destruct H; eauto.
Qed.
Print Assumptions cargo_clippy_help.
Theorem cargo_clippy_version : forall ce path argv, ~ In "--help" argv -> ~ In "-h" argv ->
  In "--version" argv \/ In "-V" argv -> cargo_clippy ce path argv = ShowVersion.
Proof.
  intros ce path argv N1 N2 H. unfold cargo_clippy.
  rewrite (proj2 (existsb_no is_help _ argv is_help_spec)) by (intros a I [-> | ->]; auto).
  rewrite (proj2 (existsb_in is_version _ argv is_version_spec)); [reflexivity|]. destruct H; eauto.
Qed.
Print Assumptions cargo_clippy_version.
Theorem cargo_clippy_explain : forall ce path u lint v,
  let argv := u ++ "--explain" :: lint :: v in
  ~ In "--explain" u -> (forall a, In a argv -> a <> "--help" /\ a <> "-h" /\ a <> "--version" /\ a <> "-V") ->
  exists name, cargo_clippy ce path argv = Explain name /\ lint_named lint name.
Proof.
  intros ce path u lint v argv Nu H. exists (explain_name lint). split; [|now apply explain_name_spec]. unfold cargo_clippy.
  rewrite (proj2 (existsb_no is_help _ argv is_help_spec)) by (intros a I [-> | ->]; apply H in I; tauto).
  rewrite (proj2 (existsb_no is_version _ argv is_version_spec)) by (intros a I [-> | ->]; apply H in I; tauto).
  unfold argv. rewrite position_app; [|apply forallb_forall; intros a I; apply negb_true_iff, String.eqb_neq; intros ->; contradiction|reflexivity].
  rewrite nth_error_app2 by (rewrite Nat.add_comm; auto with arith).
  replace (List.length u + 1 - List.length u) with 1 by (rewrite Nat.add_comm, Nat.add_sub; reflexivity). reflexivity.
Qed.
Print Assumptions cargo_clippy_explain.
(** An argument names one lint. *)
Theorem lint_named_unique : forall arg n n', lint_named arg n -> lint_named arg n' -> n = n'.
Proof. intros arg n n' H H'. apply explain_name_spec in H, H'. congruence. Qed.
Print Assumptions lint_named_unique.
Example cargo_clippy_explain_ex : cargo_clippy None "d" ["cargo-clippy"; "clippy"; "--explain"; "clippy::Bool-To-Int"] = Explain "bool_to_int".
Proof. vm_compute. reflexivity. Qed.

(** Otherwise cargo is run: `fix` iff `--fix` stands before `--`, the other arguments before `--` go to
    cargo in order, those after `--` to the driver in order; `--no-deps` reaches the driver iff it was given
    anywhere or `--fix` was. *)
Theorem cargo_clippy_dispatch : forall cargo_env path prog sub rest pre post,
  plain_argv (prog :: sub :: rest) -> cut_at_dashes rest pre post ->
  exists p cargs dargs, cargo_clippy cargo_env path (prog :: sub :: rest) = Spawn p /\
    proc_args p = (if in_dec string_dec "--fix" pre then "fix" else "check") :: cargs /\ without own_flag pre cargs /\
    program p = match cargo_env with Some c => c | None => "cargo" end /\ env_wrapper p = path /\
    env_clippy_args p = fold_right (fun a s => a ++ "__CLIPPY_HACKERY__" ++ s)%string "" dargs /\
    (exists flags tail, dargs = flags ++ post ++ tail /\ Forall (fun a => a = "--no-deps") (flags ++ tail)) /\
    (In "--no-deps" dargs <-> In "--no-deps" pre \/ In "--no-deps" post \/ In "--fix" pre).
Proof.
  intros ce path prog sub rest pre post HP Hcut.
  destruct (cmd_new_spec _ _ _ Hcut) as (Hs & Hw & flags & tail & Hc & Hnd & Hin & _).
  eexists _, (cargo_args (cmd_new rest)), (clippy_args (cmd_new rest)).
  split; [apply cargo_clippy_spawn; exact HP|]. cbn [skipn into_std_cmd proc_args program env_wrapper env_clippy_args].
  split; [now rewrite Hs|]. split; [exact Hw|]. split; [reflexivity|]. split; [reflexivity|]. split; [|split; [eauto|exact Hin]].
  clear. generalize (clippy_args (cmd_new rest)) as l. induction l as [|a l IH]; [reflexivity|].
  cbn [fold_right]. rewrite join_args_cons, IH. reflexivity.
Qed.
Print Assumptions cargo_clippy_dispatch.
Example cargo_clippy_dispatch_ex :
  cargo_clippy (Some "/c") "d" ["cargo-clippy"; "clippy"; "--fix"; "--lib"; "--"; "-Dw"; "--fix"; "--"] =
  Spawn (Proc "/c" ["fix"; "--lib"] "d" "-Dw__CLIPPY_HACKERY__--fix__CLIPPY_HACKERY__--__CLIPPY_HACKERY__--no-deps__CLIPPY_HACKERY__").
Proof. vm_compute. reflexivity. Qed.
(** The program's exit status is cargo's. *)
Theorem cargo_clippy_exit : forall c, exit_status (Some c) = c /\ exit_status None <> 0%Z.
Proof. intros c. split; [destruct c; reflexivity|discriminate]. Qed.
Print Assumptions cargo_clippy_exit.

(** ** C39 *)
Theorem arg_value_finds : forall f pred args, ~ occurs "=" f ->
  arg_value args f pred = true <-> exists v, gives f args v /\ pred v = true.
Proof.
  intros f pred args H. apply arg_value_gives. induction f as [|c f IH]; cbn; [exact I|]. split.
  - intros <-. apply H. exists "", f. reflexivity.
  - apply IH. intros (u & v & ->). apply H. exists (String c u), v. reflexivity.
Qed.
Print Assumptions arg_value_finds.
Example arg_value_ex : arg_value ["rustc"; "--cap-lints"; "warn"; "--cap-lints=allow"] "--cap-lints" (fun v => String.eqb v "allow") = true.
Proof. vm_compute. reflexivity. Qed.
(** The search does not stop at `--`, behind which rustc takes everything as an input file. *)
Theorem arg_value_dashes_refuted : exists args, arg_value ("--" :: args) "--cap-lints" (fun v => String.eqb v "allow") = true.
Proof. exists ["--cap-lints=allow"]. reflexivity. Qed.
Print Assumptions arg_value_dashes_refuted.
Theorem is_arg_flag : forall a k, is_arg a k = true <-> flag_form k a.
Proof. exact is_arg_spec. Qed.
Print Assumptions is_arg_flag.
Example is_arg_ex : is_arg "--sysroot=/x" "--sysroot" = true /\ is_arg "--sysroots" "--sysroot" = false.
Proof. vm_compute. auto. Qed.

(** A wrapped compiler is recognised by its file name, with or without directory and extension, and
    nothing else is taken for one. *)
Theorem driver_wrapper_name : forall dir name, ~ occurs "/" name ->
  file_stem (dir ++ "/" ++ name) = Some "rustc" <->
    (name = "rustc" \/ exists ext, name = ("rustc." ++ ext)%string /\ ~ occurs "." ext) \/
    ((name = "" \/ name = ".") /\ file_stem dir = Some "rustc").
Proof.
  intros dir name L. apply occurs_char_lacks in L. rewrite (wrapper_name_spec dir name L).
  split; (intros [[H|(e & H & Le)]|H]; [left; left; exact H|left; right; exists e; split; [exact H|now apply occurs_char_lacks]|right; exact H]).
Qed.
Print Assumptions driver_wrapper_name.
Example driver_wrapper_ex : file_stem ("/usr/bin" ++ "/" ++ "rustc.exe") = Some "rustc" /\ file_stem "/usr/bin/rustc-1.9" <> Some "rustc".
Proof. vm_compute. split; [reflexivity|discriminate]. Qed.

(** Whether lints run, and which arguments the compiler gets.  [orig]: the vector without the wrapped
    compiler; [base]: with the sysroot added. *)
Theorem driver_lints_iff : forall E argv args cb dargs,
  driver E argv = DrvRun args cb -> cb <> DefaultCallbacks ->
  clippy_args_var E = Some (fold_right (fun a s => a ++ "__CLIPPY_HACKERY__" ++ s)%string "" dargs) ->
  Forall (fun a => ~ occurs "__CLIPPY_HACKERY" a) dargs ->
  exists orig base,
    (orig = argv \/ exists prog r l, argv = prog :: r :: l /\ file_stem r = Some "rustc" /\ orig = prog :: l) /\
    with_sysroot (fs E) (sysroot_var E) orig base /\
    (cb = ClippyCallbacks <->
       ~ (gives "--cap-lints" orig "allow" /\ ~ exists v, gives "--force-warn" orig v /\ occurs "clippy::" v) /\
       (In "--no-deps" dargs -> primary_package E = true) /\
       ~ In "-vV" base /\
       ~ (exists v, gives "--print" orig v /\ v <> "crate-root-lint-levels")) /\
    (cb = RustcCallbacks -> args = base) /\
    (cb = ClippyCallbacks -> exists user, without dropped dargs user /\ args = base ++ user ++ ["--cfg"; "clippy"]).
Proof.
  intros E argv args cb dargs H1 H2 H3 H4. destruct (driver_lints_spec E argv args cb dargs H1 H2 H3 H4) as (orig & base & A & -> & B).
  exists orig, (pass_sysroot (fs E) (sysroot_var E) orig). split; [exact A|]. split; [apply pass_sysroot_spec|exact B].
Qed.
Print Assumptions driver_lints_iff.
Example driver_lints_ex :
  driver (DrvEnv (fun _ => None) (Some "/s") (Some "-Wx__CLIPPY_HACKERY__--no-deps__CLIPPY_HACKERY__") false) ["drv"; "rustc"; "a.rs"]
    = DrvRun ["drv"; "a.rs"; "--sysroot"; "/s"] RustcCallbacks /\
  driver (DrvEnv (fun _ => None) (Some "/s") (Some "-Wx__CLIPPY_HACKERY__--no-deps__CLIPPY_HACKERY__") true) ["drv"; "rustc"; "a.rs"]
    = DrvRun ["drv"; "a.rs"; "--sysroot"; "/s"; "-Wx"; "--cfg"; "clippy"] ClippyCallbacks.
Proof. vm_compute. auto. Qed.
(** `--rustc` turns the driver into rustc: the remaining arguments, and nothing of CLIPPY_ARGS. *)
Theorem driver_rustc : forall E prog u v, ~ In "--rustc" (prog :: u) ->
  exists args, driver E (prog :: u ++ "--rustc" :: v) = DrvRun args DefaultCallbacks /\
  with_sysroot (fs E) (sysroot_var E) ("rustc" :: u ++ v) args.
Proof. intros E prog u v H. eexists. split; [now apply driver_rustc_spec|apply pass_sysroot_spec]. Qed.
Print Assumptions driver_rustc.
Example driver_rustc_ex : driver (DrvEnv (fun _ => None) None (Some "-W") true) ["drv"; "--rustc"; "-V"] = DrvRun ["rustc"; "-V"] DefaultCallbacks.
Proof. vm_compute. reflexivity. Qed.
(** A sysroot in an argument file is seen. *)
Example sysroot_argfile_ex :
  driver (DrvEnv (fun f => if String.eqb f "a" then Some ("-O" ++ nl ++ "--sysroot=/t" ++ nl)%string else None) (Some "/s") None true) ["drv"; "x.rs"; "@a"]
    = DrvRun ["drv"; "x.rs"; "@a"; "--cfg"; "clippy"] ClippyCallbacks.
Proof. vm_compute. reflexivity. Qed.
