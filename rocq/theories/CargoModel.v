(** Models of `lint_groups_priority` and `multiple_crate_versions`, /repo/clippy_lints/src/cargo/. *)
From Verif Require Export DiffModel.
From Coq Require Export ZArith.

(** ** lint_groups_priority.rs *)
(** [LintConfig], lint_groups_priority.rs:21-34; the position in the file is left out. *)
Record config := { c_level : text; c_priority : option Z }.
Definition priority (c : config) : Z := match c_priority c with Some p => p | None => 0%Z end.
(** [i64::saturating_sub(1)]. *)
Definition i64_min : Z := (- 2 ^ 63)%Z.
Definition saturating_pred (p : Z) : Z := Z.max i64_min (p - 1)%Z.
(** [check_table], lint_groups_priority.rs:57-119.  A table has the entries that [LintConfig::parse] accepts.  Each report: the group, its priority, the lint in conflict and the suggested priority. *)
Definition is_group (known : list text) (name : text) : bool := existsb (teqb name) known.
Definition rfind {A} (f : A -> bool) (l : list A) : option A := find f (rev l).
Definition min_opt (l : list Z) : option Z := match l with [] => None | x :: r => Some (fold_left Z.min r x) end.
Definition considered (table : list (text * config)) : list (text * config) := filter (fun nc => negb (teqb (fst nc) (tx "warnings"))) table.
Definition lints_of (known : list text) (table : list (text * config)) : list (text * config) := filter (fun nc => negb (is_group known (fst nc))) (considered table).
Definition groups_of (known : list text) (table : list (text * config)) : list (text * config) := filter (fun nc => is_group known (fst nc)) (considered table).
Definition low_priority (lints : list (text * config)) : Z :=
  match min_opt (map (fun nc => saturating_pred (priority (snd nc))) lints) with Some p => p | None => (-1)%Z end.
Definition check_table (known : list text) (table : list (text * config)) : list (text * Z * text * Z) :=
  let lints := lints_of known table in
  flat_map (fun '(group, gc) =>
    match rfind (fun '(_, lc) => Z.eqb (priority lc) (priority gc) && negb (teqb (c_level lc) (c_level gc))) lints with
    | Some (conflict, _) => [(group, priority gc, conflict, low_priority lints)]
    | None => []
    end) (groups_of known table).
(** The suggestion, lint_groups_priority.rs:105-115: the entry becomes `{ level = .., priority = .. }`. *)
Definition set_priority (group : text) (p : Z) (table : list (text * config)) : list (text * config) :=
  map (fun nc => if teqb (fst nc) group then (fst nc, {| c_level := c_level (snd nc); c_priority := Some p |}) else nc) table.

(** ** multiple_crate_versions.rs *)
Record package := { pk_name : text; pk_id : nat; pk_version : nat }.
(** A node of the dependency graph: its package, and for each dependency the package and whether a kind is [DependencyKind::Normal]. *)
Record node := { n_id : nat; n_deps : list (nat * list bool) }.
(** [is_normal_dep::depends_on], multiple_crate_versions.rs:60-68. *)
Definition depends_on (n : node) (dep : nat) : bool := existsb (fun d => Nat.eqb (fst d) dep && existsb (fun normal => normal) (snd d)) (n_deps n).
(** [is_normal_dep], multiple_crate_versions.rs:59-74; [None]: more than [fuel] nested calls. *)
Fixpoint any_opt {A} (f : A -> option bool) (l : list A) : option bool :=
  match l with
  | [] => Some false
  | x :: r => match f x with Some true => Some true | Some false => any_opt f r | None => None end
  end.
Fixpoint is_normal_dep (fuel : nat) (nodes : list node) (local dep : nat) : option bool :=
  match fuel with
  | 0 => None
  | S fuel =>
      any_opt (fun n => if Nat.eqb (n_id n) local then Some true else is_normal_dep fuel nodes local (n_id n))
        (filter (fun n => depends_on n dep) nodes)
  end.
(** The local package, multiple_crate_versions.rs:17-31: the first by name whose name with underscores is that of the crate. *)
Definition underscored (name : text) : text := map (fun c => if Ascii.eqb c "-" then "_"%char else c) name.
Definition local_id (packages : list package) (local_name : text) : option nat :=
  option_map pk_id (find (fun p => teqb (underscored (pk_name p)) local_name) packages).
(** Versions in increasing order. *)
Fixpoint insert_version (v : nat) (l : list nat) : list nat := match l with [] => [v] | w :: r => if v <=? w then v :: l else w :: insert_version v r end.
Definition sort_versions (l : list nat) : list nat := fold_right insert_version [] l.
(** [check], multiple_crate_versions.rs:11-57, where [normal] is the result of [is_normal_dep] for the package. *)
Definition check_versions (normal : nat -> nat -> bool) (packages : list package) (local_name : text) (allowed : list text) : list (text * list nat) :=
  let packages := sort_by pk_name packages in
  match local_id packages local_name with
  | Some local =>
      flat_map (fun '(name, group) =>
        if (List.length group <=? 1) then []
        else if forallb (fun p => normal local (pk_id p)) group then [(name, sort_versions (map pk_version group))] else [])
        (chunk_by pk_name (filter (fun p => negb (existsb (teqb (pk_name p)) allowed)) packages))
  | None => []
  end.
