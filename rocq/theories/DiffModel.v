(** Model of the comparison of two runs of lintcheck, /repo/lintcheck/src/json.rs. *)
From Verif Require Export DevModel.

(** [LintJson], json.rs:20-28. *)
Record warning := { w_name : text; w_file_line : text; w_url : text; w_rendered : text }.
(** [LintJson::key] and its order, json.rs:31-33. *)
Definition key_cmp (a b : warning) : comparison :=
  match text_cmp (w_name a) (w_name b) with Eq => text_cmp (w_file_line a) (w_file_line b) | c => c end.
(** [lints.sort_by(..)], a stable sort, json.rs:107; the making of each [LintJson] in [output] is not modelled. *)
Fixpoint insert_by_key (x : warning) (l : list warning) : list warning :=
  match l with
  | [] => [x]
  | y :: r => match key_cmp x y with Gt => y :: insert_by_key x r | _ => x :: l end
  end.
Definition output (l : list warning) : list warning := fold_right insert_by_key [] l.

(** [itertools::merge_join_by] and [EitherOrBoth], as used in json.rs:129. *)
Inductive change := Left (old : warning) | Right (new : warning) | Both (old new : warning).
Fixpoint merge_join (old new : list warning) {struct old} : list change :=
  let fix merge_right (new : list warning) {struct new} : list change :=
    match old, new with
    | [], _ => map Right new
    | _, [] => map Left old
    | o :: old', n :: new' =>
        match key_cmp o n with
        | Lt => Left o :: merge_join old' new
        | Gt => Right n :: merge_right new'
        | Eq => Both o n :: merge_join old' new'
        end
    end in
  merge_right new.
(** [change.as_ref().into_left().name], json.rs:130. *)
Definition change_name (c : change) : text := match c with Left o => w_name o | Right n => w_name n | Both o _ => w_name o end.
(** [Itertools::chunk_by]: runs of neighbours with the same key. *)
Fixpoint chunk_by {A} (key : A -> text) (l : list A) : list (text * list A) :=
  match l with
  | [] => []
  | c :: r =>
      match chunk_by key r with
      | (k, g) :: rest => if teqb (key c) k then (k, c :: g) :: rest else (key c, [c]) :: (k, g) :: rest
      | [] => [(key c, [c])]
      end
  end.
(** [LintWarnings], json.rs:186-191, and its making, json.rs:132-153. *)
Record lint_warnings := { l_name : text; l_added : list warning; l_removed : list warning; l_changed : list (warning * warning) }.
Definition collect (g : text * list change) : lint_warnings :=
  {| l_name := fst g;
     l_added := flat_map (fun c => match c with Right n => [n] | _ => [] end) (snd g);
     l_removed := flat_map (fun c => match c with Left o => [o] | _ => [] end) (snd g);
     l_changed := flat_map (fun c => match c with Both o n => if teqb (w_rendered o) (w_rendered n) then [] else [(o, n)] | _ => [] end) (snd g) |}.
Definition nonempty {A} (l : list A) : bool := match l with [] => false | _ => true end.
Definition diff (old new : list warning) : list lint_warnings :=
  filter (fun l => nonempty (l_added l) || nonempty (l_removed l) || nonempty (l_changed l)) (map collect (chunk_by change_name (merge_join old new))).
(** [Summary::new], json.rs:77-88. *)
Definition summary (ls : list lint_warnings) : list (text * nat * nat * nat) :=
  map (fun l => (l_name l, List.length (l_added l), List.length (l_removed l), List.length (l_changed l))) ls.
(** [truncate_after], json.rs:167-176, [None] for `usize::MAX`; and [truncate], json.rs:266-278. *)
Definition truncate_after (truncate : bool) (lints : nat) : option nat :=
  if truncate then Some (Nat.max (Nat.min 300 (1000 / lints)) 15) else None.
Definition shown {A} (after : option nat) (l : list A) : list A * nat :=
  match after with
  | Some n => let m := n / 3 in if m <? List.length l then (firstn m l, List.length l - m) else (l, 0)
  | None => (l, 0)
  end.
