(** What the maintainers' tool is expected to do, stated without the model's functions. *)
From Verif Require Import Text.
From Coq Require Import Relations.

Definition blank (s : text) : Prop := Forall (fun c => is_ws c = true) s.
Definition single_line (s : text) : Prop := ~ In newline s.

(** A manifest line that sets the key [version]. *)
Definition sets_version (l : text) : Prop := exists b v, blank b /\ l = tx "version" ++ b ++ tx "=" ++ v.
(** A table header line and its name. *)
Definition header (l name : text) : Prop := exists rest, ~ In "]"%char name /\ l = tx "[" ++ name ++ tx "]" ++ rest.
(** The last table header among the lines is [[package]]. *)
Definition in_package_table (ls : list text) : Prop :=
  exists l1 h l2 b1 b2, ls = l1 ++ h :: l2 /\ blank b1 /\ blank b2 /\ header h (b1 ++ tx "package" ++ b2) /\
    forall l, In l l2 -> forall n, ~ header l n.
(** The version line of a manifest: the last [version] key in the [[package]] table. *)
Definition version_line_at (la : list text) (line : text) (lb : list text) : Prop :=
  in_package_table la /\ sets_version line /\
  forall m1 l m2, lb = m1 ++ l :: m2 -> sets_version l -> ~ in_package_table (la ++ line :: m1).

(** Where a name leads: an active lint to itself, a renamed one to its target. *)
Definition connected (edges : list (nat * nat)) : nat -> nat -> Prop :=
  clos_trans nat (fun a b => In (a, b) edges).

(** Sortedness with respect to the byte-wise lexicographic order. *)
Inductive text_lt : text -> text -> Prop :=
| lt_nil c s : text_lt [] (c :: s)
| lt_head c d s t : nat_of_ascii c < nat_of_ascii d -> text_lt (c :: s) (d :: t)
| lt_tail c s t : text_lt s t -> text_lt (c :: s) (c :: t).
Definition text_le (a b : text) : Prop := a = b \/ text_lt a b.

(** [e] is a test entry of lint [n] among the lints [names]: [n] is the longest lint name that [e]
    starts with. *)
Definition owns (names : list text) (n e : text) : Prop :=
  (exists r, e = n ++ r) /\ forall m r, In m names -> e = m ++ r -> List.length m <= List.length n.
