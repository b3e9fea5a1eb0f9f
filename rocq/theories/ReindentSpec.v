(** What reindenting may do to the lines of a text. *)
From Verif Require Export ReindentModel.

(** Spaces and tabs only. *)
Definition blanks (l : text) : Prop := Forall (fun c => c = " "%char \/ c = tab) l.
(** The lines of a text as [str::split] gives them. *)
Definition pieces (s : text) : list text := split_at newline s.
(** The line has exactly [n] leading spaces; at least [n]. *)
Definition indented (n : nat) (l : text) : Prop := exists t, l = repeat " "%char n ++ t /\ match t with c :: _ => c <> " "%char | [] => True end.
Definition indented_at_least (n : nat) (l : text) : Prop := exists t, l = repeat " "%char n ++ t.
(** No line of the text ends with a carriage return (one before a newline is part of the line end). *)
Definition no_stray_cr (s : text) : Prop := Forall (fun l => forall x, l <> x ++ [ascii_of_nat 13]) (tlines s).

(** Line [l] becomes [r]: the same if it is to be left alone; if it holds text, the same blanks [w] of
    every such line are replaced by the same blanks [p]; else it stays without text, empty if it was. *)
Definition line_kept (alone : bool) (w p l r : text) : Prop :=
  if alone then r = l else (blanks l /\ blanks r /\ (l = [] -> r = [])) \/ (~ blanks l /\ exists t, l = w ++ t /\ r = p ++ t).
(** All lines, a missing one being without text (and empty if it is the one to be left alone). *)
Definition lines_kept (ignore_first : bool) (w p : text) (L R : list text) : Prop :=
  forall i l, nth_error L i = Some l ->
    match nth_error R i with Some r => line_kept (ignore_first && Nat.eqb i 0) w p l r | None => if ignore_first && Nat.eqb i 0 then l = [] else blanks l end.
(** The line to be left alone; a nonempty line to be reindented; none of those without text. *)
Definition ignored (g : bool) (i : nat) : bool := g && Nat.eqb i 0.
Definition active (g : bool) (L : list text) (l : text) : Prop := exists i, nth_error L i = Some l /\ ignored g i = false /\ l <> [].
Definition no_blank_lines (g : bool) (L : list text) : Prop := forall l, active g L l -> ~ blanks l.
