(** Model of [reindent_multiline], /repo/clippy_utils/src/source.rs:492-527. *)
From Verif Require Export Text.

(** source.rs:508: the byte index of the first character other than [ch], or the length. *)
Definition leading (ch : ascii) (l : text) : nat := List.length (take_while (Ascii.eqb ch) l).
Definition is_empty (l : text) : bool := match l with [] => true | _ => false end.
(** [Iterator::min], `unwrap_or(0)`. *)
Definition min_or_0 (l : list nat) : nat := match l with [] => 0 | a :: r => fold_left Nat.min r a end.
(** [str::split_at].1; [None] for a panic. *)
Definition split_off (n : nat) (l : text) : option text := if n <=? List.length l then Some (skipn n l) else None.

(** source.rs:514-524: the lines in order, [i] counting them. *)
Fixpoint lines_loop (ignore_first : bool) (x indent i : nat) (ls : list text) : option (list text) :=
  match ls with
  | [] => Some []
  | l :: ls =>
      match (if (ignore_first && Nat.eqb i 0) || is_empty l then Some l
             else if indent <? x then split_off (x - indent) l
             else Some (repeat " "%char (indent - x) ++ l)),
            lines_loop ignore_first x indent (S i) ls with
      | Some l', Some ls' => Some (l' :: ls')
      | _, _ => None
      end
  end.
(** source.rs:499-527 [reindent_multiline_inner]. *)
Definition reindent_multiline_inner (s : text) (ignore_first : bool) (indent : option nat) (ch : ascii) : option text :=
  let x := min_or_0 (map (leading ch) (filter (fun l => negb (is_empty l)) (skipn (if ignore_first then 1 else 0) (tlines s)))) in
  let indent := match indent with Some n => n | None => 0 end in
  option_map (join [newline]) (lines_loop ignore_first x indent 0 (tlines s)).
Definition bind_opt {A B} (o : option A) (f : A -> option B) : option B := match o with Some x => f x | None => None end.
Definition tab : ascii := ascii_of_nat 9.
(** source.rs:493-497 [reindent_multiline]. *)
Definition reindent_multiline (s : text) (ignore_first : bool) (indent : option nat) : option text :=
  bind_opt (reindent_multiline_inner s ignore_first indent " "%char) (fun s_space =>
  bind_opt (reindent_multiline_inner s_space ignore_first indent tab) (fun s_tab =>
  reindent_multiline_inner s_tab ignore_first indent " "%char)).
