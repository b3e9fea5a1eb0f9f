(** Model of the line counter of `too_many_lines`, /repo/clippy_lints/src/functions/too_many_lines.rs. *)
From Verif Require Export Text.

(** [str::find] with a string, as the text after the match and whether anything precedes it; too_many_lines.rs:49-57 uses the index only for these. *)
Definition find_str (p s : text) : option nat := option_map (fun ab => List.length (fst ab)) (cut_str p s).
(** The inner `loop`, too_many_lines.rs:42-62: whether a comment is open after the line, and whether it has code. *)
Fixpoint line_loop (fuel : nat) (in_comment code_in_line : bool) (line : text) : bool * bool :=
  match fuel with
  | 0 => (in_comment, code_in_line)
  | S fuel =>
      let line := trim_start line in
      match line with
      | [] => (in_comment, code_in_line)
      | _ =>
          if in_comment then
            match find_str (tx "*/") line with
            | Some i => line_loop fuel false code_in_line (skipn (i + 2) line)
            | None => (in_comment, code_in_line)
            end
          else
            let multi_idx := match find_str (tx "/*") line with Some i => i | None => List.length line end in
            let single_idx := match find_str (tx "//") line with Some i => i | None => List.length line end in
            let code_in_line := code_in_line || (0 <? multi_idx) && (0 <? single_idx) in
            if multi_idx <? single_idx then line_loop fuel true code_in_line (skipn (multi_idx + 2) line)
            else (in_comment, code_in_line)
      end
  end.
(** The `for` loop, too_many_lines.rs:40-67. *)
Fixpoint count_loop (in_comment : bool) (lines : list text) : nat :=
  match lines with
  | [] => 0
  | line :: r =>
      let '(in_comment, code_in_line) := line_loop (S (List.length line)) in_comment false line in
      (if code_in_line then 1 else 0) + count_loop in_comment r
  end.
(** too_many_lines.rs:27-68; [is_block]: the body is a block expression. *)
Definition without_braces (is_block : bool) (src : text) : text :=
  if is_block && match src with c :: _ => Ascii.eqb c "{" | [] => false end && match rev src with c :: _ => Ascii.eqb c "}" | [] => false end
  then removelast (tl src) else src.
Definition line_count (is_block : bool) (src : text) : nat := count_loop false (tlines (trim (without_braces is_block src))).
