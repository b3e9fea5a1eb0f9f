(** What a line with code is, said by one pass over the characters of the source. *)
From Verif Require Export Text.

Inductive mode :=
| Code
| LineComment
| BlockComment (depth : nat)  (** block comments nest; [depth] further ones are open *)
| Str. (** inside of a string literal *)
(** The number of lines with a visible character outside of comments.  [seen]: the present line has one.  Raw strings and character literals are not known here. *)
Fixpoint scan (m : mode) (seen : bool) (s : text) : nat :=
  match s with
  | [] => if seen then 1 else 0
  | c :: r =>
      if Ascii.eqb c newline then (if seen then 1 else 0) + scan (match m with LineComment => Code | _ => m end) false r
      else
        match m with
        | LineComment => scan m seen r
        | BlockComment d =>
            match r with
            | e :: q =>
                if Ascii.eqb c "*" && Ascii.eqb e "/" then scan (match d with 0 => Code | S d => BlockComment d end) seen q
                else if Ascii.eqb c "/" && Ascii.eqb e "*" then scan (BlockComment (S d)) seen q
                else scan m seen r
            | [] => scan m seen r
            end
        | Str =>
            if Ascii.eqb c """" then scan Code true r
            else match r with
                 | e :: q => if Ascii.eqb c "\" && negb (Ascii.eqb e newline) then scan Str true q else scan Str (seen || negb (is_ws c)) r
                 | [] => scan Str (seen || negb (is_ws c)) r
                 end
        | Code =>
            if Ascii.eqb c """" then scan Str true r
            else
              match r with
              | e :: q =>
                  if Ascii.eqb c "/" && Ascii.eqb e "/" then scan LineComment seen q
                  else if Ascii.eqb c "/" && Ascii.eqb e "*" then scan (BlockComment 0) seen q
                  else scan Code (seen || negb (is_ws c)) r
              | [] => scan Code (seen || negb (is_ws c)) r
              end
        end
  end.
Definition lines_with_code (s : text) : nat := scan Code false s.
(** The text has no quotes, and no comment is opened inside of one. *)
Fixpoint simple_from (m : mode) (s : text) : bool :=
  match s with
  | [] => true
  | c :: r =>
      negb (Ascii.eqb c """") &&
      (if Ascii.eqb c newline then simple_from (match m with LineComment => Code | _ => m end) r
       else
         match m, r with
         | BlockComment _, e :: q =>
             if Ascii.eqb c "*" && Ascii.eqb e "/" then simple_from Code q
             else negb (Ascii.eqb c "/" && Ascii.eqb e "*") && simple_from m r
         | Code, e :: q =>
             if Ascii.eqb c "/" && Ascii.eqb e "/" then simple_from LineComment q
             else if Ascii.eqb c "/" && Ascii.eqb e "*" then simple_from (BlockComment 0) q
             else simple_from Code r
         | _, _ => simple_from m r
         end)
  end.
Definition simple (s : text) : bool := simple_from Code s.
