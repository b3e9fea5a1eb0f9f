(** Rust's string and character literals. *)
From Verif Require Export LitModel.
Open Scope Z_scope.

(** ** Raw strings: after `r`, [n] hashes and a quote, the content ends at the first quote with [n] hashes after it. *)
Definition closer (n : nat) : codes := quote :: hashes n.
(** The text after the opening quote is read as [content], followed by [rest]. *)
Definition raw_ends (n : nat) (t content rest : codes) : Prop :=
  t = content ++ closer n ++ rest /\ forall a b, t = a ++ closer n ++ b -> (length content <= length a)%nat.
Definition raw_literal (prefix : codes) (n : nat) (content : codes) : codes := prefix ++ hashes n ++ quote :: content ++ closer n.
(** [lit], followed by anything, is read as a raw string of this content. *)
Definition reads_raw (prefix : codes) (n : nat) (lit content : codes) : Prop :=
  lit = raw_literal prefix n content /\ forall rest, raw_ends n (content ++ closer n ++ rest) content rest.

(** ** Escapes: a machine reading the text between the quotes.  [enc] is the encoding of a `\u{}` escape, [bytes] a byte string. *)
Inductive state := Norm | Esc | X1 | X2 (hi : Z) | U0 | U (acc : Z) (digits : nat) | Skip.
Definition hex_val (c : Z) : option Z :=
  if (48 <=? c) && (c <=? 57) then Some (c - 48)
  else if (97 <=? c) && (c <=? 102) then Some (c - 87)
  else if (65 <=? c) && (c <=? 70) then Some (c - 55)
  else None.
Definition blank (c : Z) : bool := (c =? 32) || (c =? 9) || (c =? 10) || (c =? 13).
Definition scalar (v : Z) : bool := (v <? 55296) || ((57344 <=? v) && (v <=? 1114111)).
Section Unescape.
  Context (bytes : bool) (enc : Z -> codes).
  Definition plain (c : Z) : option (codes * state) :=
    if c =? backslash then Some ([], Esc) else if (c =? quote) || (c =? 13) then None else Some ([c], Norm).
  Definition step (st : state) (c : Z) : option (codes * state) :=
    match st with
    | Norm => plain c
    | Skip => if blank c then Some ([], Skip) else plain c
    | Esc =>
        if c =? 110 then Some ([10], Norm) else if c =? 114 then Some ([13], Norm) else if c =? 116 then Some ([9], Norm)
        else if c =? zero then Some ([0], Norm)
        else if (c =? backslash) || (c =? quote) || (c =? tick) then Some ([c], Norm)
        else if c =? 120 then Some ([], X1)
        else if c =? 117 then if bytes then None else Some ([], U0)
        else if c =? 10 then Some ([], Skip)
        else None
    | X1 => match hex_val c with Some h => Some ([], X2 h) | None => None end
    | X2 h => match hex_val c with
              | Some l => if bytes || (16 * h + l <? 128) then Some ([16 * h + l], Norm) else None
              | None => None
              end
    | U0 => if c =? 123 then Some ([], U 0 0) else None
    | U acc n =>
        if c =? 125 then if (0 <? n)%nat && scalar acc then Some (enc acc, Norm) else None
        else if c =? 95 then if (0 <? n)%nat then Some ([], U acc n) else None
        else match hex_val c with
             | Some d => if (n <? 6)%nat then Some ([], U (16 * acc + d) (S n)) else None
             | None => None
             end
    end.
  Fixpoint run (st : state) (s : codes) : option (codes * state) :=
    match s with
    | [] => Some ([], st)
    | c :: s =>
        match step st c with
        | Some (v, st) => match run st s with Some (w, st) => Some (v ++ w, st) | None => None end
        | None => None
        end
    end.
  Definition ends_ok (st : state) : bool := match st with Norm | Skip => true | _ => false end.
  (** The value of the text between the quotes. *)
  Definition string_value (s : codes) : option codes :=
    match run Norm s with Some (v, st) => if ends_ok st then Some v else None | None => None end.
  (** Reading stands between two characters or escapes after [pre]. *)
  Definition boundary (pre v : codes) : Prop := exists st, run Norm pre = Some (v, st) /\ ends_ok st = true.
End Unescape.

(** Where octal escapes look to be: `\0` read as an escape, and a digit up to 7 after it. *)
Definition octal_at (bytes : bool) (enc : Z -> codes) (s : codes) (i : nat) : Prop :=
  exists pre v d post, s = pre ++ backslash :: zero :: d :: post /\ length pre = i /\ boundary bytes enc pre v /\ 48 <= d <= 55.

(** ** Character literals: one character other than `'`, `\`, newline, carriage return and tab, or one escape. *)
Definition one (v : Z) : codes := [v].
Definition char_literal (t : codes) (c : Z) : Prop :=
  exists body, t = tick :: body ++ [tick] /\
    ((body = [c] /\ ~ In c [tick; backslash; 10; 13; 9]) \/
     (exists e r, body = backslash :: e :: r /\ e <> 10 /\ run false one Esc (e :: r) = Some ([c], Norm))).
(** The text of a string literal with its value, as characters. *)
Definition string_literal (raw : option nat) (lit value : codes) : Prop :=
  match raw with
  | Some n => reads_raw [114] n lit value
  | None => exists body, lit = quote :: body ++ [quote] /\ string_value false one body = Some value
  end.
