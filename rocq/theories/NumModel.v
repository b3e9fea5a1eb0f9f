(** Model of /repo/clippy_utils/src/numeric_literal.rs and /repo/clippy_lints/src/literal_representation.rs.
    Literals are ASCII. *)
From Coq Require Export ZArith.
From Verif Require Export Text.

Definition us : ascii := "_"%char.
Definition dash : ascii := "-"%char.
Definition dot : ascii := "."%char.

(** numeric_literal.rs:6-26 [Radix], [suggest_grouping]. *)
Inductive radix := Binary | Octal | Decimal | Hexadecimal.
Definition radix_eqb (a b : radix) : bool :=
  match a, b with Binary, Binary | Octal, Octal | Decimal, Decimal | Hexadecimal, Hexadecimal => true | _, _ => false end.
Definition suggest_grouping (r : radix) : nat := match r with Binary | Hexadecimal => 4 | Octal | Decimal => 3 end.

(** numeric_literal.rs:34-52 [NumericLiteral]. *)
Record numlit := {
  nradix : radix;
  nprefix : option text;
  ninteger : text;
  nfraction : option text;
  nexponent : option (text * text);
  nsuffix : option text
}.
(** What is used of [LitKind]: float or integer, the name of the suffix's type. *)
Record lit_kind := { kfloat : bool; ksuffix : option text }.

(** numeric_literal.rs:114-145 [split_digit_parts]: the loop over [digits.char_indices()]. *)
Definition slice (d : text) (a b : nat) : text := firstn (b - a) (skipn a d).
Fixpoint split_loop (digits rest : text) (i : nat) (integer : text) (fraction : option text) : text * option text * option (text * text) :=
  match rest with
  | [] => (integer, fraction, None)
  | c :: rest =>
      if Ascii.eqb c dot then split_loop digits rest (S i) (firstn i digits) (Some (skipn (S i) digits))
      else if Ascii.eqb c "e"%char || Ascii.eqb c "E"%char then
        let exp_start := if ends [us] (firstn i digits) then i - 1 else i in
        let '(integer, fraction) :=
          if exp_start <? List.length integer then (firstn exp_start digits, fraction)
          else (integer, Some (slice digits (List.length integer + 1) exp_start)) in
        (integer, fraction, Some (slice digits exp_start (S i), skipn (S i) digits))
      else split_loop digits rest (S i) integer fraction
  end.
Definition split_digit_parts (digits : text) (float : bool) : text * option text * option (text * text) :=
  if float then split_loop digits digits 0 digits None else (digits, None, None).

(** numeric_literal.rs:74-107 [NumericLiteral::new]. *)
Definition new (lit : text) (suffix : option text) (float : bool) : numlit :=
  let unsigned := drop_while (Ascii.eqb dash) lit in
  let r := if starts (tx "0x") unsigned then Hexadecimal
           else if starts (tx "0b") unsigned then Binary
           else if starts (tx "0o") unsigned then Octal
           else Decimal in
  let '(prefix, sans_prefix) := if radix_eqb r Decimal then (None, lit) else (Some (firstn 2 lit), skipn 2 lit) in
  let sans_prefix := if (match suffix with Some _ => true | None => false end) && ends [us] sans_prefix
                     then firstn (List.length sans_prefix - 1) sans_prefix else sans_prefix in
  let '(integer, fraction, exponent) := split_digit_parts sans_prefix float in
  {| nradix := r; nprefix := prefix; ninteger := integer; nfraction := fraction; nexponent := exponent; nsuffix := suffix |}.

(** numeric_literal.rs:232-263 [split_suffix], [lit_suffix_length]; numeric_literal.rs:55-71 [from_lit_kind]. *)
Definition split_suffix (src : text) (k : lit_kind) : text * option text :=
  match ksuffix k with
  | Some name =>
      if List.length name <=? List.length src
      then (firstn (List.length src - List.length name) src, Some (skipn (List.length src - List.length name) src))
      else (src, None)
  | None => (src, None)
  end.
Definition from_lit_kind (src : text) (k : lit_kind) : option numlit :=
  let unsigned := match strip_pre [dash] src with Some s => s | None => src end in
  match trim_start unsigned with
  | c :: _ =>
      if is_digit c then let '(unsuffixed, suffix) := split_suffix src k in Some (new unsuffixed suffix (kfloat k)) else None
  | [] => None
  end.

(** numeric_literal.rs:190-230 [group_digits]; [None]: `count() - 1` overflows. *)
Definition strip_us (t : text) : text := filter (fun c => negb (Ascii.eqb c us)) t.
Fixpoint group_rest (g i : nat) (l : text) : text :=
  match l with
  | [] => []
  | c :: l => (if Nat.eqb i 0 then [us; c] else [c]) ++ group_rest g (if Nat.eqb (S i) g then 0 else S i) l
  end.
Definition group_digits (input : text) (g : nat) (partial_group_first zero_pad : bool) : option text :=
  let digits := strip_us input in
  let '(sign, digits) := match digits with c :: d => if Ascii.eqb c dash then ([dash], d) else ([], digits) | [] => ([], []) end in
  if partial_group_first && Nat.eqb (List.length digits) 0 then None
  else
    let first := if partial_group_first then (List.length digits - 1) mod g + 1 else g in
    let pad := if partial_group_first && zero_pad then repeat "0"%char (g - first) else [] in
    Some (sign ++ pad ++ firstn first digits ++ group_rest g 0 (skipn first digits)).

(** numeric_literal.rs:148-188 [format]. *)
Definition obind {A B} (x : option A) (f : A -> option B) : option B := match x with Some a => f a | None => None end.
Definition format (n : numlit) : option text :=
  let g := suggest_grouping (nradix n) in
  obind (group_digits (ninteger n) g true (radix_eqb (nradix n) Hexadecimal)) (fun int =>
  obind (match nfraction n with
         | Some f => option_map (fun t => dot :: t) (group_digits f g false false)
         | None => Some []
         end) (fun frac =>
  obind (match nexponent n with
         | Some (sep, e) =>
             if negb (match e with [] => true | _ => false end) && negb (teqb e (tx "0"))
             then option_map (fun t => sep ++ t) (group_digits e g true false)
             else if teqb e (tx "0") && (match nfraction n with None => true | _ => false end) && (match nsuffix n with None => true | _ => false end)
             then Some (tx ".0") else Some []
         | None => Some []
         end) (fun exp =>
  let out := (match nprefix n with Some p => p | None => [] end) ++ int ++ frac ++ exp in
  Some (match nsuffix n with
        | Some s => out ++ (if ends [dot] out then tx "0" else []) ++ us :: s
        | None => out
        end)))).

(** ** The lints *)
(** literal_representation.rs:356-388 [get_group_size]; [inl] is the warning.  Taking the second size from
    the iterator and testing all others uses the iterator up. *)
Inductive warning := UnreadableLiteral | InconsistentDigitGrouping | LargeDigitGroups | UnusualByteGroupings.
Definition get_group_size (groups : list nat) (r : radix) (lint_unreadable : bool) : warning + option nat :=
  match groups with
  | [] => inr None
  | first :: rest =>
      let '(bad, rest) :=
        if radix_eqb r Decimal then (false, rest)
        else match rest with
             | second :: more => (negb (forallb (Nat.eqb second) more) || (second <? first), [])
             | [] => (false, [])
             end in
      if bad then inl UnusualByteGroupings
      else match rest with
           | second :: more =>
               if negb (forallb (Nat.eqb second) more) || (second <? first) then inl InconsistentDigitGrouping
               else if 4 <? second then inl LargeDigitGroups
               else inr (Some second)
           | [] => if (5 <? first) && lint_unreadable then inl UnreadableLiteral else inr None
           end
  end.
(** literal_representation.rs:333-352 [parts_consistent]. *)
Definition parts_consistent (i f : option nat) (int_size frac_size : nat) : bool :=
  match i, f with
  | None, None => true
  | Some i, None => frac_size <=? i
  | None, Some f => int_size <=? f
  | Some i, Some f => Nat.eqb i f
  end.
(** literal_representation.rs:223, 306-326 [is_literal_uuid_formatted]. *)
Definition list_nat_eqb (a b : list nat) : bool := if list_eq_dec Nat.eq_dec a b then true else false.
Definition is_literal_uuid_formatted (n : numlit) : bool :=
  radix_eqb (nradix n) Hexadecimal && (match nfraction n with None => true | _ => false end)
  && list_nat_eqb [8; 4; 4; 4; 12] (map (@List.length ascii) (split_at us (ninteger n))).
(** [u64::from_str_radix]. *)
Definition digit_value (c : ascii) : option Z :=
  if is_digit c then Some (Z.of_nat (nat_of_ascii c) - 48)%Z
  else if code_in 97 102 c then Some (Z.of_nat (nat_of_ascii c) - 87)%Z
  else if code_in 65 70 c then Some (Z.of_nat (nat_of_ascii c) - 55)%Z
  else None.
Definition base_of (r : radix) : Z := (match r with Binary => 2 | Octal => 8 | Decimal => 10 | Hexadecimal => 16 end)%Z.
Fixpoint parse_acc (b : Z) (acc : Z) (t : text) : option Z :=
  match t with
  | [] => Some acc
  | c :: t =>
      match digit_value c with
      | Some d => if (d <? b)%Z then let v := (acc * b + d)%Z in if (v <? 2 ^ 64)%Z then parse_acc b v t else None else None
      | None => None
      end
  end.
Definition from_str_radix (t : text) (r : radix) : option Z := match t with [] => None | _ => parse_acc (base_of r) 0%Z t end.
(** literal_representation.rs:273-288: the missing character of an integer suffix. *)
Definition missing_char (last_group : text) (i : Z) : option ascii :=
  if teqb last_group (tx "8") && (i <? 2 ^ 7)%Z then Some "i"%char
  else if teqb last_group (tx "16") && (i <? 2 ^ 15)%Z then Some "i"%char
  else if teqb last_group (tx "32") && (i <? 2 ^ 31)%Z then Some "i"%char
  else if teqb last_group (tx "64") && (i <? 2 ^ 63)%Z then Some "i"%char
  else if teqb last_group (tx "8") && (i <? 2 ^ 8)%Z then Some "u"%char
  else if teqb last_group (tx "16") && (i <? 2 ^ 16)%Z then Some "u"%char
  else if teqb last_group (tx "32") && (i <? 2 ^ 32)%Z then Some "u"%char
  else if teqb last_group (tx "64") then Some "u"%char
  else None.
(** literal_representation.rs:249-304 [check_for_mistyped_suffix]; [None]: no report; [Some None]: panic. *)
Definition with_integer (n : numlit) (t : text) : numlit :=
  {| nradix := nradix n; nprefix := nprefix n; ninteger := t; nfraction := nfraction n; nexponent := nexponent n; nsuffix := nsuffix n |}.
Definition with_exponent (n : numlit) (sep t : text) : numlit :=
  {| nradix := nradix n; nprefix := nprefix n; ninteger := ninteger n; nfraction := nfraction n; nexponent := Some (sep, t); nsuffix := nsuffix n |}.
Definition check_for_mistyped_suffix (n : numlit) : option (option text) :=
  match nsuffix n with
  | Some _ => None
  | None =>
      match nexponent n with
      | Some (sep, part) =>
          let groups := split_at us part in
          let last_group := last groups [] in
          if (1 <? List.length groups) && (teqb last_group (tx "32") || teqb last_group (tx "64")) then
            Some (option_map (fun t => t ++ us :: "f"%char :: last_group)
                    (format (with_exponent n sep (firstn (List.length part - List.length last_group) part))))
          else None
      | None =>
          match nfraction n with
          | Some _ => None
          | None =>
              let part := ninteger n in
              let groups := split_at us part in
              let last_group := last groups [] in
              if (1 <? List.length groups)
                 && (teqb last_group (tx "8") || teqb last_group (tx "16") || teqb last_group (tx "32") || teqb last_group (tx "64")) then
                let main_part := firstn (List.length part - List.length last_group) part in
                match from_str_radix (strip_us main_part) (nradix n) with
                | Some i =>
                    match missing_char last_group i with
                    | Some c => Some (option_map (fun t => t ++ us :: c :: last_group) (format (with_integer n main_part)))
                    | None => None
                    end
                | None => None
                end
              else None
          end
      end
  end.
(** literal_representation.rs:232-246 [check_lit]. *)
Definition grouping_warning (lint_fractions : bool) (n : numlit) : option warning :=
  match get_group_size (map (@List.length ascii) (split_at us (ninteger n))) (nradix n) true with
  | inl w => Some w
  | inr i =>
      match nfraction n with
      | Some f =>
          match get_group_size (rev (map (@List.length ascii) (split_at us f))) (nradix n) lint_fractions with
          | inl w => Some w
          | inr j => if parts_consistent i j (List.length (ninteger n)) (List.length f) then None else Some InconsistentDigitGrouping
          end
      | None => None
      end
  end.
Inductive lint_report := MistypedSuffix (suggestion : option text) | Grouping (w : warning) (suggestion : option text).
Definition check_lit (lint_fractions : bool) (src : text) (k : lit_kind) : option lint_report :=
  match from_lit_kind src k with
  | Some n =>
      match check_for_mistyped_suffix n with
      | Some s => Some (MistypedSuffix s)
      | None =>
          if is_literal_uuid_formatted n then None
          else match grouping_warning lint_fractions n with Some w => Some (Grouping w (format n)) | None => None end
      end
  | None => None
  end.

(** `format!("{val:#X}")`. *)
Definition hex_digit (d : Z) : ascii := ascii_of_nat (Z.to_nat (if d <? 10 then 48 + d else 55 + d)%Z).
Fixpoint hex_digits (fuel : nat) (v : Z) (acc : text) : text :=
  match fuel with
  | O => acc
  | S fuel => let acc := hex_digit (v mod 16) :: acc in if (v / 16 =? 0)%Z then acc else hex_digits fuel (v / 16) acc
  end.
Definition to_hex (v : Z) : text := tx "0x" ++ hex_digits (S (Z.to_nat (Z.log2 v))) v [].
(** literal_representation.rs:435-478 [do_lint]: true for a warning. *)
Definition is_one_of (c : ascii) (s : text) : bool := existsb (Ascii.eqb c) s.
Definition do_lint (digits : text) : bool :=
  match digits with
  | [] => false
  | [c] => is_one_of c (tx "124837F")
  | f :: s =>
      if List.length digits <? 4 then
        is_one_of f (tx "1248") && forallb (Ascii.eqb "0"%char) s
        || is_one_of f (tx "137F") && forallb (Ascii.eqb "F"%char) s
      else
        let m := firstn (List.length s - 1) s in
        is_one_of f (tx "1248") && forallb (Ascii.eqb "0"%char) m
        || is_one_of f (tx "137F") && forallb (Ascii.eqb "F"%char) m
        || is_one_of f (tx "7F") && forallb (fun c => is_one_of c (tx "0F")) s
  end.
(** literal_representation.rs:416-433 [DecimalLiteralRepresentation::check_lit]. *)
Definition check_decimal (threshold : Z) (src : text) (val : Z) (suffix : option text) : option (option text) :=
  if (threshold <=? val)%Z then
    match from_lit_kind src {| kfloat := false; ksuffix := suffix |} with
    | Some n =>
        if radix_eqb (nradix n) Decimal then
          let h := new (to_hex val) (nsuffix n) false in
          if do_lint (ninteger h) then Some (format h) else None
        else None
    | None => None
    end
  else None.
