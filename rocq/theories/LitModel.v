(** Model of lints on string literals: /repo/clippy_lints/src/raw_strings.rs, /repo/clippy_lints/src/octal_escapes.rs and
    [str_literal_to_char_literal] of /repo/clippy_utils/src/source.rs.
    A text is a list of codes: bytes for the first two, characters for the third (where the code asks for one it may ask for the other). *)
From Coq Require Export ZArith Strings.Ascii Strings.String List Bool.
Export ListNotations.
Open Scope Z_scope.

Definition codes := list Z.
Definition zx (s : string) : codes := map (fun c => Z.of_nat (nat_of_ascii c)) (list_ascii_of_string s).
Definition quote := 34. Definition hash := 35. Definition backslash := 92. Definition tick := 39. Definition zero := 48.
Definition hashes (n : nat) : codes := repeat hash n.

(** ** Raw strings *)
(** raw_strings.rs:135-164: the [try_fold]; [req] is a u8, and additions wrap in a release build. *)
Fixpoint count_hashes (max : Z) (s : codes) (following_quote : bool) (req acc : Z) : Z :=
  match s with
  | [] => acc
  | b :: s =>
      if (b =? quote) && negb following_quote then count_hashes max s true 1 acc
      else if b =? hash then count_hashes max s following_quote ((req + Z.b2z following_quote) mod 256) acc
      else if following_quote then
        if req =? max then req else count_hashes max s false req (Z.max acc req)
      else count_hashes max s following_quote req acc
  end.
(** raw_strings.rs:135-168: the hashes asked for; [allow_one] is the setting allow-one-hash-in-raw-strings. *)
Definition required (allow_one : bool) (max : Z) (s : codes) : Z :=
  let req := count_hashes max (s ++ [0]) false 0 0 in if allow_one then Z.max req 1 else req.

(** Removing the codes from [lo] to [hi]. *)
Definition remove (lo hi : nat) (t : codes) : codes := firstn lo t ++ skipn hi t.
(** raw_strings.rs:195-218 [hash_spans] and the removal of both spans, the later one first; [prefix] is `r`, `br` or `cr`. *)
Definition remove_hashes (lit : codes) (prefix_len : nat) (req max : Z) : codes :=
  let n := length lit in
  let start_lo := (prefix_len + Z.to_nat req)%nat in
  let start_hi := (prefix_len + Z.to_nat max)%nat in
  remove start_lo start_hi (remove (n - Z.to_nat max) (n - Z.to_nat req) lit).
(** raw_strings.rs:106-192 [check_raw_string], the second lint. *)
Definition needless_raw_string_hashes (allow_one : bool) (prefix_len : nat) (max : Z) (content lit : codes) : option codes :=
  let req := required allow_one max content in
  if req <? max then Some (remove_hashes lit prefix_len req max) else None.
(** raw_strings.rs:107-133, the first lint: the `r` and all hashes go. *)
Definition needless_raw_strings (prefix_len : nat) (max : Z) (content lit : codes) : option codes :=
  if existsb (fun b => (b =? backslash) || (b =? quote)) content then None
  else let n := length lit in
       Some (remove (prefix_len - 1) (prefix_len + Z.to_nat max) (remove (n - Z.to_nat max) n lit)).

(** ** Octal escapes *)
Definition is_octal (b : Z) : bool := (48 <=? b) && (b <=? 55).
(** octal_escapes.rs:64-82: offset in the literal's text, length, the two digits.  The source is taken to be what was read
    (octal_escapes.rs:84-90), as it is outside macros. *)
Record octal := { at_ : nat; len : nat; c_hi : Z; c_lo : Z }.
Fixpoint scan (i : nat) (s : codes) : list octal :=
  match s with
  | [] => []
  | c :: s1 =>
      if c =? backslash then
        match s1 with
        | [] => []
        | e :: s2 =>
            if e =? zero then
              match s2 with
              | hi :: s3 =>
                  if is_octal hi then
                    match s3 with
                    | lo :: tail =>
                        if is_octal lo then {| at_ := i; len := 4; c_hi := hi; c_lo := lo |} :: scan (i + 4) tail
                        else {| at_ := i; len := 3; c_hi := zero; c_lo := hi |} :: scan (i + 3) s3
                    | [] => [{| at_ := i; len := 3; c_hi := zero; c_lo := hi |}]
                    end
                  else scan (i + 2) s2
              | [] => []
              end
            else scan (i + 2) s2
        end
      else scan (i + 1) s1
  end.
Definition octal_escapes (s : codes) : list octal := scan 0 s.
(** octal_escapes.rs:91-105: the two suggestions for a report; `{:02x}`. *)
Definition hex_lower (d : Z) : Z := if d <? 10 then 48 + d else 87 + d.
Definition hex_escape (o : octal) : codes :=
  let v := Z.lor (Z.shiftl (c_hi o - 48) 3) (c_lo o - 48) in [backslash; 120; hex_lower (v / 16); hex_lower (v mod 16)].
Definition null_escape (o : octal) : codes := [backslash; 120; 48; 48; c_hi o; c_lo o].
Definition replace (o : octal) (new s : codes) : codes := firstn (at_ o) s ++ new ++ skipn (at_ o + len o) s.

(** ** A string of one character as a character literal *)
(** source.rs:780-818 [str_literal_to_char_literal]; [raw]: the number of hashes of a raw string; [lit]: its text, [value]: the string. *)
Definition codes_eqb (a b : codes) : bool := if list_eq_dec Z.eq_dec a b then true else false.
Definition utf8_len (c : Z) : Z := if c <? 128 then 1 else if c <? 2048 then 2 else if c <? 65536 then 3 else 4.
Definition str_to_char (ascii_only : bool) (raw : option nat) (lit value : codes) : option codes :=
  if (if ascii_only then fold_right (fun c n => utf8_len c + n) 0 value =? 1 else (length value =? 1)%nat) then
    let n := length lit in
    let ch := match raw with
              | Some nhash => firstn (n - 1 - nhash - (nhash + 2)) (skipn (nhash + 2) lit)
              | None => firstn (n - 1 - 1) (skipn 1 lit)
              end in
    let body := if codes_eqb ch [tick] then [backslash; tick]
                else if codes_eqb ch [backslash] then [backslash; backslash]
                else if codes_eqb ch [backslash; quote] then [quote]
                else ch in
    Some (tick :: body ++ [tick])
  else None.
