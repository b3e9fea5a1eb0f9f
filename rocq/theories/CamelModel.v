(** Model of /repo/clippy_utils/src/str_utils.rs.
    A string is a list of characters of any type; what is used of a character is its length in UTF-8, its two
    case properties and its case mappings. *)
From Coq Require Export List Arith Bool.
Export ListNotations.

Record chars := {
  chr :> Type;
  len_utf8 : chr -> nat;
  is_uppercase : chr -> bool;
  is_lowercase : chr -> bool;
  to_lowercase : chr -> list chr;
  to_uppercase : chr -> list chr;
  chr_eqb : chr -> chr -> bool;
  underscore : chr
}.

Section Camel.
  Context {A : chars}.
  Local Notation str := (list A).
  (** [str::len], [str::char_indices], with the index of the character as well. *)
  Definition blen (s : str) : nat := fold_right (fun c n => len_utf8 A c + n) 0 s.
  Fixpoint indices_from (ci bi : nat) (s : str) : list (nat * nat * A) :=
    match s with [] => [] | c :: s => (ci, bi, c) :: indices_from (S ci) (bi + len_utf8 A c) s end.
  (** str_utils.rs:3-14 [StrIndex]: characters, bytes. *)
  Definition strindex : Type := nat * nat.

  (** str_utils.rs:25-57 [camel_case_until]: the loop. *)
  Fixpoint until_loop (s : str) (it : list (nat * nat * A)) (up : bool) (last : strindex) : strindex :=
    match it with
    | [] => if up then last else (length s, blen s)
    | (ci, bi, c) :: it =>
        if up then if is_lowercase A c then until_loop s it false last else last
        else if is_uppercase A c then until_loop s it true (ci, bi)
        else if negb (is_lowercase A c) then (ci, bi)
        else until_loop s it false last
    end.
  Definition camel_case_until (s : str) : strindex :=
    match indices_from 0 0 s with
    | (_, _, first) :: it => if negb (is_uppercase A first) then (0, 0) else until_loop s it true (0, 0)
    | [] => (0, 0)
    end.

  (** str_utils.rs:84-121 [camel_case_start_from_idx]: the loop over the reversed indices. *)
  Fixpoint start_loop (start : nat) (it : list (nat * nat * A)) (down : bool) (last : strindex) : strindex :=
    match it with
    | [] => last
    | (ci, bi, c) :: it =>
        if bi <? start then last
        else if down then
          if is_uppercase A c then start_loop start it false (ci, bi)
          else if negb (is_lowercase A c) then last
          else start_loop start it true last
        else if is_lowercase A c then start_loop start it true last
        else if is_uppercase A c then start_loop start it false (ci, bi)
        else last
    end.
  Definition camel_case_start_from_idx (s : str) (start : nat) : strindex :=
    match rev (indices_from 0 0 s) with
    | (_, _, first) :: it => if negb (is_lowercase A first) then (length s, blen s) else start_loop start it true (length s, blen s)
    | [] => (length s, blen s)
    end.
  (** str_utils.rs:70-72 [camel_case_start]. *)
  Definition camel_case_start (s : str) : strindex := camel_case_start_from_idx s 0.
  (** str_utils.rs:136-148 [camel_case_indices]; the fuel bounds the `while`, [None] if it runs out. *)
  Fixpoint indices_loop (fuel : nat) (s : str) (idx : strindex) : option (list strindex) :=
    match fuel with
    | 0 => None
    | S fuel => if snd idx <? blen s then option_map (cons idx) (indices_loop fuel s (camel_case_start_from_idx s (snd idx + 1))) else Some [idx]
    end.
  Definition camel_case_indices (s : str) : option (list strindex) := indices_loop (S (blen s)) s (camel_case_start s).
  (** `&s[a..b]`; [None] for a panic. *)
  Fixpoint drop_bytes (n : nat) (s : str) : option str :=
    match n, s with
    | 0, _ => Some s
    | _, [] => None
    | _, c :: r => if n <? len_utf8 A c then None else drop_bytes (n - len_utf8 A c) r
    end.
  Fixpoint take_bytes (n : nat) (s : str) : option str :=
    match n, s with
    | 0, _ => Some []
    | _, [] => None
    | _, c :: r => if n <? len_utf8 A c then None else option_map (cons c) (take_bytes (n - len_utf8 A c) r)
    end.
  Definition byte_slice (s : str) (a b : nat) : option str :=
    if b <? a then None else match drop_bytes a s with Some r => take_bytes (b - a) r | None => None end.
  (** str_utils.rs:156-166 [camel_case_split]. *)
  Fixpoint windows (s : str) (l : list nat) : option (list str) :=
    match l with
    | a :: (b :: _) as r => match byte_slice s a b, windows s r with Some x, Some xs => Some (x :: xs) | _, _ => None end
    | _ => Some []
    end.
  Definition camel_case_split (s : str) : option (list str) :=
    match camel_case_indices s with
    | Some idx =>
        let offsets := map snd idx in
        let offsets := match offsets with 0 :: _ => offsets | _ => 0 :: offsets end in
        windows s offsets
    | None => None
    end.

  (** str_utils.rs:192-206 [count_match_start]; [take_while(..).last()]. *)
  Fixpoint last_match {X Y} (it1 : list (X * A)) (it2 : list (Y * A)) (acc : option (X * (Y * A))) : option (X * (Y * A)) :=
    match it1, it2 with
    | (x, c1) :: it1, (y, c2) :: it2 => if chr_eqb A c1 c2 then last_match it1 it2 (Some (x, (y, c2))) else acc
    | _, _ => acc
    end.
  Definition chars_of (s : str) : list (nat * A) := map (fun p => (fst (fst p), snd p)) (indices_from 0 0 s).
  Definition bytes_of (s : str) : list (nat * A) := map (fun p => (snd (fst p), snd p)) (indices_from 0 0 s).
  Definition count_match_start (s1 s2 : str) : nat * nat :=
    match last_match (chars_of s1) (bytes_of s2) None with
    | Some (ci, (bi, c)) => (ci + 1, bi + len_utf8 A c)
    | None => (0, 0)
    end.
  (** str_utils.rs:218-237 [count_match_end]. *)
  Definition count_match_end (s1 s2 : str) : nat * nat :=
    match last_match (rev (chars_of s1)) (rev (bytes_of s2)) None with
    | Some (ci, (bi, _)) => (length s1 - ci, blen s2 - bi)
    | None => (0, 0)
    end.

  (** str_utils.rs:247-261 [to_snake_case]. *)
  Fixpoint snake_loop (i : nat) (s : str) : str :=
    match s with
    | [] => []
    | c :: s => (if is_uppercase A c then (if Nat.eqb i 0 then [] else [underscore A]) ++ to_lowercase A c else [c]) ++ snake_loop (S i) s
    end.
  Definition to_snake_case (s : str) : str := snake_loop 0 s.
  (** str_utils.rs:270-290 [to_camel_case]; [None] in the loop: return of the name itself. *)
  Fixpoint camel_loop (s : str) (up : bool) : option str :=
    match s with
    | [] => Some []
    | c :: s =>
        if is_uppercase A c then None
        else if chr_eqb A c (underscore A) then camel_loop s true
        else option_map (app (if up then to_uppercase A c else [c])) (camel_loop s false)
    end.
  Definition to_camel_case (s : str) : str := match camel_loop s true with Some r => r | None => s end.
End Camel.
