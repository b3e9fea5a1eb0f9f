(** Strings, their patterns and iterators, and a language of expressions over them with variables, assignment, `?` and
    calls of unknown functions.  This is the meaning of programs against which the lints about strings are judged; nothing
    in this file models clippy. *)
From Coq Require Export List NArith Arith Bool Lia.
Export ListNotations.

(** ** Characters and strings.  A character is its code point; a string is a list of characters, stored as UTF-8. *)
Definition chr := N.
Definition str := list chr.
Definition enc (c : chr) : list N :=
  (if c <? 128 then [c]
   else if c <? 2048 then [192 + c / 64; 128 + c mod 64]
   else if c <? 65536 then [224 + c / 4096; 128 + (c / 64) mod 64; 128 + c mod 64]
   else [240 + c / 262144; 128 + (c / 4096) mod 64; 128 + (c / 64) mod 64; 128 + c mod 64])%N.
Definition bytes (s : str) : list N := flat_map enc s.
Definition blen (s : str) : nat := length (bytes s).
(** The two parts of a string around byte [n], if a character starts or the string ends there. *)
Fixpoint cut (n : nat) (s : str) : option (str * str) :=
  match n, s with
  | 0, _ => Some ([], s)
  | _, [] => None
  | _, c :: s' => if n <? length (enc c) then None else match cut (n - length (enc c)) s' with Some (a, b) => Some (c :: a, b) | None => None end
  end.
Definition white (c : chr) : bool :=
  ((9 <=? c) && (c <=? 13) || (c =? 32) || (c =? 133) || (c =? 160) || (c =? 5760) || (8192 <=? c) && (c <=? 8202) || (c =? 8232)
   || (c =? 8233) || (c =? 8239) || (c =? 8287) || (c =? 12288))%N.
Definition upper_a (c : N) : bool := ((65 <=? c) && (c <=? 90))%N.
Definition lower_a (c : N) : bool := ((97 <=? c) && (c <=? 122))%N.
Definition digit_a (c : N) : bool := ((48 <=? c) && (c <=? 57))%N.
Definition to_lower (c : N) : N := if upper_a c then (c + 32)%N else c.
Definition to_upper (c : N) : N := if lower_a c then (c - 32)%N else c.
Fixpoint str_eqb (a b : list N) : bool :=
  match a, b with [], [] => true | x :: a, y :: b => N.eqb x y && str_eqb a b | _, _ => false end.
Definition same_case (a b : list N) : bool := str_eqb (map to_lower a) (map to_lower b).

(** ** Patterns: a set of characters, or a string.  Where they match, by numbers of characters: from the front, each match
    after the end of the one before, and from the back. *)
Inductive pat := PSet (f : chr -> bool) | PStr (p : str).
Fixpoint scan_set (f : chr -> bool) (i : nat) (s : str) : list (nat * nat) :=
  match s with [] => [] | c :: s => if f c then (i, S i) :: scan_set f (S i) s else scan_set f (S i) s end.
Fixpoint is_prefix (p s : str) : bool :=
  match p, s with [], _ => true | x :: p, y :: s => N.eqb x y && is_prefix p s | _, _ => false end.
Fixpoint scan_str (p : str) (skip i : nat) (s : str) : list (nat * nat) :=
  match s with
  | [] => []
  | _ :: s' =>
      match skip with
      | S k => scan_str p k (S i) s'
      | 0 => if is_prefix p s then (i, i + length p) :: scan_str p (length p - 1) (S i) s' else scan_str p 0 (S i) s'
      end
  end.
Definition everywhere (s : str) : list (nat * nat) := map (fun i => (i, i)) (seq 0 (S (length s))).
Definition fwd (p : pat) (s : str) : list (nat * nat) :=
  match p with PSet f => scan_set f 0 s | PStr [] => everywhere s | PStr p => scan_str p 0 0 s end.
Definition bwd (p : pat) (s : str) : list (nat * nat) :=
  match p with
  | PSet f => rev (scan_set f 0 s)
  | PStr [] => rev (everywhere s)
  | PStr p => map (fun m => (length s - snd m, length s - fst m)) (scan_str (rev p) 0 0 (rev s))
  end.
(** What remains after the pattern at the front, and before it at the back. *)
Definition after_front (p : pat) (s : str) : option str :=
  match p with
  | PSet f => match s with c :: s' => if f c then Some s' else None | [] => None end
  | PStr p => if is_prefix p s then Some (skipn (length p) s) else None
  end.
Definition before_back (p : pat) (s : str) : option str :=
  match p with
  | PSet f => match rev s with c :: s' => if f c then Some (rev s') else None | [] => None end
  | PStr p => if is_prefix (rev p) (rev s) then Some (firstn (length s - length p) s) else None
  end.

(** The parts between matches: [s] starts at character [start]. *)
Fixpoint pieces (start : nat) (ms : list (nat * nat)) (s : str) : list str :=
  match ms with [] => [s] | (a, b) :: ms => firstn (a - start) s :: pieces b ms (skipn (b - start) s) end.
Fixpoint pieces_n (n start : nat) (ms : list (nat * nat)) (s : str) : list str :=
  match n with
  | 0 => []
  | 1 => [s]
  | S n => match ms with [] => [s] | (a, b) :: ms => firstn (a - start) s :: pieces_n n b ms (skipn (b - start) s) end
  end.
Fixpoint rpieces (ms : list (nat * nat)) (s : str) : list str :=
  match ms with [] => [s] | (a, b) :: ms => skipn b s :: rpieces ms (firstn a s) end.
Fixpoint rpieces_n (n : nat) (ms : list (nat * nat)) (s : str) : list str :=
  match n with
  | 0 => []
  | 1 => [s]
  | S n => match ms with [] => [s] | (a, b) :: ms => skipn b s :: rpieces_n n ms (firstn a s) end
  end.
Fixpoint pieces_incl (start : nat) (ms : list (nat * nat)) (s : str) : list str :=
  match ms with
  | [] => match s with [] => [] | _ => [s] end
  | (_, b) :: ms => firstn (b - start) s :: pieces_incl b ms (skipn (b - start) s)
  end.
Fixpoint drop_last_empty (l : list str) : list str := match l with [] => [] | [ [] ] => [] | x :: l => x :: drop_last_empty l end.
Definition drop_first_empty (l : list str) : list str := match l with [] :: l => l | _ => l end.
Fixpoint join (t : str) (l : list str) : str := match l with [] => [] | [x] => x | x :: l => x ++ t ++ join t l end.
Fixpoint drop_front (n : nat) (p : pat) (s : str) : str :=
  match n with 0 => s | S n => match after_front p s with Some s' => drop_front n p s' | None => s end end.
Fixpoint drop_back (n : nat) (p : pat) (s : str) : str :=
  match n with 0 => s | S n => match before_back p s with Some s' => drop_back n p s' | None => s end end.
Fixpoint drop_while (f : chr -> bool) (s : str) : str := match s with c :: s' => if f c then drop_while f s' else s | [] => [] end.
Definition trim_start (s : str) : str := drop_while white s.
Definition trim_end (s : str) : str := rev (drop_while white (rev s)).
Definition trim (s : str) : str := trim_end (trim_start s).
(** The words of a string, [w] being the reverse of the word begun. *)
Definition done (w : str) : list str := match w with [] => [] | _ => [rev w] end.
Fixpoint words (w s : str) : list str := match s with [] => done w | c :: s => if white c then done w ++ words [] s else words (c :: w) s end.
(** The lines of a string, [l] being the reverse of the line begun: a line ends before "\n" or "\r\n" or at the end. *)
Definition without_cr (l : str) : str := match l with 13%N :: l => rev l | _ => rev l end.
Fixpoint lines (l s : str) : list str :=
  match s with [] => match l with [] => [] | _ => [rev l] end | c :: s => if N.eqb c 10 then without_cr l :: lines [] s else lines (c :: l) s end.
Fixpoint repeat_str (n : nat) (s : str) : str := match n with 0 => [] | S n => s ++ repeat_str n s end.

(** ** Values.  `&str` and `String`, and slices, vectors, arrays and iterators, are not told apart. *)
Inductive val :=
| VUnit
| VBool (b : bool)
| VNum (n : nat)
| VChar (c : chr)
| VByte (b : N)
| VStr (s : str)
| VList (vs : list val)
| VRepeat (v : val)
| VNone
| VSome (v : val)
| VPair (a b : val).
(** Whether two values are equal; none if they have not the same type. *)
Fixpoint veq (a b : val) : option bool :=
  match a, b with
  | VUnit, VUnit | VNone, VNone => Some true
  | VBool x, VBool y => Some (Bool.eqb x y)
  | VNum x, VNum y => Some (Nat.eqb x y)
  | VChar x, VChar y | VByte x, VByte y => Some (N.eqb x y)
  | VStr x, VStr y => Some (str_eqb x y)
  | VList xs, VList ys =>
      (fix go xs ys := match xs, ys with
       | [], [] => Some true
       | x :: xs, y :: ys => match veq x y, go xs ys with Some a, Some b => Some (a && b) | _, _ => None end
       | _, _ => Some false
       end) xs ys
  | VSome x, VSome y => veq x y
  | VSome _, VNone | VNone, VSome _ => Some false
  | VPair x y, VPair u v => match veq x u, veq y v with Some a, Some b => Some (a && b) | _, _ => None end
  | _, _ => None
  end.
Inductive ty := TStr | TString | TSlice | TChar | TByte | TNum | TBool | TOther.
Definition has_ty (v : val) (t : ty) : bool :=
  match t, v with
  | TStr, VStr _ | TString, VStr _ | TSlice, VList _ | TChar, VChar _ | TByte, VByte _ | TNum, VNum _ | TBool, VBool _ | TOther, _ => true
  | _, _ => false
  end.

(** ** Operators and methods.  The values are those of the receiver and the arguments. *)
Inductive lit := LStr (s : str) | LChar (c : chr) | LByte (b : N) | LNum (n : nat) | LBool (b : bool).
Definition lit_val (l : lit) : val :=
  match l with LStr s => VStr s | LChar c => VChar c | LByte b => VByte b | LNum n => VNum n | LBool b => VBool b end.
(** Patterns of `matches!`. *)
Inductive mpat := MLit (l : lit) | MRange (lo hi : lit) (incl : bool) | MOr (ps : list mpat) | MWild.
Definition code (v : val) : option N := match v with VChar c => Some c | VByte b => Some b | _ => None end.
Definition in_range (lo hi : val) (incl : bool) (v : val) : option bool :=
  match lo, hi, v with
  | VChar l, VChar h, VChar x | VByte l, VByte h, VByte x => Some (N.leb l x && if incl then N.leb x h else N.ltb x h)
  | _, _, _ => None
  end.
Fixpoint mmatch (p : mpat) (v : val) : option bool :=
  match p with
  | MLit l => veq (lit_val l) v
  | MRange lo hi incl => in_range (lit_val lo) (lit_val hi) incl v
  | MOr ps => fold_right (fun p acc => match mmatch p v, acc with Some a, Some b => Some (a || b) | _, _ => None end) (Some false) ps
  | MWild => Some true
  end.
Inductive pmeth :=
| Contains | StartsWith | EndsWith | Find | RFind | Split | SplitInclusive | RSplit | SplitTerminator | RSplitTerminator | SplitN
| RSplitN | SplitOnce | RSplitOnce | Matches | RMatches | MatchIndices | RMatchIndices | TrimStartMatches | TrimEndMatches | Replace
| ReplaceN | StripPrefix | StripSuffix.
Inductive ascii := AUpper | ALower | AAlpha | ADigit | AHex.
Inductive op :=
| OSome | OPair | OArr | OField (second : bool) | ONot | OEq (ne : bool) | OSub | OAt | OSlice (lo hi incl : bool) | OMatches (p : mpat)
| OInRange (incl : bool) | OLen | OIsEmpty | OChars | OBytes | OAsBytes | ONext | ONextBack | OLast | ONth | OSkip | ONextTuple | OUnwrap
| OIsSome | OIsNone | OCount | OGet | OFirst | OCopied | OTrim | OTrimStart | OTrimEnd | OWords | OLines | ORepeat | OToString | OToVec
| OClone | OLower | OUpper | OEqIgnore | OTake | OCollect | OIterRepeat | OMapField (second : bool) | OMapSwap | OAscii (k : ascii)
| OPat (m : pmeth).

Inductive out := OVal (v : val) | ORet (v : val) | OPanic | OStuck.
Definition of_opt {A} (f : A -> val) (o : option A) : val := match o with Some a => VSome (f a) | None => VNone end.
Definition strs (l : list str) : out := OVal (VList (map VStr l)).
Definition pair_strs (p : str * str) : val := VPair (VStr (fst p)) (VStr (snd p)).
Definition once (ms : list (nat * nat)) (s : str) : option (str * str) :=
  match ms with (a, b) :: _ => Some (firstn a s, skipn b s) | [] => None end.
Definition part (s : str) (m : nat * nat) : str := firstn (snd m - fst m) (skipn (fst m) s).
Definition offset (s : str) (m : nat * nat) : nat := blen (firstn (fst m) s).
Definition indexed (s : str) (ms : list (nat * nat)) : out := OVal (VList (map (fun m => VPair (VNum (offset s m)) (VStr (part s m))) ms)).
(** What the methods do with a pattern; [rest] are the other arguments. *)
Definition pmeth_apply (m : pmeth) (p : pat) (s : str) (rest : list val) : out :=
  match m, rest with
  | Contains, [] => OVal (VBool (match fwd p s with [] => false | _ => true end))
  | StartsWith, [] => OVal (VBool (match after_front p s with Some _ => true | None => false end))
  | EndsWith, [] => OVal (VBool (match before_back p s with Some _ => true | None => false end))
  | StripPrefix, [] => OVal (of_opt VStr (after_front p s))
  | StripSuffix, [] => OVal (of_opt VStr (before_back p s))
  | Find, [] => OVal (match fwd p s with m :: _ => VSome (VNum (offset s m)) | [] => VNone end)
  | RFind, [] => OVal (match bwd p s with m :: _ => VSome (VNum (offset s m)) | [] => VNone end)
  | Split, [] => strs (pieces 0 (fwd p s) s)
  | SplitInclusive, [] => strs (pieces_incl 0 (fwd p s) s)
  | RSplit, [] => strs (rpieces (bwd p s) s)
  | SplitTerminator, [] => strs (drop_last_empty (pieces 0 (fwd p s) s))
  | RSplitTerminator, [] => strs (drop_first_empty (rpieces (bwd p s) s))
  | SplitN, [VNum n] => strs (pieces_n n 0 (fwd p s) s)
  | RSplitN, [VNum n] => strs (rpieces_n n (bwd p s) s)
  | SplitOnce, [] => OVal (of_opt pair_strs (once (fwd p s) s))
  | RSplitOnce, [] => OVal (of_opt pair_strs (once (bwd p s) s))
  | Matches, [] => strs (map (part s) (fwd p s))
  | RMatches, [] => strs (map (part s) (bwd p s))
  | MatchIndices, [] => indexed s (fwd p s)
  | RMatchIndices, [] => indexed s (bwd p s)
  | TrimStartMatches, [] => OVal (VStr (drop_front (length s) p s))
  | TrimEndMatches, [] => OVal (VStr (drop_back (length s) p s))
  | Replace, [VStr t] => OVal (VStr (join t (pieces 0 (fwd p s) s)))
  | ReplaceN, [VStr t; VNum n] => OVal (VStr (join t (pieces_n (S n) 0 (fwd p s) s)))
  | _, _ => OStuck
  end.
(** A character, an array of characters and a string are patterns. *)
Fixpoint chars_of (vs : list val) : option (list chr) :=
  match vs with [] => Some [] | VChar c :: vs => option_map (cons c) (chars_of vs) | _ => None end.
Definition one_of (cs : list chr) (c : chr) : bool := existsb (N.eqb c) cs.
Definition pat_of (v : val) : option pat :=
  match v with
  | VChar c => Some (PSet (one_of [c]))
  | VList vs => option_map (fun cs => PSet (one_of cs)) (chars_of vs)
  | VStr p => Some (PStr p)
  | _ => None
  end.
(** Where among the arguments after the receiver the pattern is. *)
Definition pat_pos (m : pmeth) : nat := match m with SplitN | RSplitN => 1 | _ => 0 end.
Definition pat_apply (m : pmeth) (s : val) (pre : list val) (p : val) (post : list val) : out :=
  match s, pat_of p with VStr s, Some p => pmeth_apply m p s (pre ++ post) | _, _ => OStuck end.
Definition ascii_in (k : ascii) (c : N) : bool :=
  match k with
  | AUpper => upper_a c
  | ALower => lower_a c
  | AAlpha => upper_a c || lower_a c
  | ADigit => digit_a c
  | AHex => digit_a c || ((65 <=? c) && (c <=? 70) || (97 <=? c) && (c <=? 102))%N
  end.
Definition nth_val (vs : list val) (n : nat) : val := of_opt (fun v => v) (nth_error vs n).
Definition last_val (vs : list val) : val := match rev vs with v :: _ => VSome v | [] => VNone end.
Fixpoint all_bytes (vs : list val) : option (list N) :=
  match vs with [] => Some [] | VByte b :: vs => option_map (cons b) (all_bytes vs) | _ => None end.
Definition each_code (f : N -> N) (v : val) : out :=
  match v with
  | VChar c => OVal (VChar (f c))
  | VByte b => OVal (VByte (f b))
  | VStr s => OVal (VStr (map f s))
  | VList vs => match all_bytes vs with Some bs => OVal (VList (map (fun b => VByte (f b)) bs)) | None => OStuck end
  | _ => OStuck
  end.
Definition eq_ignore (a b : val) : out :=
  match a, b with
  | VChar x, VChar y | VByte x, VByte y => OVal (VBool (N.eqb (to_lower x) (to_lower y)))
  | VStr x, VStr y => OVal (VBool (same_case x y))
  | VList xs, VList ys => match all_bytes xs, all_bytes ys with Some x, Some y => OVal (VBool (same_case x y)) | _, _ => OStuck end
  | _, _ => OStuck
  end.
(** The bounds of a range over [n] items, and whether they are in order and inside. *)
Definition bounds (n : nat) (lo hi incl : bool) (vs : list val) : option (nat * nat) :=
  let stop := fun b : nat => if incl then S b else b in
  match lo, hi, vs with
  | false, false, [] => Some (0, n)
  | true, false, [VNum a] => Some (a, n)
  | false, true, [VNum b] => Some (0, stop b)
  | true, true, [VNum a; VNum b] => Some (a, stop b)
  | _, _, _ => None
  end.
Definition slice_str (s : str) (a b : nat) : out :=
  match cut b s with
  | Some (s', _) => if b <? a then OPanic else match cut a s' with Some (_, r) => OVal (VStr r) | None => OPanic end
  | None => OPanic
  end.
Definition slice_list (vs : list val) (a b : nat) : out :=
  if (b <? a) || (length vs <? b) then OPanic else OVal (VList (skipn a (firstn b vs))).
Definition collected (vs : list val) : option str :=
  fold_right (fun v acc => match v, acc with VStr s, Some t => Some (s ++ t) | VChar c, Some t => Some (c :: t) | _, _ => None end) (Some []) vs.
Definition map_opt (f : val -> option val) (v : val) : out :=
  match v with VNone => OVal VNone | VSome v => match f v with Some v => OVal (VSome v) | None => OStuck end | _ => OStuck end.
Definition field (second : bool) (v : val) : option val := match v with VPair a b => Some (if second then b else a) | _ => None end.
Definition is_some (v : val) : option bool := match v with VSome _ => Some true | VNone => Some false | _ => None end.
Definition apply (o : op) (vs : list val) : out :=
  match o, vs with
  | OSome, [v] => OVal (VSome v)
  | OPair, [a; b] => OVal (VPair a b)
  | OArr, vs => OVal (VList vs)
  | OField k, [v] => match field k v with Some v => OVal v | None => OStuck end
  | ONot, [VBool b] => OVal (VBool (negb b))
  | OEq ne, [a; b] => match veq a b with Some r => OVal (VBool (xorb ne r)) | None => OStuck end
  | OSub, [VNum a; VNum b] => if a <? b then OPanic else OVal (VNum (a - b))
  | OAt, [VList vs; VNum n] => match nth_error vs n with Some v => OVal v | None => OPanic end
  | OSlice lo hi incl, VStr s :: r => match bounds (blen s) lo hi incl r with Some (a, b) => slice_str s a b | None => OStuck end
  | OSlice lo hi incl, VList vs :: r => match bounds (length vs) lo hi incl r with Some (a, b) => slice_list vs a b | None => OStuck end
  | OMatches p, [v] => match mmatch p v with Some b => OVal (VBool b) | None => OStuck end
  | OInRange incl, [lo; hi; v] => match in_range lo hi incl v with Some b => OVal (VBool b) | None => OStuck end
  | OLen, [VStr s] => OVal (VNum (blen s))
  | OLen, [VList vs] | OCount, [VList vs] => OVal (VNum (length vs))
  | OIsEmpty, [VStr s] => OVal (VBool (match s with [] => true | _ => false end))
  | OIsEmpty, [VList vs] => OVal (VBool (match vs with [] => true | _ => false end))
  | OChars, [VStr s] => OVal (VList (map VChar s))
  | OBytes, [VStr s] | OAsBytes, [VStr s] => OVal (VList (map VByte (bytes s)))
  | ONext, [VList vs] | OFirst, [VList vs] => OVal (nth_val vs 0)
  | ONextBack, [VList vs] | OLast, [VList vs] => OVal (last_val vs)
  | ONth, [VList vs; VNum n] | OGet, [VList vs; VNum n] => OVal (nth_val vs n)
  | OSkip, [VList vs; VNum n] => OVal (VList (skipn n vs))
  | ONextTuple, [VList vs] => OVal (match vs with a :: b :: _ => VSome (VPair a b) | _ => VNone end)
  | OUnwrap, [VSome v] => OVal v
  | OUnwrap, [VNone] => OPanic
  | OIsSome, [v] => match is_some v with Some b => OVal (VBool b) | None => OStuck end
  | OIsNone, [v] => match is_some v with Some b => OVal (VBool (negb b)) | None => OStuck end
  | OCopied, [VSome v] => OVal (VSome v)
  | OCopied, [VNone] => OVal VNone
  | OTrim, [VStr s] => OVal (VStr (trim s))
  | OTrimStart, [VStr s] => OVal (VStr (trim_start s))
  | OTrimEnd, [VStr s] => OVal (VStr (trim_end s))
  | OWords, [VStr s] => strs (words [] s)
  | OLines, [VStr s] => strs (lines [] s)
  | ORepeat, [VStr s; VNum n] => OVal (VStr (repeat_str n s))
  | ORepeat, [VList vs; VNum n] => OVal (VList (concat (repeat vs n)))
  | OToString, [VStr s] | OClone, [VStr s] => OVal (VStr s)
  | OToVec, [VList vs] => OVal (VList vs)
  | OLower, [v] => each_code to_lower v
  | OUpper, [v] => each_code to_upper v
  | OEqIgnore, [a; b] => eq_ignore a b
  | OIterRepeat, [v] => OVal (VRepeat v)
  | OTake, [VRepeat v; VNum n] => OVal (VList (repeat v n))
  | OTake, [VList vs; VNum n] => OVal (VList (firstn n vs))
  | OCollect, [VList vs] => match collected vs with Some s => OVal (VStr s) | None => OStuck end
  | OMapField k, [v] => map_opt (field k) v
  | OMapSwap, [v] => map_opt (fun v => match v with VPair a b => Some (VPair b a) | _ => None end) v
  | OAscii k, [v] => match code v with Some c => OVal (VBool (ascii_in k c)) | None => OStuck end
  | OPat m, s :: r =>
      match skipn (pat_pos m) r with p :: post => pat_apply m s (firstn (pat_pos m) r) p post | [] => OStuck end
  | _, _ => OStuck
  end.

(** ** Expressions.  A variable and a call have a type; [XPred] is a method called with a closure of one character; [post]
    are the arguments after it.  What the closure does to the world is left out, and so are closures
    that panic or return from the function around.  `&` and `*` are left out. *)
Inductive ex :=
| XVar (x : nat) (t : ty)
| XLit (l : lit)
| XCall (f : nat) (t : ty) (es : list ex)
| XOp (o : op) (es : list ex)
| XPred (m : pmeth) (pre : list ex) (c : nat) (body : ex) (post : list ex)
| XTry (e : ex)
| XOr (a b : ex)
| XIf (c a b : ex)
| XIfSome (x : nat) (e a b : ex)
| XLet (x : nat) (e b : ex)
| XLet2 (x y : nat) (e b : ex)
| XAssign (x : nat) (e : ex)
| XSeq (a b : ex)
| XNext (x : nat).

(** Calls of unknown functions may do anything to a state of the world. *)
Record world := { W : Type; call : nat -> list val -> W -> out * W }.
Section Eval.
  Context (wd : world).
  Definition env := nat -> val.
  Definition st : Type := env * W wd.
  Definition upd (s : env) (x : nat) (v : val) : env := fun y => if Nat.eqb y x then v else s y.
  Definition bind (r : out * st) (k : val -> st -> out * st) : out * st := match r with (OVal v, s) => k v s | r => r end.
  (** A variable in scope while [k] runs; then what it hid is back. *)
  Definition scoped (x : nat) (v : val) (k : st -> out * st) (s : st) : out * st :=
    let '(o, (s', w')) := k (upd (fst s) x v, snd s) in (o, (upd s' x (fst s x), w')).
  Definition typed (t : ty) (o : out) : out := match o with OVal v => if has_ty v t then o else OStuck | o => o end.
  Section Each.
    Variable f : ex -> st -> out * st.
    Fixpoint each (es : list ex) (k : list val -> st -> out * st) (s : st) : out * st :=
      match es with [] => k [] s | e :: es => bind (f e s) (fun v => each es (fun vs => k (v :: vs))) end.
  End Each.
  Definition is_bool (o : out) : bool := match o with OVal (VBool _) => true | _ => false end.
  Definition truth (o : out) : bool := match o with OVal (VBool b) => b | _ => false end.
  (** The variables of a closure have their types, but for those bound inside. *)
  Fixpoint ok_vars (inner : nat -> bool) (e : ex) (s : env) : bool :=
    let also := fun x y => Nat.eqb y x || inner y in
    match e with
    | XVar x t => inner x || has_ty (s x) t
    | XLit _ => true
    | XCall _ _ es | XOp _ es => forallb (fun e => ok_vars inner e s) es
    | XPred _ pre c body post => forallb (fun e => ok_vars inner e s) pre && ok_vars (also c) body s && forallb (fun e => ok_vars inner e s) post
    | XTry e | XAssign _ e => ok_vars inner e s
    | XOr a b | XSeq a b => ok_vars inner a s && ok_vars inner b s
    | XIf c a b => ok_vars inner c s && ok_vars inner a s && ok_vars inner b s
    | XIfSome x e a b => ok_vars inner e s && ok_vars (also x) a s && ok_vars inner b s
    | XLet x e b => ok_vars inner e s && ok_vars (also x) b s
    | XLet2 x y e b => ok_vars inner e s && ok_vars (fun z => Nat.eqb z y || Nat.eqb z x || inner z) b s
    | XNext x => inner x || has_ty (s x) TSlice
    end.
  Fixpoint eval (e : ex) (s : st) : out * st :=
    match e with
    | XVar x t => (typed t (OVal (fst s x)), s)
    | XLit l => (OVal (lit_val l), s)
    | XCall f t es => each eval es (fun vs s => let '(o, w) := call wd f vs (snd s) in (typed t o, (fst s, w))) s
    | XOp o es => each eval es (fun vs s => (apply o vs, s)) s
    | XPred m pre c body post =>
        each eval pre (fun vs s =>
          if ok_vars (Nat.eqb c) body (fst s) then
            each eval post (fun us s =>
              (match vs with
               | VStr r :: vs =>
                   let run := fun ch => fst (eval body (upd (fst s) c (VChar ch), snd s)) in
                   if forallb (fun ch => is_bool (run ch)) r then pmeth_apply m (PSet (fun ch => truth (run ch))) r (vs ++ us) else OStuck
               | _ => OStuck
               end, s)) s
          else (OStuck, s)) s
    | XTry e => bind (eval e s) (fun v s => (match v with VSome v => OVal v | VNone => ORet VNone | _ => OStuck end, s))
    | XOr a b => bind (eval a s) (fun v s => match v with VBool true => (OVal (VBool true), s) | VBool false => eval b s | _ => (OStuck, s) end)
    | XIf c a b => bind (eval c s) (fun v s => match v with VBool true => eval a s | VBool false => eval b s | _ => (OStuck, s) end)
    | XIfSome x e a b => bind (eval e s) (fun v s => match v with VSome v => scoped x v (eval a) s | VNone => eval b s | _ => (OStuck, s) end)
    | XLet x e b => bind (eval e s) (fun v => scoped x v (eval b))
    | XLet2 x y e b => bind (eval e s) (fun v s => match v with VPair u v => scoped x u (scoped y v (eval b)) s | _ => (OStuck, s) end)
    | XAssign x e => bind (eval e s) (fun v s => (OVal VUnit, (upd (fst s) x v, snd s)))
    | XSeq a b => bind (eval a s) (fun _ => eval b)
    | XNext x => match fst s x with VList vs => (OVal (nth_val vs 0), (upd (fst s) x (VList (tl vs)), snd s)) | _ => (OStuck, s) end
    end.
  (** Two programs do the same: the same result, world, and values of the variables. *)
  Definition same (a b : out * st) : Prop := fst a = fst b /\ snd (snd a) = snd (snd b) /\ forall x, fst (snd a) x = fst (snd b) x.
  (** What a well-typed program does, the other does too. *)
  Definition keeps (e e' : ex) : Prop := forall s, fst (eval e s) <> OStuck -> same (eval e' s) (eval e s).
  (** Whether variable [x] of the enclosing scope is read or written, or written. *)
  Fixpoint uses (x : nat) (e : ex) : bool :=
    match e with
    | XVar y _ | XNext y => Nat.eqb x y
    | XLit _ => false
    | XCall _ _ es | XOp _ es => existsb (uses x) es
    | XPred _ pre c body post => existsb (uses x) pre || existsb (uses x) post || negb (Nat.eqb x c) && uses x body
    | XTry e => uses x e
    | XOr a b | XSeq a b => uses x a || uses x b
    | XIf c a b => uses x c || uses x a || uses x b
    | XIfSome y e a b => uses x e || negb (Nat.eqb x y) && uses x a || uses x b
    | XLet y e b => uses x e || negb (Nat.eqb x y) && uses x b
    | XLet2 y z e b => uses x e || negb (Nat.eqb x y || Nat.eqb x z) && uses x b
    | XAssign y e => Nat.eqb x y || uses x e
    end.
  Fixpoint writes (x : nat) (e : ex) : bool :=
    match e with
    | XVar _ _ | XLit _ => false
    | XNext y => Nat.eqb x y
    | XCall _ _ es | XOp _ es => existsb (writes x) es
    | XPred _ pre c body post => existsb (writes x) pre || existsb (writes x) post || negb (Nat.eqb x c) && writes x body
    | XTry e => writes x e
    | XOr a b | XSeq a b => writes x a || writes x b
    | XIf c a b => writes x c || writes x a || writes x b
    | XIfSome y e a b => writes x e || negb (Nat.eqb x y) && writes x a || writes x b
    | XLet y e b => writes x e || negb (Nat.eqb x y) && writes x b
    | XLet2 y z e b => writes x e || negb (Nat.eqb x y || Nat.eqb x z) && writes x b
    | XAssign y e => Nat.eqb x y || writes x e
    end.
End Eval.
