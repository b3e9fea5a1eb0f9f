(** The lints about strings (clippy_lints/src/methods and others).  Each function takes an expression and gives what the
    lint suggests in its place.  Left out: macros, spans and the minimum supported version; snippets are the expressions
    themselves; constants are literals. *)
From Verif Require Export StrSpec.

(** The type of an expression, as far as it is known from its form (clippy asks the type checker). *)
Definition ty_lit (l : lit) : ty := match l with LStr _ => TStr | LChar _ => TChar | LByte _ => TByte | LNum _ => TNum | LBool _ => TBool end.
Fixpoint ty_of (e : ex) : ty :=
  match e with
  | XVar _ t | XCall _ t _ => t
  | XLit l => ty_lit l
  | XOp (OTrim | OTrimStart | OTrimEnd) _ => TStr
  | XOp (OPat (Replace | ReplaceN) | OToString) _ => TString
  | XOp OAsBytes _ => TSlice
  | XOp (OSlice _ _ _) (e :: _) => match ty_of e with TString => TStr | t => t end
  | XOp (OLower | OUpper) (e :: _) => match ty_of e with TStr => TString | t => t end
  | _ => TOther
  end.
Definition ty_eqb (a b : ty) : bool :=
  match a, b with
  | TStr, TStr | TString, TString | TSlice, TSlice | TChar, TChar | TByte, TByte | TNum, TNum | TBool, TBool | TOther, TOther => true
  | _, _ => false
  end.
Definition stringish (t : ty) : bool := match t with TStr | TString => true | _ => false end.
Definition is_local (x : nat) (e : ex) : bool := match e with XVar y _ => Nat.eqb x y | _ => false end.

(** [eq_expr_value], clippy_utils/src/hir_utils.rs: the same expression, and without side effects. *)
Definition lit_eqb (a b : lit) : bool :=
  match a, b with
  | LStr x, LStr y => str_eqb x y
  | LChar x, LChar y | LByte x, LByte y => N.eqb x y
  | LNum x, LNum y => Nat.eqb x y
  | LBool x, LBool y => Bool.eqb x y
  | _, _ => false
  end.
Fixpoint eq_value (a b : ex) : bool :=
  match a, b with
  | XVar x t, XVar y u => Nat.eqb x y && ty_eqb t u
  | XLit l, XLit m => lit_eqb l m
  | XOp (OField k) [a], XOp (OField l) [b] => Bool.eqb k l && eq_value a b
  | XOp OAt [a; i], XOp OAt [b; j] => eq_value a b && eq_value i j
  | _, _ => false
  end.

(** ** methods/str_splitn.rs *)
(** Lines 255-272. *)
Inductive usage_kind := Nth (n : nat) | NextTuple.
Inductive unwrap_kind := Unwrap | QuestionMark.
(** Lines 274-370 [parse_iter_usage], read from the outside: the iterator, how it is used, and that use around another
    expression. *)
Definition iter_use (e : ex) : option (ex * usage_kind * (ex -> ex)) :=
  match e with
  | XOp ONext [XOp OSkip [i; XLit (LNum n)]] => Some (i, Nth n, fun i => XOp ONext [XOp OSkip [i; XLit (LNum n)]])
  | XOp ONext [i] => Some (i, Nth 0, fun i => XOp ONext [i])
  | XOp ONth [i; XLit (LNum n)] => Some (i, Nth n, fun i => XOp ONth [i; XLit (LNum n)])
  | XOp ONextTuple [i] => Some (i, NextTuple, fun i => XOp ONextTuple [i])
  | _ => None
  end.
Definition parse_iter_usage (e : ex) : option (ex * usage_kind * option unwrap_kind * (ex -> ex)) :=
  match e with
  | XOp OUnwrap [u] => match iter_use u with Some (i, Nth n, k) => Some (i, Nth n, Some Unwrap, fun i => XOp OUnwrap [k i]) | _ => None end
  | XTry u => match iter_use u with Some (i, Nth n, k) => Some (i, Nth n, Some QuestionMark, fun i => XTry (k i)) | _ => None end
  | u => match iter_use u with Some (i, n, k) => Some (i, n, None, k) | None => None end
  end.
(** methods/mod.rs:5810-5813: `splitn` or `rsplitn` (then [true]) with a constant number; the same receiver and pattern
    with another method. *)
Definition splitn_call (e : ex) : option (bool * nat * (pmeth -> ex)) :=
  match e with
  | XOp (OPat SplitN) [s; XLit (LNum n); p] => Some (false, n, fun m => XOp (OPat m) [s; p])
  | XOp (OPat RSplitN) [s; XLit (LNum n); p] => Some (true, n, fun m => XOp (OPat m) [s; p])
  | XPred SplitN [s; XLit (LNum n)] c body [] => Some (false, n, fun m => XPred m [s] c body [])
  | XPred RSplitN [s; XLit (LNum n)] c body [] => Some (true, n, fun m => XPred m [s] c body [])
  | _ => None
  end.
(** Lines 32-35. *)
Definition needless (count : nat) (k : usage_kind) : bool := match k with Nth n => n + 1 <? count | NextTuple => 2 <? count end.
(** Lines 67-113. *)
Definition check_manual_split_once (reverse : bool) (mk : pmeth -> ex) (k : usage_kind) (u : option unwrap_kind) : option ex :=
  let once := mk (if reverse then RSplitOnce else SplitOnce) in
  let second := negb reverse in
  match k with
  | NextTuple => Some (if reverse then XOp OMapSwap [once] else once)
  | Nth 1 =>
      Some match u with
           | Some Unwrap => XOp (OField second) [XOp OUnwrap [once]]
           | Some QuestionMark => XOp (OField second) [XTry once]
           | None => XOp (OMapField second) [once]
           end
  | Nth _ => None
  end.
(** Lines 19-65. *)
Definition str_splitn (e : ex) : option ex :=
  match parse_iter_usage e with
  | Some (i, k, u, around) =>
      match splitn_call i with
      | Some (reverse, count, mk) =>
          if count <? 2 then None
          else if needless count k then Some (around (mk (if reverse then RSplit else Split)))
          else if Nat.eqb count 2 then check_manual_split_once reverse mk k u
          else None
      | None => None
      end
  | None => None
  end.
(** Lines 193-253 [indirect_usage]: `it.next().unwrap()` and `it.next()?`. *)
Definition indirect_usage (it : nat) (e : ex) : option unwrap_kind :=
  match e with
  | XOp OUnwrap [XNext x] => if Nat.eqb it x then Some Unwrap else None
  | XTry (XNext x) => if Nat.eqb it x then Some QuestionMark else None
  | _ => None
  end.
Definition unwrap_kind_eqb (a b : unwrap_kind) : bool := match a, b with Unwrap, Unwrap | QuestionMark, QuestionMark => true | _, _ => false end.
(** Lines 115-183 [check_manual_split_once_indirect].  Bindings have identities in the compiler, names here: a variable
    named like the iterator is another one. *)
Definition split_once_indirect (e : ex) : option ex :=
  match e with
  | XLet it i (XLet a ua (XLet b ub rest)) =>
      match splitn_call i, indirect_usage it ua, indirect_usage it ub with
      | Some (reverse, count, mk), Some ka, Some kb =>
          if Nat.eqb count 2 && negb (Nat.eqb a it) && unwrap_kind_eqb ka kb && negb (Nat.eqb a b) && (Nat.eqb b it || negb (uses it rest)) then
            let once := mk (if reverse then RSplitOnce else SplitOnce) in
            let init := match ka with Unwrap => XOp OUnwrap [once] | QuestionMark => XTry once end in
            Some (if reverse then XLet2 b a init rest else XLet2 a b init rest)
          else None
      | _, _, _ => None
      end
  | _ => None
  end.

(** ** methods/str_split.rs:16-48: `s.trim().split(newline)`. *)
Definition str_split (e : ex) : option ex :=
  match e with
  | XOp (OPat Split) [XOp OTrim [s]; XLit l] =>
      match s, l with
      | XLit _, _ => None
      | _, LChar 10%N | _, LStr [10%N] | _, LStr [13%N; 10%N] => Some (XOp OLines [s])
      | _, _ => None
      end
  | _ => None
  end.
(** strings.rs:446-469 [TrimSplitWhitespace]. *)
Definition trim_split_whitespace (e : ex) : option ex :=
  match e with XOp OWords [XOp (OTrim | OTrimStart | OTrimEnd) [s]] => Some (XOp OWords [s]) | _ => None end.

(** ** methods/collapsible_str_replace.rs *)
(** Lines 41-65 [collect_replace_calls]: the calls found, from the outside to the inside, each with its receiver and what it
    replaces; [true] if the search was broken off. *)
Fixpoint collect_replace_calls (to : ex) (e : ex) : list (ex * ex) * bool :=
  let all := fix all (es : list ex) : list (ex * ex) * bool :=
    match es with
    | [] => ([], false)
    | e :: es => let '(found, stop) := collect_replace_calls to e in if stop then (found, true) else let '(more, stop) := all es in (found ++ more, stop)
    end in
  match e with
  | XOp (OPat Replace) [r; f; t] =>
      if eq_value to t && ty_eqb (ty_of f) TChar then let '(more, stop) := all [r; f; t] in ((r, f) :: more, stop) else ([], true)
  | XCall _ _ es | XOp _ es => all es
  | XTry e | XAssign _ e => all [e]
  | XPred _ pre _ _ post => let '(found, stop) := all pre in if stop then (found, true) else let '(more, stop) := all post in (found ++ more, stop)
  | XOr a b | XSeq a b | XLet _ a b | XLet2 _ _ a b => all [a; b]
  | XIf c a b | XIfSome _ c a b => all [c; a; b]
  | XVar _ _ | XLit _ | XNext _ => ([], false)
  end.
(** Lines 13-34 and 67-96.  Whether the parent was linted already is left out. *)
Definition collapsible_str_replace (e : ex) : option ex :=
  match e with
  | XOp (OPat Replace) [XOp (OPat Replace) [_; _; _]; _; to] =>
      let calls := fst (collect_replace_calls to e) in
      match rev calls with
      | (r, _) :: _ :: _ => Some (XOp (OPat Replace) [r; XOp OArr (map snd (rev calls)); to])
      | _ => None
      end
  | _ => None
  end.

(** ** manual_strip.rs *)
Inductive strip_kind := Prefix | Suffix.
(** Lines 155-175. *)
Definition len_arg (e : ex) : option ex := match e with XOp OLen [a] => if ty_eqb (ty_of a) TStr then Some a else None | _ => None end.
Definition constant_length (e : ex) : option nat :=
  match e with XLit (LStr s) => Some (blen s) | XLit (LChar c) => Some (length (enc c)) | _ => None end.
(** Lines 177-193. *)
Definition eq_pattern_length (p e : ex) : bool :=
  match e with
  | XLit (LNum n) => match constant_length p with Some m => Nat.eqb n m | None => false end
  | _ => match len_arg e with Some a => eq_value p a | None => false end
  end.
(** Lines 235-268. *)
Definition stripping (k : strip_kind) (target : nat) (p e : ex) : bool :=
  match e with
  | XOp (OSlice lo hi _) (XVar x t :: r) =>
      stringish t && Nat.eqb x target &&
      match k, lo, hi, r with
      | Prefix, true, false, [start] => eq_pattern_length p start
      | Suffix, false, true, [XOp OSub [lhs; rhs]] =>
          match len_arg lhs with Some l => is_local target l && eq_pattern_length p rhs | None => false end
      | _, _, _, _ => false
      end
  | _ => false
  end.
Section Strip.
  Variables (k : strip_kind) (target : nat) (p : ex).
  (** A variable of the same name as one of those compared is another one. *)
  Definition hides (x : nat) : bool := Nat.eqb x target || uses x p.
  (** Lines 212-289 [find_stripping]: the first of the strippings, with the variable whose `let` it initialises; closures are
      not visited. *)
  Definition first {A} (a b : option A) : option A := match a with Some _ => a | None => b end.
  Fixpoint find_stripping (e : ex) : option (option nat) :=
    let all := fix all (es : list ex) : option (option nat) := match es with [] => None | e :: es => first (find_stripping e) (all es) end in
    let under := fun (x : nat) (r : option (option nat)) => if hides x then None else r in
    if stripping k target p e then Some None
    else match e with
         | XVar _ _ | XLit _ | XNext _ => None
         | XCall _ _ es | XOp _ es => all es
         | XPred _ pre _ _ post => first (all pre) (all post)
         | XTry e | XAssign _ e => find_stripping e
         | XOr a b | XSeq a b => first (find_stripping a) (find_stripping b)
         | XIf c a b => first (find_stripping c) (first (find_stripping a) (find_stripping b))
         | XIfSome x e a b => first (find_stripping e) (first (under x (find_stripping a)) (find_stripping b))
         | XLet x e b => if stripping k target p e then Some (Some x) else first (find_stripping e) (under x (find_stripping b))
         | XLet2 x y e b => first (find_stripping e) (under x (under y (find_stripping b)))
         end.
  (** Lines 273-278: how often a variable of that name is bound. *)
  Fixpoint bindings (x : nat) (e : ex) : nat :=
    let is := fun y : nat => if Nat.eqb x y then 1 else 0 in
    match e with
    | XVar _ _ | XLit _ | XNext _ => 0
    | XCall _ _ es | XOp _ es => list_sum (map (bindings x) es)
    | XPred _ pre _ _ post => list_sum (map (bindings x) pre) + list_sum (map (bindings x) post)
    | XTry e | XAssign _ e => bindings x e
    | XOr a b | XSeq a b => bindings x a + bindings x b
    | XIf c a b => bindings x c + bindings x a + bindings x b
    | XIfSome y e a b => is y + bindings x e + bindings x a + bindings x b
    | XLet y e b => is y + bindings x e + bindings x b
    | XLet2 y z e b => is y + is z + bindings x e + bindings x b
    end.
  (** Lines 121-149: every stripping becomes [y]; if [drop], the `let` of [y] is removed. *)
  Fixpoint rewrite (drop : bool) (y : nat) (e : ex) : ex :=
    let rw := rewrite drop y in
    let under := fun (x : nat) (b : ex) (b' : ex) => if hides x then b else b' in
    if stripping k target p e then XVar y TStr
    else match e with
         | XVar _ _ | XLit _ | XNext _ => e
         | XCall f t es => XCall f t (map rw es)
         | XOp o es => XOp o (map rw es)
         | XPred m pre c body post => XPred m (map rw pre) c body (map rw post)
         | XTry e => XTry (rw e)
         | XAssign x e => XAssign x (rw e)
         | XOr a b => XOr (rw a) (rw b)
         | XSeq a b => XSeq (rw a) (rw b)
         | XIf c a b => XIf (rw c) (rw a) (rw b)
         | XIfSome x e a b => XIfSome x (rw e) (under x a (rw a)) (rw b)
         | XLet x e b =>
             if drop && Nat.eqb x y && stripping k target p e then under x b (rw b) else XLet x (rw e) (under x b (rw b))
         | XLet2 x z e b => XLet2 x z (rw e) (under x b (under z b (rw b)))
         end.
End Strip.
(** Lines 71-152.  [fresh] is the name put for the placeholder. *)
Definition manual_strip (fresh : nat) (e : ex) : option ex :=
  match e with
  | XIf (XOp (OPat m) [XVar x t; p]) a b =>
      let sugg := fun k m' =>
        if writes x a then None
        else match find_stripping k x p a with
             | Some (Some y) => if Nat.eqb (bindings y a) 1 then Some (XIfSome y (XOp (OPat m') [XVar x t; p]) (rewrite k x p true y a) b)
                                else Some (XIfSome fresh (XOp (OPat m') [XVar x t; p]) (rewrite k x p false fresh a) b)
             | Some None => Some (XIfSome fresh (XOp (OPat m') [XVar x t; p]) (rewrite k x p false fresh a) b)
             | None => None
             end in
      match m with StartsWith => sugg Prefix StripPrefix | EndsWith => sugg Suffix StripSuffix | _ => None end
  | _ => None
  end.

(** ** Comparisons of the first or last character *)
(** methods/chars_cmp.rs:13-50, chars_next_cmp.rs, chars_last_cmp.rs: [chain] compared with [other]. *)
Definition chars_cmp (last : op) (m : pmeth) (chain other : ex) (ne : bool) : option ex :=
  match chain, other with
  | XOp l [XOp OChars [s]], XOp OSome [c] =>
      if match l, last with ONext, ONext | OLast, OLast | ONextBack, ONextBack => true | _, _ => false end then
        let call := XOp (OPat m) [s; c] in Some (if ne then XOp ONot [call] else call)
      else None
  | _, _ => None
  end.
(** methods/chars_cmp_with_unwrap.rs:13-42, chars_next_cmp_with_unwrap.rs, chars_last_cmp_with_unwrap.rs. *)
Definition chars_cmp_with_unwrap (last : op) (m : pmeth) (chain other : ex) (ne : bool) : option ex :=
  match chain, other with
  | XOp OUnwrap [XOp l [XOp OChars [s]]], XLit (LChar c) =>
      if match l, last with ONext, ONext | OLast, OLast | ONextBack, ONextBack => true | _, _ => false end then
        let call := XOp (OPat m) [s; XLit (LChar c)] in Some (if ne then XOp ONot [call] else call)
      else None
  | _, _ => None
  end.
(** methods/mod.rs:6078-6096 [lint_binary_expr_with_method_call]: each of the lints with both sides. *)
Fixpoint first_of {A} (l : list (option A)) : option A := match l with [] => None | Some a :: _ => Some a | None :: l => first_of l end.
Definition chars_next_last_cmp (e : ex) : option ex :=
  match e with
  | XOp (OEq ne) [l; r] =>
      first_of (flat_map (fun f : ex -> ex -> bool -> option ex => [f l r ne; f r l ne])
        [chars_cmp ONext StartsWith; chars_cmp OLast EndsWith; chars_cmp ONextBack EndsWith;
         chars_cmp_with_unwrap ONext StartsWith; chars_cmp_with_unwrap OLast EndsWith; chars_cmp_with_unwrap ONextBack EndsWith])
  | _ => None
  end.

(** ** Bytes *)
(** methods/bytes_nth.rs:14-52. *)
Definition bytes_nth (e : ex) : option ex :=
  match e with
  | XOp OUnwrap [XOp ONth [XOp OBytes [s]; n]] => if stringish (ty_of s) then Some (XOp OAt [XOp OAsBytes [s]; n]) else None
  | XOp ONth [XOp OBytes [s]; n] => if stringish (ty_of s) then Some (XOp OCopied [XOp OGet [XOp OAsBytes [s]; n]]) else None
  | _ => None
  end.
(** methods/bytes_count_to_len.rs:11-37. *)
Definition bytes_count_to_len (e : ex) : option ex :=
  match e with XOp OCount [XOp OBytes [s]] => if stringish (ty_of s) then Some (XOp OLen [s]) else None | _ => None end.
(** methods/needless_as_bytes.rs:12-27, called at methods/mod.rs:5582-5586 and 5622-5624. *)
Definition needless_as_bytes (e : ex) : option ex :=
  match e with
  | XOp OLen [XOp (OAsBytes | OBytes) [s]] => if stringish (ty_of s) then Some (XOp OLen [s]) else None
  | XOp OIsEmpty [XOp (OAsBytes | OBytes) [s]] => if stringish (ty_of s) then Some (XOp OIsEmpty [s]) else None
  | _ => None
  end.
(** methods/sliced_string_as_bytes.rs:12-36. *)
Definition sliced_string_as_bytes (e : ex) : option ex :=
  match e with
  | XOp OAsBytes [XOp (OSlice lo hi incl) (s :: r)] =>
      if (lo || hi) && stringish (ty_of s) then Some (XOp (OSlice lo hi incl) (XOp OAsBytes [s] :: r)) else None
  | _ => None
  end.
(** methods/get_first.rs:14-54: of a slice. *)
Definition get_first (e : ex) : option ex := match e with XOp OGet [s; XLit (LNum 0)] => Some (XOp OFirst [s]) | _ => None end.
(** methods/get_last_with_len.rs:12-52. *)
Definition get_last_with_len (e : ex) : option ex :=
  match e with
  | XOp OGet [s; XOp OSub [XOp OLen [s']; XLit (LNum 1)]] => if eq_value s s' && ty_eqb (ty_of s) TSlice then Some (XOp OLast [s]) else None
  | _ => None
  end.

(** ** Patterns of the methods of strings *)
(** clippy_utils/src/source.rs:782-822 [str_literal_to_char_literal] with [ascii_only]. *)
Definition str_literal_to_char_literal (e : ex) : option ex :=
  match e with XLit (LStr s) => match s with [c] => if Nat.eqb (blen s) 1 then Some (XLit (LChar c)) else None | _ => None end | _ => None end.
(** string_patterns.rs:90-113 [PATTERN_METHODS]: all methods but those that strip. *)
Definition pattern_method (m : pmeth) : option nat := match m with StripPrefix | StripSuffix => None | SplitN | RSplitN => Some 1 | _ => Some 0 end.
(** Lines 115-128 and 229-246. *)
Definition single_char_pattern (e : ex) : option ex :=
  match e with
  | XOp (OPat m) (s :: args) =>
      match pattern_method m with
      | Some pos =>
          match nth_error args pos with
          | Some p => match str_literal_to_char_literal p with
                      | Some c => Some (XOp (OPat m) (s :: firstn pos args ++ c :: skipn (S pos) args))
                      | None => None
                      end
          | None => None
          end
      | None => None
      end
  | _ => None
  end.
(** Lines 130-139 [get_char_span]; [switch_to_eager_eval] (clippy_utils/src/eager_or_lazy.rs) for variables, literals, fields
    and changes of case. *)
Fixpoint eager (e : ex) : bool :=
  match e with XVar _ _ | XLit _ => true | XOp (OField _ | OLower | OUpper) [e] => eager e | _ => false end.
Definition char_span (e : ex) : bool := ty_eqb (ty_of e) TChar && eager e.
(** Lines 146-192: the characters compared with parameter [c]. *)
Fixpoint pat_chars (p : mpat) : option (list ex) :=
  match p with
  | MLit (LChar c) => Some [XLit (LChar c)]
  | MLit _ => Some []
  | MOr ps => (fix all ps := match ps with [] => Some [] | p :: ps => match pat_chars p, all ps with Some a, Some b => Some (a ++ b) | _, _ => None end end) ps
  | _ => None
  end.
Fixpoint compared (c : nat) (e : ex) : option (list ex) :=
  match e with
  | XOp (OEq false) [l; r] =>
      if is_local c l && char_span r then Some [r] else if is_local c r && char_span l then Some [l] else None
  | XOr a b => match compared c a, compared c b with Some x, Some y => Some (x ++ y) | _, _ => None end
  | XOp (OMatches p) [v] => if is_local c v then pat_chars p else None
  | _ => None
  end.
(** Lines 141-227 [check_manual_pattern_char_comparison]. *)
Definition manual_pattern_char_comparison (e : ex) : option ex :=
  match e with
  | XPred m (s :: pre) c body post =>
      match pattern_method m, compared c body with
      | Some _, Some cs => Some (XOp (OPat m) (s :: pre ++ match cs with [x] => x | _ => XOp OArr cs end :: post))
      | _, _ => None
      end
  | _ => None
  end.
(** methods/search_is_some.rs:101-148: `find` of a string in a string. *)
Definition search_is_some_str (e : ex) : option ex :=
  match e with
  | XOp OIsSome [XOp (OPat Find) [s; p]] => if stringish (ty_of s) && stringish (ty_of p) then Some (XOp (OPat Contains) [s; p]) else None
  | XOp OIsNone [XOp (OPat Find) [s; p]] => if stringish (ty_of s) && stringish (ty_of p) then Some (XOp ONot [XOp (OPat Contains) [s; p]]) else None
  | _ => None
  end.

(** ** ASCII *)
(** manual_ignore_case_cmp.rs:45-78. *)
Inductive match_type := ToAscii (lower : bool) | Literal.
Definition get_ascii_type (e : ex) : option (ex * match_type) :=
  match e with
  | XOp OLower [a] => match ty_of a with TChar | TByte | TStr | TString | TSlice => Some (a, ToAscii true) | _ => None end
  | XOp OUpper [a] => match ty_of a with TChar | TByte | TStr | TString | TSlice => Some (a, ToAscii false) | _ => None end
  | XLit l => Some (XLit l, Literal)
  | _ => None
  end.
(** Lines 81-126. *)
Definition manual_ignore_case_cmp (e : ex) : option ex :=
  match e with
  | XOp (OEq ne) [l; r] =>
      match get_ascii_type l, get_ascii_type r with
      | Some (a, kl), Some (b, kr) =>
          if match kl, kr with ToAscii x, ToAscii y => Bool.eqb x y | Literal, Literal => false | _, _ => true end then
            let call := XOp OEqIgnore [a; b] in Some (if ne then XOp ONot [call] else call)
          else None
      | _, _ => None
      end
  | _ => None
  end.
(** manual_is_ascii_check.rs:73-90. *)
Inductive char_range := LowerChar | UpperChar | FullChar | Digit | LowerHexLetter | UpperHexLetter | HexDigit | Otherwise.
Definition range_eqb (a b : char_range) : bool :=
  match a, b with
  | LowerChar, LowerChar | UpperChar, UpperChar | FullChar, FullChar | Digit, Digit | LowerHexLetter, LowerHexLetter
  | UpperHexLetter, UpperHexLetter | HexDigit, HexDigit | Otherwise, Otherwise => true
  | _, _ => false
  end.
(** Lines 231-240 [check_lit_range]. *)
Definition check_codes (lo hi : N) : char_range :=
  let is := fun a b : N => N.eqb lo a && N.eqb hi b in
  if is 97%N 122%N then LowerChar
  else if is 65%N 90%N then UpperChar
  else if is 97%N 102%N then LowerHexLetter
  else if is 65%N 70%N then UpperHexLetter
  else if is 48%N 57%N then Digit
  else Otherwise.
Definition check_lit_range (lo hi : lit) : char_range :=
  match lo, hi with LChar a, LChar b | LByte a, LByte b => check_codes a b | _, _ => Otherwise end.
(** Lines 183-203 [check_pat]. *)
Fixpoint check_pat (p : mpat) : char_range :=
  match p with
  | MOr ps =>
      let ranges := map check_pat ps in
      let has := fun r => existsb (range_eqb r) ranges in
      if Nat.eqb (length ranges) 2 && has UpperChar && has LowerChar then FullChar
      else if Nat.eqb (length ranges) 3 && has Digit && has LowerHexLetter && has UpperHexLetter then HexDigit
      else Otherwise
  | MRange lo hi true => check_lit_range lo hi
  | _ => Otherwise
  end.
(** Lines 150-164. *)
Definition ascii_method (r : char_range) : option ascii :=
  match r with
  | UpperChar => Some AUpper
  | LowerChar => Some ALower
  | FullChar => Some AAlpha
  | Digit => Some ADigit
  | HexDigit => Some AHex
  | Otherwise | LowerHexLetter | UpperHexLetter => None
  end.
(** Lines 92-136. *)
Definition manual_is_ascii_check (e : ex) : option ex :=
  let sugg := fun r v => match ascii_method r with Some k => Some (XOp (OAscii k) [v]) | None => None end in
  match e with
  | XOp (OMatches p) [v] => sugg (check_pat p) v
  | XOp (OInRange true) [XLit lo; XLit hi; v] => sugg (check_lit_range lo hi) v
  | _ => None
  end.

(** ** Repetition *)
(** methods/repeat_once.rs:12-52. *)
Definition repeat_once (e : ex) : option ex :=
  match e with
  | XOp ORepeat [s; XLit (LNum 1)] =>
      match ty_of s with TStr => Some (XOp OToString [s]) | TSlice => Some (XOp OToVec [s]) | TString => Some (XOp OClone [s]) | _ => None end
  | _ => None
  end.
(** methods/manual_str_repeat.rs:16-98: a character literal becomes a string literal. *)
Definition parse_repeat_arg (e : ex) : option ex :=
  match e with
  | XLit (LStr s) => Some (XLit (LStr s))
  | XLit (LChar c) => Some (XLit (LStr [c]))
  | XLit _ => None
  | _ => if stringish (ty_of e) then Some e else None
  end.
Definition manual_str_repeat (e : ex) : option ex :=
  match e with
  | XOp OCollect [XOp OTake [XOp OIterRepeat [a]; n]] => match parse_repeat_arg a with Some a => Some (XOp ORepeat [a; n]) | None => None end
  | _ => None
  end.
