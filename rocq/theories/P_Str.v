(** C109-C117: lints about strings, their bytes and characters. *)
From Coq Require Import String Ascii.
From Coq Require Import List NArith Arith Lia Bool.
From Verif Require Import StrSpec StrModel StrSplit StrEnv StrLints StrChars StrClosure StrOnce StrReplace StrStrip StrInside.
Import ListNotations.

(** A world for the examples: calls are logged; 0 gives an empty string, 1 and 2 give `a` and `b`, 3 gives unit, 4 the character
    `c`, and 5 its argument. *)
Definition text (s : string) : str := map N_of_ascii (list_ascii_of_string s).
Definition ws : world := {|
  W := list nat;
  call := fun f vs l => (OVal (match f, vs with 0, _ => VStr [] | 1, _ => VStr (text "a") | 2, _ => VStr (text "b") | 4, _ => VChar 99%N | 5, v :: _ => v | _, _ => VUnit end), f :: l) |}.
Definition from (l : list (nat * val)) : env := fun x => fold_right (fun p acc => if Nat.eqb x (fst p) then snd p else acc) VUnit l.
Definition run (l : list (nat * val)) (e : ex) : out * list nat := let '(o, s) := eval ws e (from l, []) in (o, snd s).
Definition lits (s : string) : ex := XLit (LStr (text s)).
Definition litc (c : Ascii.ascii) : ex := XLit (LChar (N_of_ascii c)).
Definition num (n : nat) : ex := XLit (LNum n).
Definition vs (x : nat) : ex := XVar x TStr.
Definition vc (x : nat) : ex := XVar x TChar.
Definition str_v (s : string) : val := VStr (text s).

(** ** C109: splitting into two parts *)
Theorem str_splitn_exact : forall w e e', str_splitn e = Some e' -> forall s, same w (eval w e' s) (eval w e s).
Proof. exact str_splitn_keeps. Qed.
Print Assumptions str_splitn_exact.
(** `let it = s.splitn(2, p); let a = it.next()…; let b = it.next()…;` *)
Theorem split_once_indirect_exact : forall w e e', split_once_indirect e = Some e' -> forall s, same w (eval w e' s) (eval w e s).
Proof. exact split_once_indirect_keeps. Qed.
Print Assumptions split_once_indirect_exact.
Definition split2 (m : pmeth) (s : ex) : ex := XOp (OPat m) [s; num 2; litc "="].
Example splitn_ex :
  let e := XOp OUnwrap [XOp ONth [split2 RSplitN (vs 0); num 1]] in
  str_splitn e = Some (XOp (OField false) [XOp OUnwrap [XOp (OPat RSplitOnce) [vs 0; litc "="]]]) /\
  run [(0, str_v "a=b=c")] e = (OVal (str_v "a=b"), []) /\ run [(0, str_v "abc")] e = (OPanic, []).
Proof. vm_compute. auto. Qed.
Example split_indirect_ex :
  let rest := XCall 3 TOther [vs 2; vs 3] in
  let e := XLet 1 (split2 SplitN (vs 0)) (XLet 2 (XTry (XNext 1)) (XLet 3 (XTry (XNext 1)) rest)) in
  split_once_indirect e = Some (XLet2 2 3 (XTry (XOp (OPat SplitOnce) [vs 0; litc "="])) rest) /\
  run [(0, str_v "a=b=c")] e = (OVal VUnit, [3]) /\ run [(0, str_v "abc")] e = (ORet VNone, []).
Proof. vm_compute. auto. Qed.

(** ** C110: stripping a prefix or suffix *)
(** Where the name put in does not occur, or the `let` whose name is taken has the only uses of it and it is not assigned; the
    variables of the pattern are not assigned in the block, and no slice there ends with `..=`. *)
Theorem manual_strip_partial : forall w fresh m x t p a b e', let e := XIf (XOp (OPat m) [XVar x t; p]) a b in manual_strip fresh e = Some e' ->
  occurs fresh e = false -> inclusive a = false -> (forall y, uses y p = true -> writes y a = false) ->
  match e' with XIfSome y _ _ _ => y = fresh \/ uses y e = false /\ assigned y a = false | _ => True end ->
  forall s, same w (eval w e' s) (eval w e s).
Proof. exact manual_strip_keeps. Qed.
Print Assumptions manual_strip_partial.
Definition tail_of (x : nat) (n : ex) : ex := XOp (OSlice true false false) [vs x; n].
Definition head_of (incl : bool) (x : nat) (n : ex) : ex := XOp (OSlice false true incl) [vs x; XOp OSub [XOp OLen [vs x]; n]].
Definition starts (x : nat) (p : ex) : ex := XOp (OPat StartsWith) [vs x; p].
Definition ends (x : nat) (p : ex) : ex := XOp (OPat EndsWith) [vs x; p].
Example manual_strip_fresh_ex :
  let a := XSeq (XCall 3 TOther [tail_of 0 (num 2)]) (tail_of 0 (XOp OLen [lits "ab"])) in let e := XIf (starts 0 (lits "ab")) a (vs 0) in
  manual_strip 9 e = Some (XIfSome 9 (XOp (OPat StripPrefix) [vs 0; lits "ab"]) (XSeq (XCall 3 TOther [vs 9]) (vs 9)) (vs 0)) /\
  occurs 9 e = false /\ inclusive a = false /\ run [(0, str_v "abc")] e = (OVal (str_v "c"), [3]).
Proof. vm_compute. auto. Qed.
Example manual_strip_let_ex :
  let a := XLet 1 (head_of false 0 (XOp OLen [vs 2])) (XCall 5 TStr [vs 1]) in let e := XIf (ends 0 (vs 2)) a (vs 0) in
  manual_strip 9 e = Some (XIfSome 1 (XOp (OPat StripSuffix) [vs 0; vs 2]) (XCall 5 TStr [vs 1]) (vs 0)) /\
  occurs 9 e = false /\ uses 1 e = false /\ assigned 1 a = false /\ writes 2 a = false /\ run [(0, str_v "abc"); (2, str_v "bc")] e = (OVal (str_v "a"), [5]).
Proof. vm_compute. repeat split. Qed.
(** A slice up to and including an end is taken for one that leaves the end out. *)
Theorem manual_strip_inclusive_refuted : exists w fresh e e' s, manual_strip fresh e = Some e' /\ occurs fresh e = false /\ fst (eval w e s) <> fst (eval w e' s).
Proof.
  exists ws, 9, (XIf (ends 0 (lits "bc")) (head_of true 0 (num 2)) (vs 0)). eexists. exists (from [(0, str_v "abc")], []). split; [vm_compute; reflexivity|]. split; [reflexivity|]. vm_compute. discriminate.
Qed.
(** The pattern may be changed in the block before its length is taken. *)
Theorem manual_strip_pattern_assigned_refuted : exists w fresh e e' s, manual_strip fresh e = Some e' /\ occurs fresh e = false /\ inclusive e = false /\ fst (eval w e s) <> fst (eval w e' s).
Proof.
  exists ws, 9, (XIf (starts 0 (vs 1)) (XSeq (XAssign 1 (lits "")) (tail_of 0 (XOp OLen [vs 1]))) (vs 0)). eexists. exists (from [(0, str_v "abc"); (1, str_v "ab")], []).
  split; [vm_compute; reflexivity|]. split; [reflexivity|]. split; [reflexivity|]. vm_compute. discriminate.
Qed.
(** The name of the `let` is taken for the whole block, where it may mean another variable: the string itself. *)
Theorem manual_strip_shadow_refuted : exists w fresh e e' s, manual_strip fresh e = Some e' /\ occurs fresh e = false /\ inclusive e = false /\ fst (eval w e s) <> fst (eval w e' s).
Proof.
  exists ws, 9, (XIf (starts 0 (lits "a")) (XLet 1 (XOp OLen [vs 0]) (XLet 0 (tail_of 0 (num 1)) (XOp OPair [XVar 1 TNum; vs 0]))) (XOp OPair [num 0; vs 0])). eexists. exists (from [(0, str_v "abc")], []).
  split; [vm_compute; reflexivity|]. split; [reflexivity|]. split; [reflexivity|]. vm_compute. discriminate.
Qed.
Print Assumptions manual_strip_inclusive_refuted. Print Assumptions manual_strip_pattern_assigned_refuted. Print Assumptions manual_strip_shadow_refuted.

(** ** C111: lines and words *)
Theorem trim_split_whitespace_exact : forall w e e', trim_split_whitespace e = Some e' -> forall s, same w (eval w e' s) (eval w e s).
Proof. exact trim_split_whitespace_keeps. Qed.
Print Assumptions trim_split_whitespace_exact.
(** For a string that is not empty, has no white space at its ends, and in which line ends are all written as the argument. *)
Theorem str_split_partial : forall w e e', str_split e = Some e' -> forall s, fst (eval w e s) <> OStuck ->
  (forall x, fst (eval w (trimmed e) s) = OVal (VStr x) -> x <> [] /\ trim x = x /\ exists parts, Forall line parts /\ x = join (sep_of e) parts) ->
  same w (eval w e' s) (eval w e s).
Proof. exact str_split_keeps. Qed.
Print Assumptions str_split_partial.
Definition nl : str := [10%N].
Example str_split_ex :
  let e := XOp (OPat Split) [XOp OTrim [vs 0]; litc "010"] in let x := (text "ab" ++ nl ++ nl ++ text "c")%list in
  str_split e = Some (XOp OLines [vs 0]) /\ trim x = x /\ x = join nl [text "ab"; []; text "c"] /\ Forall line [text "ab"; []; text "c"] /\
  run [(0, VStr x)] e = (OVal (VList [str_v "ab"; str_v ""; str_v "c"]), []).
Proof.
  cbv zeta. split; [reflexivity|]. split; [reflexivity|]. split; [reflexivity|]. split; [|vm_compute; reflexivity].
  repeat constructor; intros H; cbn in H; repeat (destruct H as [H|H]; [discriminate H|]); exact H.
Qed.
Example words_ex : let e := XOp OWords [XOp OTrimEnd [vs 0]] in
  trim_split_whitespace e = Some (XOp OWords [vs 0]) /\ run [(0, str_v " a  bc ")] e = (OVal (VList [str_v "a"; str_v "bc"]), []).
Proof. vm_compute. auto. Qed.
(** An empty string has one part and no line; and the other kind of line end is split too. *)
Theorem str_split_empty_refuted : exists w e e' s, str_split e = Some e' /\ fst (eval w e s) <> OStuck /\ fst (eval w e s) <> fst (eval w e' s).
Proof.
  exists ws, (XOp (OPat Split) [XOp OTrim [vs 0]; XLit (LStr nl)]). eexists. exists (from [(0, str_v "")], []). split; [vm_compute; reflexivity|]. split; vm_compute; discriminate.
Qed.
Theorem str_split_crlf_refuted : exists w e e' s x, str_split e = Some e' /\ fst (eval w (trimmed e) s) = OVal (VStr x) /\ x <> [] /\ trim x = x /\ fst (eval w e s) <> fst (eval w e' s).
Proof.
  exists ws, (XOp (OPat Split) [XOp OTrim [vs 0]; XLit (LStr [13%N; 10%N])]). eexists. exists (from [(0, VStr (text "a" ++ nl ++ text "b"))], []), (text "a" ++ nl ++ text "b").
  split; [vm_compute; reflexivity|]. split; [reflexivity|]. split; [discriminate|]. split; [reflexivity|]. vm_compute. discriminate.
Qed.
Print Assumptions str_split_empty_refuted. Print Assumptions str_split_crlf_refuted.

(** ** C112: consecutive replacements *)
(** Calls of `replace` directly one after the other, for characters known or in variables, where what is put in has none of the
    characters replaced later. *)
Theorem collapsible_str_replace_partial : forall w base froms to e', begins to base -> Forall char_simple froms -> str_simple to -> froms <> [] ->
  collapsible_str_replace (replaces base froms to) = Some e' ->
  forall s, clean (fst (snd (eval w base s))) froms to -> fst (eval w (replaces base froms to) s) <> OStuck -> same w (eval w e' s) (eval w (replaces base froms to) s).
Proof. exact collapsible_str_replace_keeps. Qed.
Print Assumptions collapsible_str_replace_partial.
Example collapsible_ex :
  let e := replaces (XCall 1 TStr []) [litc "a"; vc 1; litc "c"] (lits "z") in
  collapsible_str_replace e = Some (XOp (OPat Replace) [XCall 1 TStr []; XOp OArr [litc "a"; vc 1; litc "c"]; lits "z"]) /\
  begins (lits "z") (XCall 1 TStr []) /\ clean (from [(1, VChar 98%N)]) [litc "a"; vc 1; litc "c"] (lits "z") /\ run [(1, VChar 98%N)] e = (OVal (str_v "z"), [1]).
Proof.
  cbv zeta. split; [vm_compute; reflexivity|]. split; [left; reflexivity|]. split; [|vm_compute; reflexivity].
  intros f d t [<-|[<-|[]]] D T J; vm_compute in D, T; injection D as <-; injection T as <-; destruct J as [J|[]]; discriminate J.
Qed.
(** What the first call puts in the second replaces again; and what stands between two calls is lost. *)
Theorem collapsible_str_replace_again_refuted : exists w base froms to e' s, begins to base /\ Forall char_simple froms /\ str_simple to /\
  collapsible_str_replace (replaces base froms to) = Some e' /\ fst (eval w (replaces base froms to) s) <> OStuck /\ fst (eval w (replaces base froms to) s) <> fst (eval w e' s).
Proof.
  exists ws, (vs 0), [litc "a"; litc "b"], (lits "bb"). eexists. exists (from [(0, str_v "a")], []). split; [left; reflexivity|]. split; [repeat constructor|]. split; [exact I|]. split; [vm_compute; reflexivity|]. split; vm_compute; discriminate.
Qed.
Theorem collapsible_str_replace_between_refuted : exists w e e' s, collapsible_str_replace e = Some e' /\ fst (eval w e s) <> OStuck /\ fst (eval w e s) <> fst (eval w e' s).
Proof.
  exists ws, (replaces (XOp OTrim [XOp (OPat Replace) [vs 0; litc "a"; lits ""]]) [litc "b"; litc "c"] (lits "")). eexists. exists (from [(0, str_v " d ")], []). split; [vm_compute; reflexivity|]. split; vm_compute; discriminate.
Qed.
Print Assumptions collapsible_str_replace_again_refuted. Print Assumptions collapsible_str_replace_between_refuted.

(** ** C113: patterns *)
Theorem single_char_pattern_exact : forall w e e', single_char_pattern e = Some e' -> forall s, same w (eval w e' s) (eval w e s).
Proof. exact single_char_pattern_keeps. Qed.
Theorem search_is_some_str_exact : forall w e e', search_is_some_str e = Some e' -> forall s, same w (eval w e' s) (eval w e s).
Proof. exact search_is_some_str_keeps. Qed.
(** Where the parameter stands on one side of each comparison, and the arguments after the closure assign none of its variables. *)
Theorem manual_pattern_char_comparison_partial : forall w e e', manual_pattern_char_comparison e = Some e' -> borrowed e -> keeps w e e'.
Proof. exact manual_pattern_char_comparison_keeps. Qed.
Print Assumptions single_char_pattern_exact. Print Assumptions search_is_some_str_exact. Print Assumptions manual_pattern_char_comparison_partial.
Example patterns_ex :
  let e1 := XOp (OPat RSplitN) [vs 0; num 2; lits "-"] in let e2 := XOp OIsNone [XOp (OPat Find) [vs 0; lits "bc"]] in
  single_char_pattern e1 = Some (XOp (OPat RSplitN) [vs 0; num 2; litc "-"]) /\ run [(0, str_v "a-b-c")] e1 = (OVal (VList [str_v "c"; str_v "a-b"]), []) /\
  search_is_some_str e2 = Some (XOp ONot [XOp (OPat Contains) [vs 0; lits "bc"]]) /\ run [(0, str_v "abc")] e2 = (OVal (VBool false), []).
Proof. vm_compute. auto. Qed.
Example closure_ex :
  let e := XPred Split [vs 0] 5 (XOr (XOp (OEq false) [vc 5; litc "-"]) (XOr (XOp (OEq false) [vc 1; vc 5]) (XOp (OMatches (MOr [MLit (LChar 43%N); MLit (LChar 42%N)])) [vc 5]))) [] in
  manual_pattern_char_comparison e = Some (XOp (OPat Split) [vs 0; XOp OArr [litc "-"; vc 1; litc "+"; litc "*"]]) /\ borrowed e /\
  run [(0, str_v "a-b c*d"); (1, VChar 32%N)] e = (OVal (VList [str_v "a"; str_v "b"; str_v "c"; str_v "d"]), []).
Proof. cbv zeta. split; [vm_compute; reflexivity|]. split; [|vm_compute; reflexivity]. split; [reflexivity|]. split; [repeat split|]. reflexivity. Qed.
(** `|c| c == c.to_ascii_lowercase()`: the parameter is used where it is not bound. *)
Theorem manual_pattern_char_both_sides_refuted : exists w e e' s, manual_pattern_char_comparison e = Some e' /\ fst (eval w e s) <> OStuck /\ fst (eval w e s) <> fst (eval w e' s).
Proof.
  exists ws, (XPred Contains [vs 0] 5 (XOp (OEq false) [vc 5; XOp OLower [vc 5]]) []). eexists. exists (from [(0, str_v "a")], []). split; [vm_compute; reflexivity|]. split; vm_compute; discriminate.
Qed.
Print Assumptions manual_pattern_char_both_sides_refuted.

(** ** C114: the first or last character *)
(** Where the other side is a character, is a literal if it stands first, and an unwrapped side does not panic. *)
Theorem chars_next_last_cmp_partial : forall w e e', chars_next_last_cmp e = Some e' -> char_operand w e -> in_order e ->
  forall s, fst (eval w e s) <> OStuck -> (unwraps e = true -> fst (eval w e s) <> OPanic) -> same w (eval w e' s) (eval w e s).
Proof. exact chars_next_last_cmp_keeps. Qed.
Print Assumptions chars_next_last_cmp_partial.
Example chars_ex :
  let e := XOp (OEq true) [XOp OLast [XOp OChars [XCall 1 TStr []]]; XOp OSome [XCall 4 TChar []]] in
  chars_next_last_cmp e = Some (XOp ONot [XOp (OPat EndsWith) [XCall 1 TStr []; XCall 4 TChar []]]) /\ char_operand ws e /\ in_order e /\ run [] e = (OVal (VBool true), [4; 1]).
Proof.
  cbv zeta. split; [vm_compute; reflexivity|]. split; [|split; [exact I|vm_compute; reflexivity]]. intros s v s' H. vm_compute in H. injection H as <- _. eauto.
Qed.
Example chars_unwrap_ex :
  let e := XOp (OEq false) [litc "a"; XOp OUnwrap [XOp ONext [XOp OChars [vs 0]]]] in
  chars_next_last_cmp e = Some (XOp (OPat StartsWith) [vs 0; litc "a"]) /\ unwraps e = true /\ run [(0, str_v "ab")] e = (OVal (VBool true), []).
Proof. vm_compute. auto. Qed.
(** The unwrapped side panics on an empty string, the call does not; and a side that stood second is evaluated first. *)
Theorem chars_cmp_unwrap_refuted : exists w e e' s, chars_next_last_cmp e = Some e' /\ char_operand w e /\ in_order e /\ fst (eval w e s) = OPanic /\ fst (eval w e' s) = OVal (VBool false).
Proof.
  exists ws, (XOp (OEq false) [XOp OUnwrap [XOp ONext [XOp OChars [vs 0]]]; litc "a"]). eexists. exists (from [(0, str_v "")], []). split; [vm_compute; reflexivity|]. repeat split.
Qed.
Theorem chars_cmp_order_refuted : exists w e e' s, chars_next_last_cmp e = Some e' /\ char_operand w e /\ unwraps e = false /\ fst (eval w e s) <> OStuck /\ ~ same w (eval w e' s) (eval w e s).
Proof.
  exists ws, (XOp (OEq false) [XOp OSome [XCall 4 TChar []]; XOp ONext [XOp OChars [XCall 1 TStr []]]]). eexists. exists (from [], []). split; [vm_compute; reflexivity|].
  split; [intros s v s' H; vm_compute in H; injection H as <- _; eauto|]. split; [reflexivity|]. split; [vm_compute; discriminate|]. intros (_ & H & _). vm_compute in H. discriminate H.
Qed.
Print Assumptions chars_cmp_unwrap_refuted. Print Assumptions chars_cmp_order_refuted.

(** ** C115: ASCII *)
Theorem manual_is_ascii_check_exact : forall w e e', manual_is_ascii_check e = Some e' -> keeps w e e'.
Proof. exact manual_is_ascii_check_keeps. Qed.
(** Where a literal compared with what is converted is in that case itself. *)
Theorem manual_ignore_case_cmp_partial : forall w e e', manual_ignore_case_cmp e = Some e' -> literal_in_case e -> keeps w e e'.
Proof. exact manual_ignore_case_cmp_keeps. Qed.
Print Assumptions manual_is_ascii_check_exact. Print Assumptions manual_ignore_case_cmp_partial.
Example ascii_ex :
  let e := XOp (OMatches (MOr [MRange (LChar 65%N) (LChar 70%N) true; MRange (LChar 48%N) (LChar 57%N) true; MRange (LChar 97%N) (LChar 102%N) true])) [vc 0] in
  manual_is_ascii_check e = Some (XOp (OAscii AHex) [vc 0]) /\ run [(0, VChar 102%N)] e = (OVal (VBool true), []) /\ run [(0, VChar 103%N)] e = (OVal (VBool false), []).
Proof. vm_compute. auto. Qed.
Example ignore_case_ex :
  let e := XOp (OEq true) [XOp OUpper [vs 0]; lits "ABC1"] in
  manual_ignore_case_cmp e = Some (XOp ONot [XOp OEqIgnore [vs 0; lits "ABC1"]]) /\ literal_in_case e /\ run [(0, str_v "aBc1")] e = (OVal (VBool false), []).
Proof. vm_compute. auto. Qed.
(** `s.to_ascii_lowercase() == "ABC"` never holds. *)
Theorem manual_ignore_case_cmp_literal_refuted : exists w e e' s, manual_ignore_case_cmp e = Some e' /\ fst (eval w e s) = OVal (VBool false) /\ fst (eval w e' s) = OVal (VBool true).
Proof. exists ws, (XOp (OEq false) [XOp OLower [vs 0]; lits "ABC"]). eexists. exists (from [(0, str_v "abc")], []). split; [vm_compute; reflexivity|]. split; reflexivity. Qed.
Print Assumptions manual_ignore_case_cmp_literal_refuted.

(** ** C116: bytes and the ends of slices *)
Theorem bytes_nth_exact : forall w e e', bytes_nth e = Some e' -> forall s, same w (eval w e' s) (eval w e s).
Proof. exact bytes_nth_keeps. Qed.
Theorem bytes_count_to_len_exact : forall w e e', bytes_count_to_len e = Some e' -> forall s, same w (eval w e' s) (eval w e s).
Proof. exact bytes_count_to_len_keeps. Qed.
Theorem needless_as_bytes_exact : forall w e e', needless_as_bytes e = Some e' -> forall s, same w (eval w e' s) (eval w e s).
Proof. exact needless_as_bytes_keeps. Qed.
Theorem get_first_exact : forall w e e', get_first e = Some e' -> forall s, same w (eval w e' s) (eval w e s).
Proof. exact get_first_keeps. Qed.
(** Where the original does not panic. *)
Theorem sliced_string_as_bytes_partial : forall w e e', sliced_string_as_bytes e = Some e' ->
  forall s, fst (eval w e s) <> OStuck -> fst (eval w e s) <> OPanic -> same w (eval w e' s) (eval w e s).
Proof. exact sliced_string_as_bytes_keeps. Qed.
Theorem get_last_with_len_partial : forall w e e', get_last_with_len e = Some e' -> forall s, fst (eval w e s) <> OPanic -> same w (eval w e' s) (eval w e s).
Proof. exact get_last_with_len_keeps. Qed.
Print Assumptions bytes_nth_exact. Print Assumptions bytes_count_to_len_exact. Print Assumptions needless_as_bytes_exact. Print Assumptions get_first_exact.
Print Assumptions sliced_string_as_bytes_partial. Print Assumptions get_last_with_len_partial.
Definition euro : str := [8364%N].
Example bytes_ex :
  let e1 := XOp OUnwrap [XOp ONth [XOp OBytes [vs 0]; num 1]] in let e2 := XOp OCount [XOp OBytes [vs 0]] in let e3 := XOp OIsEmpty [XOp OAsBytes [vs 0]] in
  bytes_nth e1 = Some (XOp OAt [XOp OAsBytes [vs 0]; num 1]) /\ run [(0, VStr euro)] e1 = (OVal (VByte 130%N), []) /\ run [] e1 = (OStuck, []) /\ run [(0, str_v "a")] e1 = (OPanic, []) /\
  bytes_count_to_len e2 = Some (XOp OLen [vs 0]) /\ run [(0, VStr euro)] e2 = (OVal (VNum 3), []) /\
  needless_as_bytes e3 = Some (XOp OIsEmpty [vs 0]) /\ run [(0, str_v "")] e3 = (OVal (VBool true), []).
Proof. vm_compute. repeat split. Qed.
Example slices_ex :
  let l := XVar 1 TSlice in let e1 := XOp OAsBytes [XOp (OSlice true true false) [vs 0; num 1; num 4]] in let e2 := XOp OGet [l; XOp OSub [XOp OLen [l]; num 1]] in
  sliced_string_as_bytes e1 = Some (XOp (OSlice true true false) [XOp OAsBytes [vs 0]; num 1; num 4]) /\ run [(0, VStr (text "a" ++ euro))] e1 = (OVal (VList [VByte 226%N; VByte 130%N; VByte 172%N]), []) /\
  get_last_with_len e2 = Some (XOp OLast [l]) /\ run [(1, VList [VNum 3; VNum 4])] e2 = (OVal (VSome (VNum 4)), []) /\
  get_first (XOp OGet [l; num 0]) = Some (XOp OFirst [l]).
Proof. vm_compute. repeat split. Qed.
(** Inside a character the string cannot be cut, its bytes can; and `len() - 1` of an empty slice overflows. *)
Theorem sliced_string_as_bytes_boundary_refuted : exists w e e' s v, sliced_string_as_bytes e = Some e' /\ fst (eval w e s) = OPanic /\ fst (eval w e' s) = OVal v.
Proof. exists ws, (XOp OAsBytes [XOp (OSlice true false false) [vs 0; num 1]]). eexists. exists (from [(0, VStr euro)], []). eexists. split; [vm_compute; reflexivity|]. split; vm_compute; reflexivity. Qed.
Theorem get_last_with_len_empty_refuted : exists w e e' s, get_last_with_len e = Some e' /\ fst (eval w e s) = OPanic /\ fst (eval w e' s) = OVal VNone.
Proof. exists ws, (XOp OGet [XVar 1 TSlice; XOp OSub [XOp OLen [XVar 1 TSlice]; num 1]]). eexists. exists (from [(1, VList [])], []). split; [vm_compute; reflexivity|]. split; reflexivity. Qed.
Print Assumptions sliced_string_as_bytes_boundary_refuted. Print Assumptions get_last_with_len_empty_refuted.

(** ** C117: repetition *)
Theorem repeat_once_exact : forall w e e', repeat_once e = Some e' -> forall s, same w (eval w e' s) (eval w e s).
Proof. exact repeat_once_keeps. Qed.
Theorem manual_str_repeat_exact : forall w e e', manual_str_repeat e = Some e' -> forall s, same w (eval w e' s) (eval w e s).
Proof. exact manual_str_repeat_keeps. Qed.
Print Assumptions repeat_once_exact. Print Assumptions manual_str_repeat_exact.
Example repeat_ex :
  let e1 := XOp ORepeat [vs 0; num 1] in let e2 := XOp OCollect [XOp OTake [XOp OIterRepeat [litc "x"]; num 3]] in
  repeat_once e1 = Some (XOp OToString [vs 0]) /\ run [(0, str_v "ab")] e1 = (OVal (str_v "ab"), []) /\
  manual_str_repeat e2 = Some (XOp ORepeat [lits "x"; num 3]) /\ run [] e2 = (OVal (str_v "xxx"), []).
Proof. vm_compute. auto. Qed.

(** ** Anywhere in a program *)
(** The suggestions that are right without conditions are right wherever in a program they are made (outside of the closures of
    patterns), however many of them. *)
Definition exact_lint (e e' : ex) : Prop :=
  str_splitn e = Some e' \/ split_once_indirect e = Some e' \/ trim_split_whitespace e = Some e' \/ single_char_pattern e = Some e' \/ search_is_some_str e = Some e' \/
  bytes_nth e = Some e' \/ bytes_count_to_len e = Some e' \/ needless_as_bytes e = Some e' \/ get_first e = Some e' \/ repeat_once e = Some e' \/ manual_str_repeat e = Some e'.
Theorem str_lints_anywhere : forall w e e', inside exact_lint e e' -> forall s, same w (eval w e' s) (eval w e s).
Proof.
  intros w e e' I. apply (inside_same w exact_lint); [|exact I]. clear. intros e e' H s. unfold exact_lint in H.
  repeat (destruct H as [H|H]; [solve [eauto using str_splitn_keeps, split_once_indirect_keeps, trim_split_whitespace_keeps, single_char_pattern_keeps, search_is_some_str_keeps, bytes_nth_keeps, bytes_count_to_len_keeps, needless_as_bytes_keeps, get_first_keeps, repeat_once_keeps]|]).
  eapply manual_str_repeat_keeps. exact H.
Qed.
Print Assumptions str_lints_anywhere.
Example anywhere_ex : inside exact_lint
  (XLet 1 (XOp OCount [XOp OBytes [vs 0]]) (XIf (XOp OIsSome [XOp (OPat Find) [vs 0; lits "a"]]) (XVar 1 TNum) (num 0)))
  (XLet 1 (XOp OLen [vs 0]) (XIf (XOp (OPat Contains) [vs 0; lits "a"]) (XVar 1 TNum) (num 0))).
Proof.
  apply in_let; [apply in_here; unfold exact_lint; vm_compute; tauto|]. apply in_if; [apply in_here; unfold exact_lint; vm_compute; tauto|apply in_same|apply in_same].
Qed.
