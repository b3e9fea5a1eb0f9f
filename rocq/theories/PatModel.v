(** Model of two lints about range patterns:
    /repo/clippy_lints/src/manual_range_patterns.rs and matches/overlapping_arms.rs. *)
From Coq Require Export List ZArith Bool.
From Verif Require Export ConstModel.
Export ListNotations.
Open Scope Z_scope.

(** ** Patterns *)

(** [PatExpr]: an integer literal with an optional minus sign; [POtherExpr] any other expression. *)
Inductive pat_expr := PLit (negated : bool) (num : Z) | POtherExpr.
(** [RangeEnd]. *)
Inductive range_end := Included | Excluded.
(** [PatKind::Expr], [PatKind::Range] with both ends, and every other pattern. *)
Inductive pat := PExpr (e : pat_expr) | PRange (l r : pat_expr) (k : range_end) | POther.

Definition i128_max : Z := 2 ^ 127 - 1.
Definition i128_min : Z := - 2 ^ 127.

(** ** manual_range_patterns.rs *)

(** manual_range_patterns.rs:44-55 [expr_as_i128]. *)
Definition expr_as_i128 (e : pat_expr) : option Z :=
  match e with
  | PLit negated num => if num <=? i128_max then Some (if negated then - num else num) else None
  | POtherExpr => None
  end.
(** manual_range_patterns.rs:57-80 [Num]: the value, and the expression its text is taken from
    ([None] for [DUMMY_SP]). *)
Record num := { val : Z; text : option pat_expr }.
Definition num_new (e : pat_expr) : option num :=
  match expr_as_i128 e with Some v => Some {| val := v; text := Some e |} | None => None end.
Definition num_min (a b : num) : num := if val a <? val b then a else b.

(** The state of the loop of [check_pat], manual_range_patterns.rs:92-96. *)
Record scan := { smin : num; smax : num; kind : range_end; numbers : list Z; ranges : list (Z * Z) }.
Definition scan0 : scan :=
  {| smin := {| val := i128_max; text := None |}; smax := {| val := i128_min; text := None |};
     kind := Included; numbers := []; ranges := [] |}.
(** manual_range_patterns.rs:98-126: one turn of the loop; [None] is the [return]. *)
Definition scan_step (s : scan) (p : pat) : option scan :=
  match p with
  | PExpr lit =>
      match num_new lit with
      | Some n =>
          Some {| smin := num_min (smin s) n;
                  smax := if val (smax s) <=? val n then n else smax s;
                  kind := if val (smax s) <=? val n then Included else kind s;
                  numbers := val n :: numbers s; ranges := ranges s |}
      | None => None
      end
  | PRange l r end_ =>
      match num_new l, num_new r with
      | Some l, Some r0 =>
          let r := match end_ with Excluded => {| val := val r0 - 1; text := text r0 |} | Included => r0 end in
          Some {| smin := num_min (smin s) l;
                  smax := if val (smax s) <? val r then r else smax s;
                  kind := if val (smax s) <? val r then end_ else kind s;
                  numbers := numbers s; ranges := ranges s ++ [(val l, val r)] |}
      | _, _ => None
      end
  | POther => None
  end.
Fixpoint scan_all (s : scan) (l : list pat) : option scan :=
  match l with
  | [] => Some s
  | p :: l => match scan_step s p with Some s => scan_all s l | None => None end
  end.

(** [ranges_found.iter().filter(|r| r.contains(&num)).max_by_key(|r| r.end())]. *)
Definition best_range (rs : list (Z * Z)) (n : Z) : option (Z * Z) :=
  fold_left (fun best r =>
    if (fst r <=? n) && (n <=? snd r)
    then match best with Some b => if snd b <=? snd r then Some r else best | None => Some r end
    else best) rs None.
(** [num + 1] on i128 without overflow checks. *)
Definition succ_i128 (n : Z) : Z := if n =? i128_max then i128_min else n + 1.
(** manual_range_patterns.rs:128-144: the [while] loop; [true] if it ends normally.  Every turn uses up
    a number or a range; the fuel given below is shown to suffice. *)
Fixpoint covers (fuel : nat) (s : scan) (n : Z) : bool :=
  if n <=? val (smax s) then
    match fuel with
    | O => false
    | S fuel =>
        if existsb (Z.eqb n) (numbers s) then covers fuel s (succ_i128 n)
        else match best_range (ranges s) n with
             | Some r => covers fuel s (succ_i128 (snd r))
             | None => false
             end
    end
  else true.

Definition is_range (p : pat) : bool := match p with PRange _ _ _ => true | _ => false end.
(** manual_range_patterns.rs:82-165 [check_pat] on an or-pattern: the offered range. *)
Definition manual_range_patterns (pats : list pat) : option pat :=
  if (3 <=? length pats)%nat || ((1 <? length pats)%nat && existsb is_range pats)
  then match scan_all scan0 pats with
       | Some s =>
           if covers (length pats) s (val (smin s))
           then match text (smin s), text (smax s) with
                | Some mn, Some mx => Some (PRange mn mx (kind s))
                | _, _ => None
                end
           else None
       | None => None
       end
  else None.

(** ** overlapping_arms.rs *)

(** overlapping_arms.rs:73-83 [EndBound], [SpannedRange]: [span] identifies the pattern. *)
Record spanned := { span : nat; start : Z; stop : Z; stop_kind : range_end }.
Definition spanned_eqb (a b : spanned) : bool :=
  (span a =? span b)%nat && (start a =? start b) && (stop a =? stop b)
  && match stop_kind a, stop_kind b with Included, Included | Excluded, Excluded => true | _, _ => false end.

(** overlapping_arms.rs:89-94 [BoundKind] in its derived order. *)
Inductive bound_kind := EndExcluded | Start | EndIncluded.
Definition kind_rank (k : bound_kind) : Z := match k with EndExcluded => 0 | Start => 1 | EndIncluded => 2 end.
Definition range_bound := (Z * bound_kind * spanned)%type.
(** overlapping_arms.rs:99-110: order of [RangeBound]s. *)
Definition bound_leb (a b : range_bound) : bool :=
  let '(v, k, _) := a in let '(w, l, _) := b in
  (v <? w) || ((v =? w) && (kind_rank k <=? kind_rank l)).
(** overlapping_arms.rs:112-120: the list of bounds. *)
Definition bounds_of (r : spanned) : list range_bound :=
  [(start r, Start, r); (stop r, match stop_kind r with Excluded => EndExcluded | Included => EndIncluded end, r)].
(** [sort] is stable: modelled as insertion sort. *)
Fixpoint insert (x : range_bound) (l : list range_bound) : list range_bound :=
  match l with
  | [] => [x]
  | y :: l' => if bound_leb x y then x :: l else y :: insert x l'
  end.
Fixpoint sort_bounds (l : list range_bound) : list range_bound :=
  match l with [] => [] | x :: l => insert x (sort_bounds l) end.
(** overlapping_arms.rs:130-139: pop until [range] is found; the last other range popped, and the rest. *)
Fixpoint pop_until (r : spanned) (started : list spanned) (overlap : option spanned) : option spanned * list spanned :=
  match started with
  | [] => (overlap, [])
  | x :: st => if spanned_eqb x r then (overlap, st) else pop_until r st (Some x)
  end.
(** overlapping_arms.rs:124-147: the sweep (the top of [started] is its head). *)
Fixpoint sweep (values : list range_bound) (started : list spanned) : option (spanned * spanned) :=
  match values with
  | [] => None
  | (_, Start, r) :: values => sweep values (r :: started)
  | (_, _, r) :: values =>
      match pop_until r started None with
      | (Some o, _) => Some (r, o)
      | (None, st) => sweep values st
      end
  end.
(** overlapping_arms.rs:85-150 [overlapping]. *)
Definition overlapping (rs : list spanned) : option (spanned * spanned) :=
  sweep (sort_bounds (flat_map bounds_of rs)) [].

(** An arm: its guard flag and its pattern, whose bounds are constants as [eval_pat_expr] finds them
    (outer [None]: not a constant; in [ARange] an absent bound is [None]). *)
Inductive arm_pat := ARange (l r : option (option constant)) (k : range_end) | AExpr (c : option constant) | AOther.
Record arm := { guarded : bool; pattern : arm_pat }.
(** /repo/clippy_utils/src/consts.rs:297-340 [new_numeric_min], [new_numeric_max] on integer types. *)
Definition new_numeric_min (p : ptrw) (t : ity) : constant :=
  CInt (if ity_signed t then (imin p t) mod 2 ^ 128 else 0).
Definition new_numeric_max (p : ptrw) (t : ity) : constant := CInt (imax p t).
Definition fullint_z (f : fullint) : Z := match f with FS z | FU z => z end.
(** overlapping_arms.rs:30-71: one arm of [all_ranges].  The order of [FullInt]s is the order of the
    integers they stand for (P_Const.v, C28), so the bounds are kept as integers. *)
Definition arm_range (p : ptrw) (t : ity) (i : nat) (a : arm) : option spanned :=
  if guarded a then None
  else
    let value c := option_map fullint_z (int_value p c (Some (TI t))) in
    match pattern a with
    | ARange l r k =>
        let lhs := match l with Some c => c | None => Some (new_numeric_min p t) end in
        let rhs := match r with Some c => c | None => Some (new_numeric_max p t) end in
        match lhs, rhs with
        | Some lc, Some rc =>
            match value lc, value rc with
            | Some lv, Some rv => Some {| span := i; start := lv; stop := rv; stop_kind := k |}
            | _, _ => None
            end
        | _, _ => None
        end
    | AExpr (Some c) =>
        match value c with Some v => Some {| span := i; start := v; stop := v; stop_kind := Included |} | None => None end
    | AExpr None | AOther => None
    end.
Fixpoint all_ranges (p : ptrw) (t : ity) (i : nat) (arms : list arm) : list spanned :=
  match arms with
  | [] => []
  | a :: arms =>
      match arm_range p t i a with
      | Some r => r :: all_ranges p t (S i) arms
      | None => all_ranges p t (S i) arms
      end
  end.
(** overlapping_arms.rs:11-28 [check]: the two arms reported, by index. *)
Definition overlapping_arms (p : ptrw) (t : ity) (arms : list arm) : option (nat * nat) :=
  if (2 <=? length arms)%nat
  then match overlapping (all_ranges p t 0 arms) with Some (a, b) => Some (span a, span b) | None => None end
  else None.
