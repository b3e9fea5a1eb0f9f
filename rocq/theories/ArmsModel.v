(** Model of match_same_arms, /repo/clippy_lints/src/matches/match_same_arms.rs: which patterns overlap, which arms are grouped, and how they are merged. *)
From Coq Require Export List Arith ZArith Bool Lia.
From Verif Require SameModel.
Export ListNotations.

(** ** Patterns
    A part of rustc's [PatKind].  Names, definitions and enum variants are numbers ([variant] is also the variant of a struct).  Left out: guards inside patterns
    and erroneous patterns. *)
Definition name := nat. Definition def := nat. Definition variant := nat.
Inductive val :=
| VInt (z : Z) | VBool (b : bool) | VStr (s : nat)
| VTup (vs : list val) | VSlice (vs : list val) | VAdt (k : variant) (fs : list (name * val)).
(** [LInt]: integers, characters and bytes.  [LOther]: negative integers and floats, with their value. *)
Inductive lit := LInt (n : Z) | LOther (v : val) | LBool (b : bool) | LStr (s : nat) | LBytes (s : list Z).
(** [BOther]: a bound that is negative or a path, with its value. *)
Inductive bound := BLit (n : Z) | BOther (z : Z).
(** What type checking knows is put beside each pattern: the variant that is meant, whether it is one of an enum, the number of fields, the least and largest value of the type of a range.
    [res] is what the path resolves to ([None] for `Self`).  [PPath] is a unit struct or variant ([inl]), or a constant ([inr]) with the values equal to it. *)
Inductive pat :=
| PWild
| PNever
| PBind (x : name) (sub : option pat)
| PDeref (p : pat)
| PStruct (res : option def) (k : variant) (fs : list (name * pat))
| PTupleStruct (res : option def) (k : variant) (is_enum : bool) (nfields : nat) (ps : list pat) (dd : option nat)
| PTuple (arity : nat) (ps : list pat) (dd : option nat)
| POr (ps : list pat)
| PPath (res : option def) (what : variant + (val -> bool))
| PLit (l : lit)
| PRange (least largest : Z) (lo hi : option bound) (inclusive : bool)
| PSlice (front : list pat) (mid : option (option pat)) (back : list pat).

(** ** match_same_arms.rs:184-211 *)
Inductive npat :=
| NWild
| NNever
| NStruct (res : option def) (fs : list (name * npat))
| NTuple (res : option def) (ps : list npat)
| NOr (ps : list npat)
| NPath (res : option def)
| NStr (s : nat)
| NBytes (s : list Z)
| NInt (n : Z)
| NBool (b : bool)
| NRange (start stop : Z) (inclusive : bool)
| NSlice (front : list npat) (back : option (list npat)).

(** [sort_by_key] of the fields, line 276: an insertion sort, stable. *)
Fixpoint insert_field (f : name * npat) (fs : list (name * npat)) : list (name * npat) :=
  match fs with
  | [] => [f]
  | g :: fs => if fst f <=? fst g then f :: g :: fs else g :: insert_field f fs
  end.
Definition sort_fields (fs : list (name * npat)) : list (name * npat) := fold_right insert_field [] fs.
(** Lines 291-301 and 315-325: wildcards in the place of `..`. *)
Definition spread (n : nat) (dd : option nat) (ps : list npat) : list npat :=
  let '(front, back) := match dd with Some i => (firstn i ps, skipn i ps) | None => (ps, []) end in
  front ++ repeat NWild (n - length ps) ++ back.
Definition u128_max : Z := 2 ^ 128 - 1.
(** Lines 263-376 [NormalizedPat::from_pat]. *)
Fixpoint from_pat (p : pat) : npat :=
  match p with
  | PWild | PBind _ None => NWild
  | PBind _ (Some p) | PDeref p => from_pat p
  | PNever => NNever
  | PStruct res _ fs => NStruct res (sort_fields (map (fun f => (fst f, from_pat (snd f))) fs))
  | PTupleStruct res _ is_enum n ps dd =>
      if is_enum then match res with Some x => NTuple (Some x) (spread n dd (map from_pat ps)) | None => NWild end
      else NTuple None (spread n dd (map from_pat ps))
  | POr ps => NOr (map from_pat ps)
  | PPath res _ => NPath res
  | PTuple n ps dd => NTuple None (spread n dd (map from_pat ps))
  | PLit (LInt n) => NInt n
  | PLit (LOther _) => NWild
  | PLit (LBool b) => NBool b
  | PLit (LStr s) => NStr s
  | PLit (LBytes s) => NBytes s
  | PRange _ _ lo hi i =>
      match lo, hi with
      | Some (BOther _), _ | _, Some (BOther _) => NWild
      | lo, hi =>
          let start := match lo with Some (BLit n) => n | _ => 0%Z end in
          match hi with Some (BLit n) => NRange start n i | _ => NRange start u128_max true end
      end
  | PSlice front mid back => NSlice (map from_pat front) (match mid with Some _ => Some (map from_pat back) | None => None end)
  end.

(** Lines 212-232 [PatRange]. *)
Definition contains (start stop : Z) (incl : bool) (x : Z) : bool := ((start <=? x) && if incl then x <=? stop else x <? stop)%Z.
Definition ranges_overlap (start stop : Z) (incl : bool) (start' stop' : Z) (incl' : bool) : bool :=
  ((if incl then start' <=? stop else start' <? stop) && (if incl' then start <=? stop' else start <? stop'))%Z.
(** Lines 235-259 [iter_matching_struct_fields]: what [next] yields, one pair after the other. *)
Fixpoint matching_fields (n : nat) (left right : list (name * npat)) : list (npat * npat) :=
  match n, left, right with
  | S n, l :: left', r :: right' =>
      match Nat.compare (fst l) (fst r) with
      | Datatypes.Eq => (snd l, snd r) :: matching_fields n left' right'
      | Datatypes.Lt => matching_fields n left' right
      | Datatypes.Gt => matching_fields n left right'
      end
  | _, _, _ => []
  end.
Definition res_eqb (a b : option def) : bool := match a, b with Some x, Some y => Nat.eqb x y | None, None => true | _, _ => false end.
Definition bytes_eqb (a b : list Z) : bool := if list_eq_dec Z.eq_dec a b then true else false.
Definition all2 (f : npat -> npat -> bool) (l : list (npat * npat)) : bool := forallb (fun p => f (fst p) (snd p)) l.
Fixpoint npat_size (p : npat) : nat :=
  match p with
  | NStruct _ fs => S (list_sum (map (fun f => npat_size (snd f)) fs))
  | NTuple _ ps | NOr ps => S (list_sum (map npat_size ps))
  | NSlice front back => S (list_sum (map npat_size front) + match back with Some back => list_sum (map npat_size back) | None => 0 end)
  | _ => 1
  end.
Definition last_n {A} (n : nat) (l : list A) : list A := skipn (length l - n) l.
(** Lines 380-436 [has_overlapping_values].  Fuel: the sizes of the patterns; without, they overlap. *)
Fixpoint overlaps (n : nat) (p q : npat) : bool :=
  match n with
  | 0 => true
  | S n =>
      match p, q with
      | NWild, _ | _, NWild | NNever, NNever => true
      | NOr ps, other => existsb (fun p => overlaps n p other) ps
      | other, NOr ps => existsb (fun p => overlaps n p other) ps
      | NStruct l lfs, NStruct r rfs => res_eqb l r && all2 (overlaps n) (matching_fields (length lfs + length rfs) lfs rfs)
      | NTuple l lps, NTuple r rps => res_eqb l r && all2 (overlaps n) (combine lps rps)
      | NPath x, NPath y => res_eqb x y
      | NStr x, NStr y => Nat.eqb x y
      | NBytes x, NBytes y => bytes_eqb x y
      | NInt x, NInt y => (x =? y)%Z
      | NBool x, NBool y => Bool.eqb x y
      | NRange a b i, NRange c d j => ranges_overlap a b i c d j
      | NRange a b i, NInt x | NInt x, NRange a b i => contains a b i x
      | NSlice l None, NSlice r None => (length l =? length r) && all2 (overlaps n) (combine l r)
      | NSlice ps None, NSlice front (Some back) | NSlice front (Some back), NSlice ps None =>
          if length ps <? length front + length back then false
          else all2 (overlaps n) (combine (firstn (length front) ps) front ++ combine (last_n (length back) ps) back)
      | NSlice lf (Some lb), NSlice rf (Some rb) => all2 (overlaps n) (combine lf rf ++ combine (rev lb) (rev rb))
      | NPath _, (NTuple _ _ | NStruct _ _) | (NTuple _ _ | NStruct _ _), NPath _ => false
      | NTuple x _, NStruct y _ | NStruct x _, NTuple y _ => res_eqb x y
      | _, _ => true
      end
  end.
Definition has_overlapping_values (p q : npat) : bool := overlaps (npat_size p + npat_size q) p q.

(** ** The lint, lines 21-174 *)
Section Lint.
  Context {G B : Type}.
  Record arm := { a_pat : pat; a_guard : option G; a_body : B }.
  (** Lines 62-102: [same l r], guards and bodies are equal up to the bindings of the patterns; [hash] of the body, line 22. *)
  Variable same : arm -> arm -> bool.
  Variable hash : arm -> list Z.

  Fixpoint find_map {X Y} (f : X -> option Y) (l : list X) : option Y :=
    match l with [] => None | x :: l => match f x with Some y => Some y | None => find_map f l end end.
  Fixpoint skip_while {X} (f : X -> bool) (l : list X) : list X :=
    match l with [] => [] | x :: l => if f x then skip_while f l else x :: l end.
  Definition enumerate {X} (k : nat) (l : list X) : list (nat * X) := combine (seq k (length l)) l.
  (** Lines 31-39. *)
  Definition forwards_blocking_idxs (ps : list npat) : list nat :=
    map (fun ip => match find_map (fun jq => if has_overlapping_values (snd ip) (snd jq) then Some (fst jq) else None)
                                  (enumerate (S (fst ip)) (skipn (S (fst ip)) ps)) with Some j => j | None => length ps end)
        (enumerate 0 ps).
  (** Lines 42-56. *)
  Definition backwards_blocking_idxs (ps : list npat) : list nat :=
    let fwd := forwards_blocking_idxs ps in
    map (fun ip => let '(i, p) := ip in
           match find_map (fun jf => let '((j, other), forward_block) := jf in
                                     if (forward_block =? i) || has_overlapping_values p other then Some j else None)
                          (skip_while (fun jf => i <? snd jf) (combine (rev (enumerate 0 (firstn i ps))) (rev (firstn i fwd)))) with
           | Some j => j | None => 0 end)
        (enumerate 0 ps).
  Definition norm (arms : list arm) : list npat := map (fun a => from_pat (a_pat a)) arms.
  Definition fwd (arms : list arm) (i : nat) : nat := nth i (forwards_blocking_idxs (norm arms)) 0.
  Definition bwd (arms : list arm) (i : nat) : nat := nth i (backwards_blocking_idxs (norm arms)) 0.
  (** Lines 58-109. *)
  Definition eq_arms (arms : list arm) (l r : nat * arm) : bool :=
    let lo := Nat.min (fst l) (fst r) in let hi := Nat.max (fst l) (fst r) in
    negb ((lo <? bwd arms hi) && (fwd arms lo <? hi)) && same (snd l) (snd r).
  (** Lines 111-114; no arm has attributes. *)
  Definition groups (arms : list arm) : list (list (nat * arm)) :=
    SameModel.search_same (fun x => hash (snd x)) (eq_arms arms) (enumerate 0 arms).
  (** Lines 456-462. *)
  Definition is_wildcard_arm (p : pat) : bool :=
    match p with PWild => true | POr ps => match last ps PNever with PWild => true | _ => false end | _ => false end.
  (** The arms without some, and with the pattern of one replaced. *)
  Definition edit (arms : list arm) (removed : list nat) (replaced : option (nat * pat)) : list arm :=
    flat_map (fun ia => let '(i, a) := ia in
      if existsb (Nat.eqb i) removed then []
      else match replaced with
           | Some (j, p) => if i =? j then [{| a_pat := p; a_guard := a_guard a; a_body := a_body a |}] else [a]
           | None => [a]
           end) (enumerate 0 arms).
  (** Lines 128-170: the suggested arms.  [allowed]: [is_lint_allowed] of `non_exhaustive_omitted_patterns`. *)
  Definition suggest (allowed : bool) (arms : list arm) (group : list (nat * arm)) : option (list arm) :=
    match group, rev group with
    | (first_idx, _) :: _, (last_idx, last_arm) :: _ =>
        if is_wildcard_arm (a_pat last_arm) && allowed then Some (edit arms (map fst (removelast group)) None)
        else
          let back_block := bwd arms last_idx in
          let merged := POr (map (fun ia => a_pat (snd ia)) group) in
          if (back_block <? first_idx) || ((back_block =? 0) && (fwd arms first_idx <=? last_idx))
          then Some (edit arms (map fst (tl group)) (Some (first_idx, merged)))
          else Some (edit arms (map fst (removelast group)) (Some (last_idx, merged)))
    | _, _ => None
    end.
End Lint.
Arguments arm : clear implicits.
