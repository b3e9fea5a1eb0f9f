(** Model of /repo/clippy_lints/src/unnested_or_patterns.rs, with [eq_pat] of /repo/clippy_utils/src/ast_utils/mod.rs. *)
From Coq Require Export List Arith Bool.
Export ListNotations.

(** [ast::PatKind].  A leaf is a literal, path, range or macro call, numbered up to the equality of [eq_expr], [eq_path], ...;
    [range] marks ranges.  `box`, `deref!()`, `&` and `&mut` are [PUn]; slices, tuples and tuple structs (with their path) are
    [PProd].  Names, paths and binding modes are numbers; mode 1 is `mut`.  Left out: `x @ ..`, guard patterns, pinned references, attributes of fields. *)
Inductive un := UDeref | UBox | URef | URefMut.
Inductive prod_kind := KSlice | KTuple | KPath (n : nat).
Inductive pat :=
| PWild | PRest
| PLeaf (range : bool) (n : nat)
| PIdent (mode x : nat) (sub : option pat)
| PUn (u : un) (p : pat)
| PProd (k : prod_kind) (ps : list pat)
| PStruct (path : nat) (fps : list (nat * bool * pat)) (rest : bool)   (* name, shorthand, pattern *)
| POr (ps : list pat)
| PParen (p : pat).

Definition un_eqb (a b : un) : bool := match a, b with UDeref, UDeref | UBox, UBox | URef, URef | URefMut, URefMut => true | _, _ => false end.
Definition kind_eqb (a b : prod_kind) : bool := match a, b with KSlice, KSlice | KTuple, KTuple => true | KPath n, KPath m => Nat.eqb n m | _, _ => false end.
Definition field_name (f : nat * bool * pat) : nat := fst (fst f).
Definition field_pat (f : nat * bool * pat) : pat := snd f.
Definition shorthand (f : nat * bool * pat) : bool := snd (fst f).

(** ** clippy_utils/src/ast_utils/mod.rs:25-84 [unordered_over], [eq_pat], [eq_field_pat]; [over] of clippy_utils/src/hir_utils.rs:1088-1090. *)
Fixpoint unparen (p : pat) : pat := match p with PParen p => unparen p | p => p end.
Definition over {A} (eq : A -> A -> bool) : list A -> list A -> bool :=
  fix go l r := match l, r with [], [] => true | x :: l, y :: r => eq x y && go l r | _, _ => false end.
Fixpoint eq_pat (l r : pat) : bool :=
  match l with
  | PParen l => eq_pat l r
  | PWild => match unparen r with PWild => true | _ => false end
  | PRest => match unparen r with PRest => true | _ => false end
  | PLeaf a n => match unparen r with PLeaf b m => Bool.eqb a b && Nat.eqb n m | _ => false end
  | PIdent m x s =>
      match unparen r with
      | PIdent m' x' s' => Nat.eqb m m' && Nat.eqb x x' && match s, s' with None, None => true | Some p, Some q => eq_pat p q | _, _ => false end
      | _ => false
      end
  | PUn u p => match unparen r with PUn u' q => negb (un_eqb u UDeref) && un_eqb u u' && eq_pat p q | _ => false end
  | PProd k ps => match unparen r with PProd k' qs => kind_eqb k k' && over eq_pat ps qs | _ => false end
  | PStruct n fps rest =>
      match unparen r with
      | PStruct n' fqs rest' =>
          Bool.eqb rest rest' && Nat.eqb n n' && (length fps =? length fqs) &&
          forallb (fun f => existsb (fun g => Nat.eqb (field_name f) (field_name g) && eq_pat (snd f) (snd g)) fqs) fps
      | _ => false
      end
  | POr ps => match unparen r with POr qs => (length ps =? length qs) && forallb (fun p => existsb (eq_pat p) qs) ps | _ => false end
  end.
Definition eq_field_pat (f g : nat * bool * pat) : bool := Nat.eqb (field_name f) (field_name g) && eq_pat (snd f) (snd g).

(** ** unnested_or_patterns.rs:393-436 [extend_with_tail_or], [drain_matching]: [f] is the predicate and the extraction in one. *)
Definition extend (target : pat) (tail : list pat) : pat :=
  match tail with [] => target | _ => match target with POr ps => POr (ps ++ tail) | t => POr (t :: tail) end end.
Fixpoint drain (f : pat -> option pat) (alts : list pat) : list pat * list pat :=
  match alts with
  | [] => ([], [])
  | k :: alts => let '(tail, rest) := drain f alts in match f k with Some p => (p :: tail, rest) | None => (tail, k :: rest) end
  end.
(** unnested_or_patterns.rs:448-454 [eq_pre_post] and the extraction of the pattern in the middle. *)
Definition is_rest (p : pat) : bool := match p with PRest => true | _ => false end.
Definition match_prod (k : prod_kind) (pre : list pat) (t : pat) (post : list pat) (other : pat) : option pat :=
  match other with
  | PProd k' ps =>
      if kind_eqb k k' && (length ps =? length pre + S (length post)) then
        match skipn (length pre) ps with
        | t' :: post' =>
            if Bool.eqb (is_rest t) (is_rest t') && over eq_pat pre (firstn (length pre) ps) && over eq_pat post post' then Some t' else None
        | [] => None
        end
      else None
  | _ => None
  end.
(** unnested_or_patterns.rs:359-380 [extend_with_matching_product]: the first index for which something is drained. *)
Fixpoint prod_loop (k : prod_kind) (pre ps rest : list pat) : option (list pat * list pat) :=
  match ps with
  | [] => None
  | t :: post =>
      match drain (match_prod k pre t post) rest with
      | ([], _) => prod_loop k (pre ++ [t]) post rest
      | (tail, rest) => Some (pre ++ extend t tail :: post, rest)
      end
  end.
(** unnested_or_patterns.rs:313-357 [extend_with_struct_pat]. *)
Definition match_struct (n : nat) (pre : list (nat * bool * pat)) (f : nat * bool * pat) (post : list (nat * bool * pat)) (rest1 : bool) (other : pat) : option pat :=
  match other with
  | PStruct n' fps rest2 =>
      if Bool.eqb rest1 rest2 && Nat.eqb n n' && (length (pre ++ f :: post) =? length fps)
         && forallb (fun g => existsb (eq_field_pat g) fps) pre && forallb (fun g => existsb (eq_field_pat g) fps) post
      then match find (fun g => negb (shorthand f && shorthand g) && Nat.eqb (field_name f) (field_name g)) fps with Some g => Some (field_pat g) | None => None end
      else None
  | _ => None
  end.
Fixpoint struct_loop (n : nat) (pre fps : list (nat * bool * pat)) (rest1 : bool) (rest : list pat) : option (list (nat * bool * pat) * list pat) :=
  match fps with
  | [] => None
  | f :: post =>
      match drain (match_struct n pre f post rest1) rest with
      | ([], _) => struct_loop n (pre ++ [f]) post rest1 rest
      | (tail, rest) => Some (pre ++ (fst f, extend (field_pat f) tail) :: post, rest)
      end
  end.
(** unnested_or_patterns.rs:227-311 [transform_with_focus_on_idx]: the focus and the alternatives after it. *)
Definition match_un (u : un) (other : pat) : option pat := match other with PUn u' p => if un_eqb u u' then Some p else None | _ => None end.
Definition match_ident (m x : nat) (other : pat) : option pat :=
  match other with PIdent m' x' (Some p) => if Nat.eqb m m' && Nat.eqb x x' then Some p else None | _ => None end.
Definition transform (focus : pat) (rest : list pat) : option (pat * list pat) :=
  match focus with
  | PUn u t => if un_eqb u URef then None else
      match drain (match_un u) rest with ([], _) => None | (tail, rest) => Some (PUn u (extend t tail), rest) end
  | PIdent m x (Some t) =>
      match drain (match_ident m x) rest with ([], _) => None | (tail, rest) => Some (PIdent m x (Some (extend t tail)), rest) end
  | PProd k ps => match prod_loop k [] ps rest with Some (ps, rest) => Some (PProd k ps, rest) | None => None end
  | PStruct n fps r => match struct_loop n [] fps r rest with Some (fps, rest) => Some (PStruct n fps r, rest) | None => None end
  | _ => None
  end.

(** ** unnested_or_patterns.rs:168-214 [unnest_or_patterns] *)
(** unnested_or_patterns.rs:182-194: alternatives that are or-patterns are put in place, again and again. *)
Fixpoint flatten (p : pat) : list pat := match p with POr ps => flat_map flatten ps | p => [p] end.
Definition is_or (p : pat) : bool := match p with POr _ => true | _ => false end.
Definition collapse (alts : list pat) : list pat := flat_map flatten alts.
(** unnested_or_patterns.rs:196-202: [n] bounds the number of alternatives after the current one. *)
Fixpoint focus_loop (n : nat) (alts : list pat) : list pat * bool :=
  match n, alts with
  | S n, focus :: rest =>
      match transform focus rest with
      | Some (focus, rest) => let '(rest, _) := focus_loop n rest in (focus :: rest, true)
      | None => let '(rest, c) := focus_loop n rest in (focus :: rest, c)
      end
  | _, alts => (alts, false)
  end.
(** [walk_pat]: every child in order; the flag of the visitor. *)
Definition traverse (f : pat -> option (pat * bool)) : list pat -> option (list pat * bool) :=
  fix go l := match l with
    | [] => Some ([], false)
    | p :: l => match f p, go l with Some (p, a), Some (l, b) => Some (p :: l, a || b) | _, _ => None end
    end.
Definition walk (f : pat -> option (pat * bool)) (p : pat) : option (pat * bool) :=
  match p with
  | PWild | PRest | PLeaf _ _ | PIdent _ _ None => Some (p, false)
  | PIdent m x (Some p) => match f p with Some (p, c) => Some (PIdent m x (Some p), c) | None => None end
  | PUn u p => match f p with Some (p, c) => Some (PUn u p, c) | None => None end
  | PParen p => match f p with Some (p, c) => Some (PParen p, c) | None => None end
  | PProd k ps => match traverse f ps with Some (ps, c) => Some (PProd k ps, c) | None => None end
  | POr ps => match traverse f ps with Some (ps, c) => Some (POr ps, c) | None => None end
  | PStruct n fps r =>
      match traverse f (map field_pat fps) with Some (ps, c) => Some (PStruct n (combine (map fst fps) ps) r, c) | None => None end
  end.
(** unnested_or_patterns.rs:175-208 [visit_pat]; [None]: the fuel has run out. *)
Fixpoint visit (fuel : nat) (p : pat) : option (pat * bool) :=
  match fuel with
  | 0 => None
  | S fuel =>
      match walk (visit fuel) p with
      | Some (POr alts, c) =>
          let '(alts2, c2) := focus_loop (length (collapse alts)) (collapse alts) in
          if existsb is_or alts || c2
          then match walk (visit fuel) (POr alts2) with Some (p, _) => Some (p, true) | None => None end
          else Some (POr alts2, c)
      | r => r
      end
  end.
Fixpoint size (p : pat) : nat :=
  match p with
  | PIdent _ _ (Some p) | PUn _ p | PParen p => S (size p)
  | PProd _ ps | POr ps => S (list_sum (map size ps))
  | PStruct _ fps _ => S (list_sum (map (fun f => size (snd f)) fps))
  | _ => 1
  end.

(** ** Parentheses *)
(** unnested_or_patterns.rs:120-141 [remove_all_parens]: all but the outermost. *)
Fixpoint no_parens (p : pat) : pat :=
  match p with
  | PParen p => no_parens p
  | PIdent m x (Some p) => PIdent m x (Some (no_parens p))
  | PUn u p => PUn u (no_parens p)
  | PProd k ps => PProd k (map no_parens ps)
  | POr ps => POr (map no_parens ps)
  | PStruct n fps r => PStruct n (map (fun f => (fst f, no_parens (snd f))) fps) r
  | p => p
  end.
Definition remove_all_parens (p : pat) : pat := match p with PParen p => PParen (no_parens p) | p => no_parens p end.
(** unnested_or_patterns.rs:143-166 [insert_necessary_parens]. *)
Definition many (p : pat) : bool := match p with POr (_ :: _ :: _) => true | _ => false end.
Definition mut_ident (p : pat) : bool := match p with PIdent 1 _ _ => true | _ => false end.
Definition wrap_if (b : bool) (p : pat) : pat := if b then PParen p else p.
Fixpoint insert_parens (p : pat) : pat :=
  match p with
  | PParen p => PParen (insert_parens p)
  | PIdent m x (Some p) => PIdent m x (Some (wrap_if (many (insert_parens p)) (insert_parens p)))
  | PUn UDeref p => PUn UDeref (insert_parens p)
  | PUn u p => PUn u (wrap_if (many (insert_parens p) || (un_eqb u URef && mut_ident (insert_parens p))) (insert_parens p))
  | PProd k ps => PProd k (map insert_parens ps)
  | POr ps => POr (map insert_parens ps)
  | PStruct n fps r => PStruct n (map (fun f => (fst f, insert_parens (snd f))) fps) r
  | p => p
  end.
(** unnested_or_patterns.rs:93-118 [lint_unnested_or_patterns]: the suggestion. *)
Definition leaf_kind (p : pat) : bool := match p with PIdent _ _ None | PLeaf _ _ | PWild | PRest => true | _ => false end.
Definition unnested_or_patterns (p : pat) : option pat :=
  if leaf_kind p then None
  else let p := remove_all_parens p in
       match visit (size p) p with Some (p, true) => Some (insert_parens p) | _ => None end.
