(** What patterns match and what a `match` does, independent of the lint. *)
From Verif Require Export ArmsModel.

(** ** Patterns
    References, boxes and smart pointers are not told apart from what they point to.  The ways in which a pattern matches a value, in the order in which the alternatives of
    or-patterns are tried; each way is the values of the bindings.  A tuple or tuple struct has as many fields as its type says. *)
Definition env := list (name * val).
Definition pairs (a b : list env) : list env := flat_map (fun x => map (fun y => x ++ y) b) a.
Section Seq.
  Variable f : pat -> val -> list env.
  (** One pattern for each value. *)
  Definition each := fix go (ps : list pat) (vs : list val) : list env :=
    match ps, vs with [], [] => [[]] | p :: ps, v :: vs => pairs (f p v) (go ps vs) | _, _ => [] end.
  (** The same, where `..` stands before pattern [dd] for any number of values. *)
  Definition some (dd : option nat) := fix go (i : nat) (ps : list pat) (vs : list val) : list env :=
    let vs := match dd with Some d => if d =? i then skipn (length vs - length ps) vs else vs | None => vs end in
    match ps, vs with [], [] => [[]] | p :: ps, v :: vs => pairs (f p v) (go (S i) ps vs) | _, _ => [] end.
  Fixpoint field (x : name) (fs : list (name * val)) : option val :=
    match fs with [] => None | (y, v) :: fs => if Nat.eqb x y then Some v else field x fs end.
  Definition by_name (vs : list (name * val)) := fix go (fs : list (name * pat)) : list env :=
    match fs with [] => [[]] | (x, p) :: fs => match field x vs with Some v => pairs (f p v) (go fs) | None => [] end end.
End Seq.
Fixpoint val_eqb (a b : val) : bool :=
  match a, b with
  | VInt x, VInt y => (x =? y)%Z
  | VBool x, VBool y => Bool.eqb x y
  | VStr x, VStr y => Nat.eqb x y
  | VTup xs, VTup ys | VSlice xs, VSlice ys =>
      (fix go xs ys := match xs, ys with [], [] => true | x :: xs, y :: ys => val_eqb x y && go xs ys | _, _ => false end) xs ys
  | VAdt k xs, VAdt l ys =>
      Nat.eqb k l && (fix go xs ys := match xs, ys with [], [] => true | (n, x) :: xs, (m, y) :: ys => Nat.eqb n m && val_eqb x y && go xs ys | _, _ => false end) xs ys
  | _, _ => false
  end.
Definition when (b : bool) : list env := if b then [[]] else [].
Definition bound_value (b : bound) : Z := match b with BLit n => n | BOther z => z end.
Fixpoint ways (p : pat) (v : val) : list env :=
  match p with
  | PWild => [[]]
  | PNever => []
  | PBind x None => [[(x, v)]]
  | PBind x (Some p) => map (cons (x, v)) (ways p v)
  | PDeref p => ways p v
  | PStruct _ k fs => match v with VAdt l vs => if Nat.eqb k l then by_name ways vs fs else [] | _ => [] end
  | PTupleStruct _ k _ n ps dd => match v with VAdt l vs => if Nat.eqb k l && (length vs =? n) then some ways dd 0 ps (map snd vs) else [] | _ => [] end
  | PTuple n ps dd => match v with VTup vs => if length vs =? n then some ways dd 0 ps vs else [] | _ => [] end
  | POr ps => flat_map (fun p => ways p v) ps
  | PPath _ (inl k) => match v with VAdt l _ => when (Nat.eqb k l) | _ => [] end
  | PPath _ (inr c) => when (c v)
  | PLit (LInt n) => match v with VInt z => when (n =? z)%Z | _ => [] end
  | PLit (LOther u) => when (val_eqb u v)
  | PLit (LBool b) => match v with VBool c => when (Bool.eqb b c) | _ => [] end
  | PLit (LStr s) => match v with VStr t => when (Nat.eqb s t) | _ => [] end
  | PLit (LBytes s) => when (val_eqb (VSlice (map VInt s)) v)
  | PRange least largest lo hi incl =>
      match v with
      | VInt z =>
          when ((least <=? z) && (z <=? largest) && (match lo with Some b => bound_value b <=? z | None => true end)
                && (match hi with Some b => if incl then z <=? bound_value b else z <? bound_value b | None => true end))%Z
      | _ => []
      end
  | PSlice front mid back =>
      match v with
      | VSlice vs =>
          let l := length front in let n := length vs in let r := length back in
          let inner := firstn (n - l - r) (skipn l vs) in
          if n <? l + r then []
          else pairs (each ways front (firstn l vs))
                 (pairs (match mid with None => match inner with [] => [[]] | _ => [] end | Some None => [[]] | Some (Some p) => ways p (VSlice inner) end)
                        (each ways back (skipn (n - r) vs)))
      | _ => []
      end
  end.
Definition matched (p : pat) (v : val) : Prop := ways p v <> [].

(** ** `match` *)
Section Match.
  Context {G B S R : Type}.
  (** What a guard and a body do: a guard may change the state, and may panic. *)
  Variable guard_ : G -> env -> S -> option (bool * S).
  Variable body_ : B -> env -> S -> R.
  Inductive outcome := Ran (r : R) | Failed | Unmatched.
  (** For each way in which the pattern matches the guard is tried. *)
  Fixpoint try (g : option G) (b : B) (ws : list env) (otherwise : S -> outcome) (s : S) : outcome :=
    match ws with
    | [] => otherwise s
    | w :: ws =>
        match g with
        | None => Ran (body_ b w s)
        | Some g' => match guard_ g' w s with None => Failed | Some (true, s) => Ran (body_ b w s) | Some (false, s) => try g b ws otherwise s end
        end
    end.
  Fixpoint run (arms : list (arm G B)) (v : val) (s : S) : outcome :=
    match arms with [] => Unmatched | a :: arms => try (a_guard a) (a_body a) (ways (a_pat a) v) (run arms v) s end.
  (** Guards and bodies that do the same. *)
  Definition agree (a b : arm G B) : Prop :=
    (match a_guard a, a_guard b with None, None => True | Some g, Some h => forall e s, guard_ g e s = guard_ h e s | _, _ => False end) /\
    (forall e s, body_ (a_body a) e s = body_ (a_body b) e s).
End Match.
Arguments outcome : clear implicits.

(** ** Patterns whose definitions have one name each *)
(** The shape of the fields of a struct or variant, whether it is a variant of an enum, and the one definition by which patterns refer to it. *)
Inductive shape := Unit | Tuple (n : nat) | Fields.
Record types := { t_shape : variant -> shape; t_enum : variant -> bool; t_name : variant -> def }.
Definition room (dd : option nat) (n : nat) (ps : list pat) : bool :=
  match dd with Some d => (d <=? length ps) && (length ps <=? n) | None => length ps =? n end.
(** A struct or variant with named fields is matched with braces, and so may be a variant with fields in parentheses. *)
Definition braces (t : types) (k : variant) : bool := match t_shape t k with Fields => true | Tuple _ => t_enum t k | Unit => false end.
(** Constants do not occur; tuple structs, and structs and variants without fields, are not matched with braces; `Self` does not occur; ranges without a start are of unsigned types. *)
Fixpoint regular (t : types) (p : pat) : bool :=
  match p with
  | PWild | PNever | PBind _ None => true
  | PBind _ (Some p) | PDeref p => regular t p
  | PStruct res k fs => res_eqb res (Some (t_name t k)) && braces t k && forallb (fun f => regular t (snd f)) fs
  | PTupleStruct res k e n ps dd =>
      res_eqb res (Some (t_name t k)) && Bool.eqb e (t_enum t k) && (match t_shape t k with Tuple m => n =? m | _ => false end)
      && room dd n ps && forallb (regular t) ps
  | PTuple n ps dd => room dd n ps && forallb (regular t) ps
  | POr ps => forallb (regular t) ps
  | PPath res (inl k) => res_eqb res (Some (t_name t k)) && (match t_shape t k with Unit => true | _ => false end)
  | PPath _ (inr _) => false
  | PLit _ => true
  | PRange least largest lo _ _ => (match lo with None => (0 <=? least)%Z | _ => true end) && (largest <=? u128_max)%Z
  | PSlice front mid back =>
      forallb (regular t) front && forallb (regular t) back && match mid with Some (Some p) => regular t p | Some None => true | None => match back with [] => true | _ => false end end
  end.
(** The names a pattern binds. *)
Fixpoint binders (p : pat) : list name :=
  match p with
  | PBind x None => [x]
  | PBind x (Some p) => x :: binders p
  | PDeref p => binders p
  | PStruct _ _ fs => flat_map (fun f => binders (snd f)) fs
  | PTupleStruct _ _ _ _ ps _ | PTuple _ ps _ | POr ps => flat_map binders ps
  | PSlice front mid back => flat_map binders front ++ match mid with Some (Some p) => binders p | _ => [] end ++ flat_map binders back
  | _ => []
  end.
