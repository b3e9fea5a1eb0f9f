(** Rust's expression grammar, as far as the operators go: the parser of the compiler, and the trees it builds. *)
From Verif Require Export SuggModel.

(** The operators from the strongest to the weakest, after the Rust Reference (Expression precedence). *)
Definition reference_table : list (list bop) :=
  [[Mul; Div; Rem]; [Add; Sub]; [Shl; Shr]; [BitAnd]; [BitXor]; [BitOr]; [Eq; Ne; Lt; Gt; Le; Ge]; [And]; [Or]].
Definition stronger (a b : bop) : Prop :=
  exists i j ra rb, nth_error reference_table i = Some ra /\ nth_error reference_table j = Some rb /\ In a ra /\ In b rb /\ i < j.
(** The comparison that holds just when the other does not. *)
Inductive opposite : bop -> bop -> Prop :=
| opposite_eq : opposite Eq Ne | opposite_ne : opposite Ne Eq
| opposite_lt : opposite Lt Ge | opposite_ge : opposite Ge Lt
| opposite_gt : opposite Gt Le | opposite_le : opposite Le Gt.

(** Trees, without parentheses. *)
Inductive tree :=
| Atom (n : nat) | Post (e : tree) (n : nat) | Un (u : uop) (e : tree)
| Bin (b : bop) (l r : tree) | Cast (e : tree) (ty : nat) | Range (lim : limits) (l r : tree)
| Assign (b : option bop) (l r : tree) | Return (e : tree).

(** A recursive-descent parser after rustc_parse's parser/expr.rs ([parse_expr_assoc_with], [parse_expr_assoc_rest_with],
    [parse_expr_prefix], [parse_expr_bottom]).  Modes: an operand with its prefix operators; postfix parts of an
    operand; an expression whose operators bind at least as tight as [min]; its loop over binary operators, [cmp] telling
    whether the left side is a comparison without parentheses (chains of those are rejected).  A type before `<` or `<<` is taken
    for the start of generic arguments, an error here.  Half-open ranges are left out. *)
Inductive mode := MPrefix | MPost (e : tree) | MAt (min : nat) | MLoop (min : nat) (e : tree) (cmp : bool).
Inductive result := Done (e : tree) (rest : toks) | Error | OutOfFuel.
Definition is_cmp (b : bop) : bool := match b with Eq | Lt | Le | Ne | Ge | Gt => true | _ => false end.
Definition opens_generics (t : toks) : bool := match t with TBin (Lt | Shl) :: _ => true | _ => false end.
Definition then_ (r : result) (f : tree -> toks -> result) : result :=
  match r with Done e t => f e t | Error => Error | OutOfFuel => OutOfFuel end.
Fixpoint parse (fuel : nat) (m : mode) (t : toks) : result :=
  match fuel with
  | 0 => OutOfFuel
  | S fuel =>
      let prefix u t := then_ (parse fuel MPrefix t) (fun e t => Done (Un u e) t) in
      match m with
      | MPrefix =>
          match t with
          | TBin Sub :: t => prefix Neg t
          | TBang :: t => prefix Not t
          | TBin Mul :: t => prefix Deref t
          | TBin BitAnd :: TMut :: t => prefix (AddrOf true) t
          | TBin BitAnd :: t => prefix (AddrOf false) t
          | TReturn :: t => then_ (parse fuel (MAt 0) t) (fun e t => Done (Return e) t)
          | TLParen :: t =>
              then_ (parse fuel (MAt 0) t) (fun e t => match t with TRParen :: t => parse fuel (MPost e) t | _ => Error end)
          | TAtom n :: t => parse fuel (MPost (Atom n)) t
          | _ => Error
          end
      | MPost e => match t with TPost n :: t => parse fuel (MPost (Post e n)) t | _ => Done e t end
      | MAt min => then_ (parse fuel MPrefix t) (fun e t => parse fuel (MLoop min e false) t)
      | MLoop min e cmp =>
          match t with
          | TBin b :: t' =>
              if bop_prec b <? min then Done e t
              else if is_cmp b && cmp then Error
              else then_ (parse fuel (MAt (S (bop_prec b))) t') (fun r t => parse fuel (MLoop min (Bin b e r) (is_cmp b)) t)
          | TAs :: t' =>
              if 12 <? min then Done e t
              else match t' with
                   | TType ty :: t' => if opens_generics t' then Error else parse fuel (MLoop min (Cast e ty) false) t'
                   | _ => Error
                   end
          | TRange lim :: t' => if 2 <? min then Done e t else then_ (parse fuel (MAt 3) t') (fun r t => Done (Range lim e r) t)
          | TAssign :: t' =>
              if 1 <? min then Done e t
              else then_ (parse fuel (MAt 1) t') (fun r t => parse fuel (MLoop min (Assign None e r) false) t)
          | TAssignOp b :: t' =>
              if 1 <? min then Done e t
              else then_ (parse fuel (MAt 1) t') (fun r t => parse fuel (MLoop min (Assign (Some b) e r) false) t)
          | _ => Done e t
          end
      end
  end.
(** The whole text is one expression, with this tree. *)
Definition parses (t : toks) (e : tree) : Prop := exists fuel, parse fuel (MAt 0) t = Done e [].

(** The grammar, by precedence: [gram p t e]: text [t] is the expression [e], whose last-applied operator has precedence [p]
    (13 prefix operators, 14 atoms, postfix parts and parentheses). *)
Definition ends_with_type (t : toks) : Prop := exists t' n, t = t' ++ [TType n].
Inductive gram : nat -> toks -> tree -> Prop :=
| g_atom n : gram 14 [TAtom n] (Atom n)
| g_post t e n : gram 14 t e -> gram 14 (t ++ [TPost n]) (Post e n)
| g_paren p t e : gram p t e -> gram 14 (parens t) e
| g_neg p t e : gram p t e -> 13 <= p -> gram 13 (TBin Sub :: t) (Un Neg e)
| g_not p t e : gram p t e -> 13 <= p -> gram 13 (TBang :: t) (Un Not e)
| g_deref p t e : gram p t e -> 13 <= p -> gram 13 (TBin Mul :: t) (Un Deref e)
| g_addr p t e : gram p t e -> 13 <= p -> gram 13 (TBin BitAnd :: t) (Un (AddrOf false) e)
| g_addr_mut p t e : gram p t e -> 13 <= p -> gram 13 (TBin BitAnd :: TMut :: t) (Un (AddrOf true) e)
| g_cast p t e n : gram p t e -> 12 <= p -> gram 12 (t ++ [TAs; TType n]) (Cast e n)
| g_bin b pl tl el pr tr er : gram pl tl el -> gram pr tr er -> bop_prec b <= pl -> bop_prec b < pr ->
    (is_cmp b = true -> bop_prec b < pl) -> (b = Lt \/ b = Shl -> ~ ends_with_type tl) ->
    gram (bop_prec b) (tl ++ TBin b :: tr) (Bin b el er)
| g_range l pl tl el pr tr er : gram pl tl el -> gram pr tr er -> 3 <= pl -> 3 <= pr -> gram 2 (tl ++ TRange l :: tr) (Range l el er)
| g_assign pl tl el pr tr er : gram pl tl el -> gram pr tr er -> 3 <= pl -> 1 <= pr -> gram 1 (tl ++ TAssign :: tr) (Assign None el er)
| g_assign_op b pl tl el pr tr er : gram pl tl el -> gram pr tr er -> 3 <= pl -> 1 <= pr -> gram 1 (tl ++ TAssignOp b :: tr) (Assign (Some b) el er).

(** The tree an operator makes of two operands. *)
Definition node (op : assoc_op) (l r : tree) : option tree :=
  match op with
  | OBin b => Some (Bin b l r) | OAssign => Some (Assign None l r) | OAssignOp b => Some (Assign (Some b) l r)
  | ORange lim => Some (Range lim l r) | OCast => None
  end.
Definition un_tree (u : un_op) : uop := match u with UDeref => Deref | UNot => Not | UNeg => Neg end.
Definition is_cmp_op (op : assoc_op) : bool := match op with OBin b => is_cmp b | _ => false end.
(** What a suggestion stands for: an operand; a prefix operator applied (or an operand); a binary operator applied to
    texts that can stand at its sides; a unary operator applied to a suggestion. *)
Definition sides_ok (op : assoc_op) (l r : toks) (e : tree) : Prop :=
  match op with
  | OCast => exists p el n, gram p l el /\ 12 <= p /\ r = [TType n] /\ e = Cast el n
  | _ => gram (precedence op) (binop_to_string op l r) e
         /\ (is_cmp_op op = true -> exists pl el pr er, gram pl l el /\ gram pr r er /\ 5 < pl /\ 5 < pr /\ node op el er = Some e)
  end.
Inductive stands_for : sugg -> tree -> Prop :=
| s_non t e : gram 14 t e -> stands_for (NonParen t) e
| s_maybe p t e : gram p t e -> 13 <= p -> stands_for (MaybeParen t) e
| s_bin op l r e : sides_ok op l r e -> stands_for (BinOp op l r) e
| s_un u i e : stands_for i e -> stands_for (UnOp u i) (Un (un_tree u) e).

(** Combinations of operators for which [make_assoc] is not right. *)
Definition top_op (s : sugg) : option assoc_op := match s with BinOp op _ _ => Some op | _ => None end.
Definition sound_sides (op : assoc_op) (lhs rhs : sugg) : Prop :=
  op <> OCast
  (* a comparison of a comparison *)
  /\ ~ (is_cmp_op op = true /\ exists o, top_op lhs = Some o /\ is_cmp_op o = true /\ o <> op)
  (* the same operator on the right, for operators taken to be associative *)
  /\ ~ (associativity op = ABoth /\ top_op rhs = Some op)
  (* `<` or `<<` after a type, unless the left side gets parentheses *)
  /\ (op = OBin Lt \/ op = OBin Shl -> ends_with_type (disp lhs) ->
      exists o, top_op lhs = Some o
                /\ (precedence o < precedence op \/ op = OBin Shl /\ 10 <= precedence o <= 11))
  (* an assignment to a range *)
  /\ ~ (precedence op = 1 /\ exists l, top_op lhs = Some (ORange l)).

(** Terms of the builder and the trees they are meant to be. *)
Inductive term :=
| Leaf (s : sugg) (e : tree)
| TBinop (op : assoc_op) (l r : term)
| TAsTy (t : term) (n : nat)
| TAddr (t : term) | TMutAddr (t : term) | TDeref (t : term) | TAddrDeref (t : term) | TMutAddrDeref (t : term)
| TParen (t : term).
Fixpoint build (t : term) : sugg :=
  match t with
  | Leaf s _ => s
  | TBinop op l r => make_assoc op (build l) (build r)
  | TAsTy t n => as_ty (build t) n
  | TAddr t => addr (build t) | TMutAddr t => mut_addr (build t) | TDeref t => deref (build t)
  | TAddrDeref t => addr_deref (build t) | TMutAddrDeref t => mut_addr_deref (build t)
  | TParen t => maybe_paren (build t)
  end.
Fixpoint meant (t : term) : option tree :=
  match t with
  | Leaf _ e => Some e
  | TBinop op l r => match meant l, meant r with Some a, Some b => node op a b | _, _ => None end
  | TAsTy t n => option_map (fun e => Cast e n) (meant t)
  | TAddr t => option_map (Un (AddrOf false)) (meant t) | TMutAddr t => option_map (Un (AddrOf true)) (meant t)
  | TDeref t => option_map (Un Deref) (meant t)
  | TAddrDeref t => option_map (fun e => Un (AddrOf false) (Un Deref e)) (meant t)
  | TMutAddrDeref t => option_map (fun e => Un (AddrOf true) (Un Deref e)) (meant t)
  | TParen t => meant t
  end.
Fixpoint sound_term (t : term) : Prop :=
  match t with
  | Leaf s e => stands_for s e
  | TBinop op l r => sound_term l /\ sound_term r /\ sound_sides op (build l) (build r)
  | TAsTy t _ | TAddr t | TMutAddr t | TDeref t | TAddrDeref t | TMutAddrDeref t | TParen t => sound_term t
  end.

(** A source expression: the tree it is, and where its parentheses must be. *)
Fixpoint erase (c : cst) : tree :=
  match c with
  | CAtom n => Atom n | CPost c n => Post (erase c) n | CUn u c => Un u (erase c) | CCast c n => Cast (erase c) n | CParen c => erase c
  | CBin (OBin b) l r => Bin b (erase l) (erase r)
  | CBin (ORange lim) l r => Range lim (erase l) (erase r)
  | CBin (OAssignOp b) l r => Assign (Some b) (erase l) (erase r)
  | CBin _ l r => Assign None (erase l) (erase r)
  end.
Definition level (c : cst) : nat :=
  match c with CAtom _ | CPost _ _ | CParen _ => 14 | CUn _ _ => 13 | CCast _ _ => 12 | CBin op _ _ => precedence op end.
Fixpoint valid (c : cst) : Prop :=
  match c with
  | CAtom _ => True
  | CParen c => valid c
  | CPost c _ => valid c /\ level c = 14
  | CUn _ c => valid c /\ 13 <= level c
  | CCast c _ => valid c /\ 12 <= level c
  | CBin op l r =>
      valid l /\ valid r /\ op <> OCast
      /\ match op with
         | OBin b => bop_prec b <= level l /\ bop_prec b < level r /\ (is_cmp b = true -> bop_prec b < level l)
                     /\ (b = Lt \/ b = Shl -> ~ ends_with_type (snippet l))
         | ORange _ => 3 <= level l /\ 3 <= level r
         | _ => 3 <= level l /\ 1 <= level r
         end
  end.

(** A reading of trees in some domain: a meaning for every operator. *)
Record reading (V : Type) := {
  r_atom : nat -> V; r_post : V -> nat -> V; r_un : uop -> V -> V; r_bin : bop -> V -> V -> V;
  r_cast : V -> nat -> V; r_range : limits -> V -> V -> V; r_assign : option bop -> V -> V -> V; r_return : V -> V }.
Fixpoint value {V} (I : reading V) (e : tree) : V :=
  match e with
  | Atom n => r_atom V I n | Post e n => r_post V I (value I e) n | Un u e => r_un V I u (value I e)
  | Bin b l r => r_bin V I b (value I l) (value I r) | Cast e n => r_cast V I (value I e) n
  | Range lim l r => r_range V I lim (value I l) (value I r) | Assign b l r => r_assign V I b (value I l) (value I r)
  | Return e => r_return V I (value I e)
  end.
Definition associative {V} (f : V -> V -> V) : Prop := forall a b c, f (f a b) c = f a (f b c).
(** Operators that have their precedence to themselves. *)
Definition alone (b : bop) : bool := match b with BitAnd | BitXor | BitOr | And | Or => true | _ => false end.
(** [sound_sides] but for the clause about the same operator on the right, which may be one of those. *)
Definition sound_sides_assoc (op : assoc_op) (lhs rhs : sugg) : Prop :=
  op <> OCast
  /\ ~ (is_cmp_op op = true /\ exists o, top_op lhs = Some o /\ is_cmp_op o = true /\ o <> op)
  /\ (top_op rhs = Some op -> associativity op = ABoth -> exists b, op = OBin b /\ alone b = true)
  /\ (op = OBin Lt \/ op = OBin Shl -> ends_with_type (disp lhs) ->
      exists o, top_op lhs = Some o
                /\ (precedence o < precedence op \/ op = OBin Shl /\ 10 <= precedence o <= 11))
  /\ ~ (precedence op = 1 /\ exists l, top_op lhs = Some (ORange l)).
Fixpoint sound_term_assoc (t : term) : Prop :=
  match t with
  | Leaf s e => stands_for s e
  | TBinop op l r => sound_term_assoc l /\ sound_term_assoc r /\ sound_sides_assoc op (build l) (build r)
  | TAsTy t _ | TAddr t | TMutAddr t | TDeref t | TAddrDeref t | TMutAddrDeref t | TParen t => sound_term_assoc t
  end.
