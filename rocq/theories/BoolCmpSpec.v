(** What the suggestions of [BoolCmpModel] should mean, under any reading with booleans in it. *)
From Verif Require Export SuggSpec BoolCmpModel.

(** The tree around a place. *)
Fixpoint fill_tree (k : ctx) (e : tree) : tree :=
  match k with
  | KHole => e | KPost k n => Post (fill_tree k e) n | KUn u k => Un u (fill_tree k e) | KCast k n => Cast (fill_tree k e) n | KParen k => fill_tree k e
  | KBinL (OBin b) k r => Bin b (fill_tree k e) (erase r) | KBinR (OBin b) l k => Bin b (erase l) (fill_tree k e)
  | KBinL (ORange lim) k r => Range lim (fill_tree k e) (erase r) | KBinR (ORange lim) l k => Range lim (erase l) (fill_tree k e)
  | KBinL (OAssignOp b) k r => Assign (Some b) (fill_tree k e) (erase r) | KBinR (OAssignOp b) l k => Assign (Some b) (erase l) (fill_tree k e)
  | KBinL _ k r => Assign None (fill_tree k e) (erase r) | KBinR _ l k => Assign None (erase l) (fill_tree k e)
  end.
(** How tight the operators of an expression have to bind in a place: tighter than the operator next to it. *)
Definition side_left (op : assoc_op) : nat := match op with OBin b => if is_cmp b then S (bop_prec b) else bop_prec b | _ => 3 end.
Definition side_right (op : assoc_op) : nat := match op with OBin b => S (bop_prec b) | ORange _ => 3 | _ => 1 end.
Fixpoint room_from (n : nat) (k : ctx) : nat :=
  match k with
  | KHole => n | KPost k _ => room_from 14 k | KUn _ k => room_from 13 k | KCast k _ => room_from 12 k | KParen k => room_from 0 k
  | KBinL op k _ => room_from (side_left op) k | KBinR op _ k => room_from (side_right op) k
  end.
Definition room (k : ctx) : nat := room_from 0 k.

(** Readings with booleans: [B] are the truth values; the literals and operators on them are what they should be; an operand of `!` that has the type of the
    result (a boolean) is a boolean; the opposite comparison is the negation (not so for floats). *)
Record booleans {V} (I : reading V) (B : bool -> V) (lit : nat -> option bool) (same_type : cst -> bool) : Prop := {
  b_lit : forall n b, lit n = Some b -> r_atom V I n = B b;
  b_eq : forall x y, r_bin V I Eq (B x) (B y) = B (Bool.eqb x y);
  b_ne : forall x y, r_bin V I Ne (B x) (B y) = B (xorb x y);
  b_lt : forall x y, r_bin V I Lt (B x) (B y) = B (match x, y with false, true => true | _, _ => false end);
  b_gt : forall x y, r_bin V I Gt (B x) (B y) = B (match x, y with true, false => true | _, _ => false end);
  b_and : forall x y, r_bin V I BitAnd (B x) (B y) = B (x && y);
  b_not : forall x, r_un V I Not (B x) = B (negb x);
  b_not_type : forall c x, same_type c = true -> r_un V I Not (value I (erase c)) = B x -> value I (erase c) = B (negb x);
  b_flip : forall b b' v w x, opposite b b' -> r_bin V I b v w = B x -> r_bin V I b' v w = B (negb x);
  b_assoc : forall b, alone b = true -> associative (r_bin V I b) }.

(** No type before the `<` that negating a `>=` makes. *)
Definition no_type_before (c : cst) : Prop := forall a b, unparen c = CBin (OBin Ge) a b -> ~ ends_with_type (snippet a).
(** The loosest operator that can come to the top of an expression, when its parentheses are dropped and maybe a `!` taken away. *)
Definition loosest (c : cst) : nat :=
  match unparen c with CUn Not i => min 13 (level (unparen i)) | d => level d end.

(** A statement that begins with a block, `match` ... ends there, unless a method call, `?` or field access follows. *)
Definition cut_short (blk callish : nat -> bool) (t : toks) : Prop :=
  exists n tok rest, t = TAtom n :: tok :: rest /\ blk n = true /\ match tok with TPost m => callish m = true | _ => True end.
(** A block is called or indexed at the beginning of an expression, as in `{f}(x).g() == y`. *)
Fixpoint calls_block (blk callish : nat -> bool) (c : cst) : bool :=
  match c with
  | CPost (CAtom n) m => blk n && callish m
  | CPost c _ | CBin _ c _ | CCast c _ => calls_block blk callish c
  | _ => false
  end.
