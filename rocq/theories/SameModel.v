(** Model of the comparison of expressions up to renaming of locals, /repo/clippy_utils/src/hir_utils.rs, and of [search_same], /repo/clippy_utils/src/lib.rs. *)
From Coq Require Export List Arith ZArith Bool Lia.
Export ListNotations.

(** ** Expressions
    A part of rustc's HIR.  Names, labels, definitions and the ids of bindings are numbers.  Left out: macros (all spans have the context from which the
    comparison is made), spans, items inside blocks (they are never equal here), `&raw`, repeat expressions, `yield`, inline assembly, const blocks, `offset_of!`, generic arguments. *)
Definition name := nat. Definition id := nat. Definition label := nat.
Inductive lit := LInt (z : Z) | LBool (b : bool) | LStr (s : nat).
Inductive bop := Add | Sub | Mul | Div | Rem | BitXor | BitAnd | BitOr | Shl | Shr | And | Or | Eq | Ne | Lt | Le | Ge | Gt.
Inductive uop := Deref | Not | Neg.
Inductive ty := TyPath (segs : list name) | TyRef (lifetime : name) (mutbl : bool) (t : ty) | TyPtr (mutbl : bool) (t : ty) | TySlice (t : ty) | TyInfer | TyNever.
(** Binding modes are numbers; [dd] is the place of `..`. *)
Inductive pat :=
| PWild
| PBind (mode : nat) (x : id) (sub : option pat)
| PLit (l : lit)
| PRange (lo hi : option lit) (inclusive : bool)
| PRef (mutbl : bool) (p : pat)
| PTuple (ps : list pat) (dd : option nat)
| PVariant (path : name) (ps : list pat) (dd : option nat)
| PStruct (path : name) (fs : list (name * pat)) (rest : bool)
| POr (ps : list pat).
(** Kinds of expressions that evaluate their operands from left to right and then do one thing; the operands of a call are the function and the arguments,
    those of a method call the receiver and the arguments, those of a struct expression the fields and then the base. *)
Inductive kind :=
| KAddrOf (mutbl : bool) | KArray | KCall | KMethod (m : name) | KCast (t : ty) | KField (f : name) | KIndex
| KStruct (path : name) (fields : list name) (base : bool) | KTup | KUnary (u : uop).
Inductive exit := XBreak (l : option label) | XContinue (l : option label) | XReturn.
(** [EItem] is a path to a constant, static or function.  [lp] and [rp] tell whether the types of the two operands, without references, are primitive.
    [op] is for compound assignments; [unsafe_] for `unsafe` blocks; [pty] is the type of the pattern of a `let`; [src]: `loop`, `while` or `for`. *)
Inductive expr :=
| ELit (l : lit)
| ELocal (x : id)
| EItem (def : nat) (segs : list name)
| ENode (k : kind) (es : list expr)
| EBinary (op : bop) (lp rp : bool) (l r : expr)
| EAssign (op : option bop) (l r : expr)
| EBlock (lab : option label) (unsafe_ : bool) (ss : list stmt) (tail : option expr)
| EIf (c t : expr) (e : option expr)
| ELet (p : pat) (t : option ty) (init : expr)
| EMatch (e : expr) (arms : list (pat * option expr * expr))
| ELoop (lab : option label) (src : nat) (ss : list stmt) (tail : option expr)
| EExit (x : exit) (e : option expr)
| EClosure (body : expr)
with stmt :=
| SLet (p : pat) (pty : nat) (t : option ty) (init : option expr) (els : option (list stmt * option expr))
| SExpr (e : expr)
| SSemi (e : expr)
| SItem.

(** ** Equality *)
Definition lit_eqb (a b : lit) : bool :=
  match a, b with LInt x, LInt y => (x =? y)%Z | LBool x, LBool y => Bool.eqb x y | LStr x, LStr y => Nat.eqb x y | _, _ => false end.
Definition bop_eqb (a b : bop) : bool :=
  match a, b with
  | Add, Add | Sub, Sub | Mul, Mul | Div, Div | Rem, Rem | BitXor, BitXor | BitAnd, BitAnd | BitOr, BitOr | Shl, Shl | Shr, Shr | And, And | Or, Or
  | Eq, Eq | Ne, Ne | Lt, Lt | Le, Le | Ge, Ge | Gt, Gt => true
  | _, _ => false
  end.
Definition uop_eqb (a b : uop) : bool := match a, b with Deref, Deref | Not, Not | Neg, Neg => true | _, _ => false end.
Definition opt_eqb {A} (eqb : A -> A -> bool) (a b : option A) : bool :=
  match a, b with Some x, Some y => eqb x y | None, None => true | _, _ => false end.
Fixpoint names_eqb (a b : list name) : bool :=
  match a, b with [], [] => true | x :: a, y :: b => Nat.eqb x y && names_eqb a b | _, _ => false end.

(** hir_utils.rs:153-166: [locals] of [HirEqInterExpr]. *)
Definition locals := list (id * id).
Fixpoint get (m : locals) (x : id) : option id := match m with [] => None | (k, v) :: m => if Nat.eqb k x then Some v else get m x end.
Definition insert (m : locals) (x y : id) : locals := (x, y) :: m.

(** The comparison answers and changes [locals]; `&&` and `||` from left to right. *)
Definition answer := (bool * locals)%type.
Definition also (a : answer) (k : locals -> answer) : answer := let '(b, m) := a in if b then k m else (false, m).
Definition otherwise (a : answer) (k : locals -> answer) : answer := let '(b, m) := a in if b then (true, m) else k m.
Definition given (b : bool) (k : locals -> answer) (m : locals) : answer := if b then k m else (false, m).
(** hir_utils.rs:1075-1080 [both] and 1087-1090 [over]. *)
Definition both {X} (eq : X -> X -> locals -> answer) (l r : option X) (m : locals) : answer :=
  match l, r with Some x, Some y => eq x y m | None, None => (true, m) | _, _ => (false, m) end.
Fixpoint zip_all {X} (eq : X -> X -> locals -> answer) (l r : list X) (m : locals) : answer :=
  match l, r with x :: l, y :: r => also (eq x y m) (zip_all eq l r) | _, _ => (true, m) end.
Definition over {X} (eq : X -> X -> locals -> answer) (l r : list X) (m : locals) : answer :=
  if length l =? length r then zip_all eq l r m else (false, m).

(** hir_utils.rs:904-921 [eq_ty]; lifetimes are not compared. *)
Fixpoint eq_ty (l r : ty) : bool :=
  match l, r with
  | TyPath a, TyPath b => names_eqb a b
  | TyRef _ m t, TyRef _ m' t' => Bool.eqb m m' && eq_ty t t'
  | TyPtr m t, TyPtr m' t' => Bool.eqb m m' && eq_ty t t'
  | TySlice t, TySlice t' => eq_ty t t'
  | TyInfer, TyInfer => true
  | _, _ => false
  end.
(** The number of nodes. *)
Fixpoint pat_size (p : pat) : nat :=
  match p with
  | PBind _ _ (Some p) | PRef _ p => S (pat_size p)
  | PTuple ps _ | PVariant _ ps _ | POr ps => S (list_sum (map pat_size ps))
  | PStruct _ fs _ => S (list_sum (map (fun f => pat_size (snd f)) fs))
  | _ => 1
  end.
Definition opt_size {A} (f : A -> nat) (o : option A) : nat := match o with Some x => f x | None => 0 end.
Fixpoint size (e : expr) : nat :=
  match e with
  | ELit _ | ELocal _ | EItem _ _ => 1
  | ENode _ es => S (list_sum (map size es))
  | EBinary _ _ _ l r | EAssign _ l r => S (size l + size r)
  | EBlock _ _ ss t | ELoop _ _ ss t => S (list_sum (map stmt_size ss) + opt_size size t)
  | EIf c t e => S (size c + size t + opt_size size e)
  | ELet p _ e => S (pat_size p + size e)
  | EMatch e arms => S (size e + list_sum (map (fun a => match a with (p, g, b) => S (pat_size p + opt_size size g + size b) end) arms))
  | EExit _ e => S (opt_size size e)
  | EClosure e => S (size e)
  end
with stmt_size (s : stmt) : nat :=
  match s with
  | SLet p _ _ i els =>
      S (pat_size p + opt_size size i + match els with Some (ss, t) => S (list_sum (map stmt_size ss) + opt_size size t) | None => 0 end)
  | SExpr e | SSemi e => S (size e)
  | SItem => 1
  end.

(** hir_utils.rs:766-812 [eq_pat_field], [eq_pat_expr], [eq_pat].  Fuel: the depth of the left pattern; without, the answer is no. *)
Fixpoint eq_pat (n : nat) (l r : pat) (m : locals) : answer :=
  match n with
  | 0 => (false, m)
  | S n =>
      match l, r with
      | PWild, PWild => (true, m)
      | PBind lb li lp, PBind rb ri rp =>
          let '(eq, m) := given (Nat.eqb lb rb) (both (eq_pat n) lp rp) m in
          (eq, if eq then insert m li ri else m)
      | PLit a, PLit b => (lit_eqb a b, m)
      | PRange ls le li, PRange rs re ri => (opt_eqb lit_eqb ls rs && opt_eqb lit_eqb le re && Bool.eqb li ri, m)
      | PRef lm lp, PRef rm rp => given (Bool.eqb lm rm) (eq_pat n lp rp) m
      | PTuple l ls, PTuple r rs => given (opt_eqb Nat.eqb ls rs) (over (eq_pat n) l r) m
      | PVariant lp la ls, PVariant rp ra rs => also (given (Nat.eqb lp rp) (over (eq_pat n) la ra) m) (fun m => (opt_eqb Nat.eqb ls rs, m))
      | PStruct lp la _, PStruct rp ra _ =>
          given (Nat.eqb lp rp) (over (fun a b => given (Nat.eqb (fst a) (fst b)) (eq_pat n (snd a) (snd b))) la ra) m
      | _, _ => (false, m)
      end
  end.

(** hir_utils.rs:995-1027 [swap_binop]: the operator after exchanging the operands. *)
Definition swap_binop (op : bop) (lp : bool) : option bop :=
  match op with
  | Eq | Ne => Some op
  | Lt => Some Gt | Le => Some Ge | Ge => Some Le | Gt => Some Lt
  | Shl | Shr | Rem | Sub | Div => None
  | Mul | Add | And | Or | BitAnd | BitXor | BitOr => if lp then Some op else None
  end.
(** hir_utils.rs:1030-1073 [reduce_exprkind]; that there is nothing but braces in an empty block is not checked here (a check that makes fewer expressions equal). *)
Definition reduce_exprkind (e : expr) : expr :=
  match e with
  | EBlock _ _ [] None => ENode KTup []
  | EBlock _ _ [] (Some (EExit XReturn x)) => EExit XReturn x
  | EBlock _ _ [SExpr (EExit XReturn x)] None | EBlock _ _ [SSemi (EExit XReturn x)] None => EExit XReturn x
  | _ => e
  end.

Section Eq.
  (** The value of a constant expression, with its type: [ConstEvalCtxt::eval_local] and [TypeckResults::expr_ty]. *)
  Variable konst : expr -> option (nat * lit).
  (** hir_utils.rs:57-66 [allow_side_effects]. *)
  Variable allow : bool.

  (** hir_utils.rs:498-507: both constant, of one type, and equal. *)
  Definition same_constant (l r : expr) : bool :=
    match konst l, konst r with Some (t, a), Some (u, b) => Nat.eqb t u && lit_eqb a b | _, _ => false end.
  (** hir_utils.rs:514-685, for the kinds above: the parts that are not operands. *)
  Definition eq_kind (l r : kind) : bool :=
    match l, r with
    | KAddrOf a, KAddrOf b => Bool.eqb a b
    | KArray, KArray | KTup, KTup | KIndex, KIndex => true
    | KCall, KCall => allow
    | KMethod a, KMethod b => allow && Nat.eqb a b
    | KCast a, KCast b => eq_ty a b
    | KField a, KField b => Nat.eqb a b
    | KStruct a fs x, KStruct b gs y => Nat.eqb a b && Bool.eqb x y && names_eqb fs gs
    | KUnary a, KUnary b => uop_eqb a b
    | _, _ => false
    end.
  Definition eq_exit (l r : exit) : bool :=
    match l, r with XBreak a, XBreak b | XContinue a, XContinue b => opt_eqb Nat.eqb a b | XReturn, XReturn => true | _, _ => false end.
  (** hir_utils.rs:491-713 [eq_expr], 716-722 [eq_exprs] and [eq_expr_field], 847-849 (locals in [eq_path]).  Without fuel the answer is no. *)
  Fixpoint eq_expr (n : nat) (left right : expr) (m : locals) : answer :=
    match n with
    | 0 => (false, m)
    | S n =>
        if same_constant left right then (true, m) else
        match reduce_exprkind left, reduce_exprkind right with
        | ENode lk l, ENode rk r => given (eq_kind lk rk) (over (eq_expr n) l r) m
        | EAssign lo ll lr, EAssign ro rl rr =>
            given (allow && opt_eqb bop_eqb lo ro) (fun m => also (eq_expr n ll rl m) (eq_expr n lr rr)) m
        | EBlock _ _ ls lt, EBlock _ _ rs rt => eq_block n (ls, lt) (rs, rt) m
        | EBinary lo lp _ ll lr, EBinary ro _ _ rl rr =>
            otherwise (given (bop_eqb lo ro) (fun m => also (eq_expr n ll rl m) (eq_expr n lr rr)) m)
              (fun m => match swap_binop lo lp with
                        | Some lo => given (bop_eqb lo ro) (fun m => also (eq_expr n lr rl m) (eq_expr n ll rr)) m
                        | None => (false, m)
                        end)
        | EExit lx le, EExit rx re => given (eq_exit lx rx) (both (eq_expr n) le re) m
        | EIf lc lt le, EIf rc rt re => also (also (eq_expr n lc rc m) (eq_expr n lt rt)) (both (eq_expr n) le re)
        | ELet lp lt li, ELet rp rt ri => also (also (eq_pat (pat_size lp) lp rp m) (fun m => (opt_eqb eq_ty lt rt, m))) (eq_expr n li ri)
        | ELit l, ELit r => (lit_eqb l r, m)
        | ELoop ll lk ls lt, ELoop rl rk rs rt =>
            also (given (Nat.eqb lk rk) (eq_block n (ls, lt) (rs, rt)) m) (fun m => (opt_eqb Nat.eqb ll rl, m))
        | EMatch le la, EMatch re ra => also (eq_expr n le re m) (over (eq_arm n) la ra)
        | ELocal l, ELocal r => (Nat.eqb l r || opt_eqb Nat.eqb (get m l) (Some r), m)
        | EItem ld ls, EItem rd rs => (Nat.eqb ld rd && names_eqb ls rs, m)
        | _, _ => (false, m)
        end
    end
  (** hir_utils.rs:386-470 [eq_block], without the tokens between statements (a check that makes fewer expressions equal). *)
  with eq_block (n : nat) (left right : list stmt * option expr) (m : locals) : answer :=
    match n with
    | 0 => (false, m)
    | S n => also (over (eq_stmt n) (fst left) (fst right) m) (both (eq_expr n) (snd left) (snd right))
    end
  (** hir_utils.rs:176-203 [eq_stmt]. *)
  with eq_stmt (n : nat) (left right : stmt) (m : locals) : answer :=
    match n with
    | 0 => (false, m)
    | S n =>
        match left, right with
        | SLet lp lk lt li le, SLet rp rk rt ri re =>
            also (also (also (given (Nat.eqb lk rk) (both (eq_expr n) li ri) m) (fun m => (opt_eqb eq_ty lt rt, m)))
                    (both (eq_block n) le re)) (eq_pat (pat_size lp) lp rp)
        | SExpr l, SExpr r | SSemi l, SSemi r => eq_expr n l r m
        | _, _ => (false, m)
        end
    end
  (** hir_utils.rs:581-590, the arms of a `match`. *)
  with eq_arm (n : nat) (left right : pat * option expr * expr) (m : locals) : answer :=
    match n with
    | 0 => (false, m)
    | S n =>
        let '(lp, lg, lb) := left in let '(rp, rg, rb) := right in
        also (also (eq_pat (pat_size lp) lp rp m) (both (eq_expr n) lg rg)) (eq_expr n lb rb)
    end.
  (** hir_utils.rs:120-122 [SpanlessEq::eq_expr]; enough fuel for the left expression. *)
  Definition spanless_eq (left right : expr) : bool := fst (eq_expr (3 * size left) left right []).
End Eq.
(** hir_utils.rs:1109-1111 [eq_expr_value]. *)
Definition eq_expr_value (konst : expr -> option (nat * lit)) (left right : expr) : bool := spanless_eq konst false left right.

(** ** Hashing *)
Definition hb (b : bool) : Z := if b then 1%Z else 0%Z.
Definition hn (n : nat) : Z := Z.of_nat n.
(** What [FxHasher] is fed, in order; the hash is a function of that. *)
Definition hash_lit (l : lit) : list Z := match l with LInt z => [0; z]%Z | LBool b => [1; hb b]%Z | LStr s => [2; hn s]%Z end.
Definition hash_dd (d : option nat) : list Z := match d with Some n => [hn n] | None => [-1]%Z end.
Definition hash_opt {A} (f : A -> list Z) (o : option A) : list Z := match o with Some x => f x | None => [] end.
(** hir_utils.rs:1580-1656 [hash_lifetime], [hash_ty], [hash_tykind]. *)
Fixpoint hash_ty (t : ty) : list Z :=
  match t with
  | TySlice t => 0%Z :: hash_ty t
  | TyPtr m t => 1%Z :: hash_ty t ++ [hb m]
  | TyRef l m t => 2%Z :: hn l :: hash_ty t ++ [hb m]
  | TyPath s => 3%Z :: map hn s
  | TyInfer => [4%Z] | TyNever => [5%Z]
  end.
(** hir_utils.rs:1412-1423 [hash_pat_expr], 1442-1521 [hash_pat]. *)
Fixpoint hash_pat (p : pat) : list Z :=
  match p with
  | PWild => [0%Z]
  | PBind mode _ s => 1%Z :: hn mode :: hash_opt hash_pat s
  | PLit l => 2%Z :: 0%Z :: hash_lit l
  | PRange a b i => 3%Z :: hash_opt (fun l => 0%Z :: hash_lit l) a ++ hash_opt (fun l => 0%Z :: hash_lit l) b ++ [hb i]
  | PRef m p => 4%Z :: hash_pat p ++ [hb m]
  | PTuple ps d => 5%Z :: flat_map hash_pat ps ++ hash_dd d
  | PVariant n ps d => 6%Z :: hn n :: flat_map hash_pat ps ++ hash_dd d
  | PStruct n fs r => 7%Z :: hn n :: flat_map (fun f => hn (fst f) :: hash_pat (snd f)) fs ++ [hb r]
  | POr ps => 8%Z :: flat_map hash_pat ps
  end.
Definition bop_tag (b : bop) : Z :=
  match b with
  | Add => 0 | Sub => 1 | Mul => 2 | Div => 3 | Rem => 4 | BitXor => 5 | BitAnd => 6 | BitOr => 7 | Shl => 8 | Shr => 9 | And => 10 | Or => 11
  | Eq => 12 | Ne => 13 | Lt => 14 | Le => 15 | Ge => 16 | Gt => 17
  end%Z.
Definition uop_tag (u : uop) : Z := match u with Deref => 0 | Not => 1 | Neg => 2 end%Z.
Section Hash.
  Variable konst : expr -> option (nat * lit).
  Definition hash_label (l : option label) : list Z := hash_opt (fun n => [hn n]) l.
  (** hir_utils.rs:1185-1389 [hash_expr], 1391-1395 [hash_exprs], 1173-1183 [hash_block], 1523-1547 [hash_path] (a local hashes to a constant), 1555-1578 [hash_stmt];
      the first number of each kind is its discriminant.  The parts of a kind are hashed before the operands (some come later in the code). *)
  Definition hash_kind (k : kind) : list Z :=
    match k with
    | KAddrOf m => [2; hb m] | KUnary u => [3; uop_tag u] | KCast t => 5 :: hash_ty t | KField f => [6; hn f] | KIndex => [7] | KTup => [8] | KArray => [9]
    | KStruct p fs b => 10 :: hn p :: hb b :: map hn fs | KCall => [11] | KMethod m => [12; hn m]
    end%Z.
  Fixpoint hash_expr (e : expr) : list Z :=
    match konst e with
    | Some (_, c) => 1%Z :: hash_lit c
    | None => 0%Z ::
        match e with
        | ELit l => 0%Z :: hash_lit l
        | ELocal _ => [1; 1]%Z
        | EItem _ s => 1%Z :: map hn s
        | ENode k es => hash_kind k ++ flat_map hash_expr es
        | EBinary o _ _ l r => 4%Z :: bop_tag o :: hash_expr l ++ hash_expr r
        | EAssign None l r => 13%Z :: hash_expr l ++ hash_expr r
        | EAssign (Some o) l r => 14%Z :: bop_tag o :: hash_expr l ++ hash_expr r
        | EBlock _ u ss t => 15%Z :: flat_map hash_stmt ss ++ hash_opt hash_expr t ++ [hb u]
        | EIf c t e => 16%Z :: hash_expr c ++ hash_expr t ++ hash_opt hash_expr e
        | ELet p t i => 17%Z :: hash_expr i ++ hash_opt hash_ty t ++ hash_pat p
        | EMatch e arms => 18%Z :: hash_expr e ++ flat_map (fun a => match a with (p, g, b) => hash_pat p ++ hash_opt hash_expr g ++ hash_expr b end) arms
        | ELoop l _ ss t => 19%Z :: (flat_map hash_stmt ss ++ hash_opt hash_expr t ++ [hb false]) ++ hash_label l
        | EExit (XBreak l) e => 20%Z :: hash_label l ++ hash_opt hash_expr e
        | EExit (XContinue l) _ => 21%Z :: hash_label l
        | EExit XReturn e => 22%Z :: hash_opt hash_expr e
        | EClosure b => 23%Z :: hash_expr b
        end
    end
  with hash_stmt (s : stmt) : list Z :=
    match s with
    | SLet p _ _ i els =>
        0%Z :: hash_pat p ++ hash_opt hash_expr i
          ++ match els with Some (ss, t) => flat_map hash_stmt ss ++ hash_opt hash_expr t ++ [hb false] | None => [] end
    | SItem => [1%Z]
    | SExpr e => 2%Z :: hash_expr e
    | SSemi e => 3%Z :: hash_expr e
    end.
End Hash.

(** ** /repo/clippy_utils/src/lib.rs:2190-2223 [search_same] *)
Section Search.
  Context {T : Type}.
  Variable hash : T -> list Z.
  Variable eq : T -> T -> bool.
  Definition codes_eqb (a b : list Z) : bool := if list_eq_dec Z.eq_dec a b then true else false.
  (** Into the first group of the bucket whose first member is equal, else a group of its own. *)
  Fixpoint add_to_bucket (x : T) (bucket : list (list T)) : list (list T) :=
    match bucket with
    | [] => [[x]]
    | group :: bucket =>
        match group with
        | y :: _ => if eq x y then (group ++ [x]) :: bucket else group :: add_to_bucket x bucket
        | [] => group :: add_to_bucket x bucket
        end
    end.
  (** The map from hashes to buckets (a [UnindexMap], whose order is that of insertion). *)
  Fixpoint add_to_buckets (x : T) (buckets : list (list Z * list (list T))) : list (list Z * list (list T)) :=
    match buckets with
    | [] => [(hash x, [[x]])]
    | (h, bucket) :: buckets =>
        if codes_eqb (hash x) h then (h, add_to_bucket x bucket) :: buckets else (h, bucket) :: add_to_buckets x buckets
    end.
  Definition search_same (exprs : list T) : list (list T) :=
    match exprs with
    | [] | [_] => []
    | [a; b] => if eq a b then [[a; b]] else []
    | _ =>
        filter (fun group => 1 <? length group)
          (flat_map snd (fold_left (fun buckets x => add_to_buckets x buckets) exprs []))
    end.
End Search.

(** ** /repo/clippy_lints/src/ifs/ifs_same_cond.rs:27-48
    [mutable]: [method_caller_is_mutable], lines 11-24.  Each condition comes with its place in the chain. *)
Section Ifs.
  Variable konst : expr -> option (nat * lit).
  Variable mutable : expr -> bool.
  Definition same_condition (lhs rhs : expr) : bool :=
    match lhs with
    | ENode (KMethod _) (caller :: _) => if mutable caller then false else spanless_eq konst true lhs rhs
    | _ => eq_expr_value konst lhs rhs
    end.
  Definition ifs_same_cond (conds : list (nat * expr)) : list (list (nat * expr)) :=
    search_same (fun c => hash_expr konst (snd c)) (fun a b => same_condition (snd a) (snd b)) conds.
End Ifs.
