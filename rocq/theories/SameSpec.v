(** What expressions do when they run, for the language of [SameModel]; written from the language, not from the comparison. *)
From Verif Require Export SameModel.

(** ** Values and outcomes *)
Inductive val := VLit (l : lit) | VTup (vs : list val) | VArr (vs : list val) | VVariant (path : name) (vs : list val)
| VStruct (path : name) (fs : list (name * val)) | VRef (v : val) | VFn (def : nat).
Definition unit_ := VTup [].
(** A call, a method call, or an operator of a type that is not primitive, with its arguments. *)
Inductive event := Called (f : val) (args : list val) | Invoked (m : name) (args : list val) | Operated (op : bop) (v w : val).
Definition trace := list event.
Definition store := id -> option val.
Definition set (s : store) (x : id) (v : val) : store := fun y => if Nat.eqb x y then Some v else s y.
Inductive out := Val (v : val) | Brk (l : option label) (v : val) | Cnt (l : option label) | Ret (v : val) | Panic.
(** [Wrong]: a type error, which the compiler excludes, or something outside the language (writing through a reference).  [More]: not finished with this fuel. *)
Inductive result := Fine (o : out) (s : store) (t : trace) | Wrong | More.

(** The rest of the program: what items are, what functions do (given all earlier events; [None] is a panic), the operators of primitive types, casts. *)
Record world := {
  w_item : nat -> val;
  w_call : val -> list val -> trace -> option val;
  w_method : name -> list val -> trace -> option val;
  w_user : bop -> val -> val -> trace -> option val;
  w_un : uop -> lit -> option lit;
  w_prim : bop -> lit -> lit -> option lit;
  w_cast : ty -> val -> val }.
(** Types, without their lifetimes. *)
Fixpoint erase (t : ty) : ty :=
  match t with TyRef _ m t => TyRef 0 m (erase t) | TyPtr m t => TyPtr m (erase t) | TySlice t => TySlice (erase t) | t => t end.
(** Exchanging the operands of a primitive operator. *)
Definition mirrored (op : bop) : option bop :=
  match op with
  | Add | Mul | BitXor | BitAnd | BitOr | Eq | Ne => Some op
  | Lt => Some Gt | Gt => Some Lt | Le => Some Ge | Ge => Some Le
  | _ => None
  end.
Definition commutes (w : world) : Prop := forall op op' a b, mirrored op = Some op' -> w_prim w op a b = w_prim w op' b a.

(** ** Patterns: the bindings made by a match *)
Definition int_le (a b : lit) : bool := match a, b with LInt x, LInt y => (x <=? y)%Z | _, _ => false end.
Definition int_lt (a b : lit) : bool := match a, b with LInt x, LInt y => (x <? y)%Z | _, _ => false end.
Definition bindings := list (id * val).
Definition join (a b : option bindings) : option bindings := match a, b with Some x, Some y => Some (x ++ y) | _, _ => None end.
Fixpoint lookup {A} (f : name) (fs : list (name * A)) : option A := match fs with [] => None | (g, x) :: fs => if Nat.eqb f g then Some x else lookup f fs end.
Section Match.
  Variable match_pat : pat -> val -> option bindings.
  Fixpoint match_all (ps : list pat) (vs : list val) : option bindings :=
    match ps, vs with [], [] => Some [] | p :: ps, v :: vs => join (match_pat p v) (match_all ps vs) | _, _ => None end.
  (** With `..` at place [dd] the patterns after it stand for the last values. *)
  Definition match_dd (ps : list pat) (dd : option nat) (vs : list val) : option bindings :=
    match dd with
    | None => match_all ps vs
    | Some k =>
        if length ps <=? length vs
        then join (match_all (firstn k ps) (firstn k vs)) (match_all (skipn k ps) (skipn (length vs - length (skipn k ps)) vs))
        else None
    end.
  Fixpoint match_fields (fs : list (name * pat)) (vs : list (name * val)) : option bindings :=
    match fs with [] => Some [] | (f, p) :: fs => match lookup f vs with Some v => join (match_pat p v) (match_fields fs vs) | None => None end end.
  Fixpoint match_any (ps : list pat) (v : val) : option bindings :=
    match ps with [] => None | p :: ps => match match_pat p v with Some b => Some b | None => match_any ps v end end.
End Match.
Fixpoint match_pat (n : nat) (p : pat) (v : val) : option bindings :=
  match n with
  | 0 => None
  | S n =>
      match p, v with
      | PWild, _ => Some []
      | PBind _ x None, v => Some [(x, v)]
      | PBind _ x (Some p), v => join (match_pat n p v) (Some [(x, v)])
      | PLit a, VLit b => if lit_eqb a b then Some [] else None
      | PRange lo hi incl, VLit b =>
          if match lo with Some a => int_le a b | None => true end && match hi with Some c => if incl then int_le b c else int_lt b c | None => true end
          then Some [] else None
      | PRef _ p, VRef v => match_pat n p v
      | PTuple ps dd, VTup vs => match_dd (match_pat n) ps dd vs
      | PVariant q ps dd, VVariant q' vs => if Nat.eqb q q' then match_dd (match_pat n) ps dd vs else None
      | PStruct q fs _, VStruct q' vs => if Nat.eqb q q' then match_fields (match_pat n) fs vs else None
      | POr ps, v => match_any (match_pat n) ps v
      | _, _ => None
      end
  end.
Definition matches (p : pat) (v : val) : option bindings := match_pat (pat_size p) p v.
Definition bind_all (s : store) (b : bindings) : store := fold_left (fun s xv => set s (fst xv) (snd xv)) b s.

(** ** Running *)
Definition bind (r : result) (k : val -> store -> trace -> result) : result := match r with Fine (Val v) s t => k v s t | r => r end.
Definition finish (o : option val) (s : store) (t : trace) : result := match o with Some v => Fine (Val v) s t | None => Fine Panic s t end.
Definition truth (v : val) : option bool := match v with VLit (LBool b) => Some b | _ => None end.
Definition is_lit (v : val) : bool := match v with VLit _ => true | _ => false end.
(** References to primitive values are compared like the values. *)
Fixpoint behind (v : val) : val := match v with VRef v => behind v | v => v end.
Definition lab_eqb (a b : option label) : bool := opt_eqb Nat.eqb a b.

Section Run.
  Variable w : world.
  Definition operate (op : bop) (lp rp : bool) (v u : val) (s : store) (t : trace) : result :=
    match behind v, behind u with
    | VLit a, VLit b => finish (option_map VLit (w_prim w op a b)) s t
    | _, _ => if (lp && negb (is_lit (behind v))) || (rp && negb (is_lit (behind u))) then Wrong
              else finish (w_user w op v u t) s (Operated op v u :: t)
    end.
  Definition field (v : val) (f : name) : option val :=
    match behind v with VStruct _ fs => lookup f fs | VTup vs => nth_error vs f | _ => None end.
  Definition merge (given rest : list (name * val)) : list (name * val) :=
    given ++ filter (fun f => match lookup (fst f) given with Some _ => false | None => true end) rest.
  (** What a node does with the values of its operands. *)
  Definition act (k : kind) (vs : list val) (s : store) (t : trace) : result :=
    match k, vs with
    | KAddrOf false, [v] => Fine (Val (VRef v)) s t
    | KArray, _ => Fine (Val (VArr vs)) s t
    | KTup, _ => Fine (Val (VTup vs)) s t
    | KCall, f :: vs => finish (w_call w f vs t) s (Called f vs :: t)
    | KMethod m, vs => finish (w_method w m vs t) s (Invoked m vs :: t)
    | KCast ty, [v] => Fine (Val (w_cast w (erase ty) v)) s t
    | KField f, [v] => match field v f with Some v => Fine (Val v) s t | None => Wrong end
    | KIndex, [v; VLit (LInt z)] =>
        match behind v with VArr vs => finish (if (z <? 0)%Z then None else nth_error vs (Z.to_nat z)) s t | _ => Wrong end
    | KStruct p fs false, _ => Fine (Val (VStruct p (combine fs vs))) s t
    | KStruct p fs true, _ =>
        match last vs unit_ with VStruct _ rest => Fine (Val (VStruct p (merge (combine fs (removelast vs)) rest))) s t | _ => Wrong end
    | KUnary Deref, [VRef v] => Fine (Val v) s t
    | KUnary u, [VLit a] => match u with Deref => Wrong | _ => finish (option_map VLit (w_un w u a)) s t end
    | _, _ => Wrong
    end.
  (** A place is a local or a field of a place. *)
  Fixpoint place (e : expr) : option (id * list name) :=
    match e with ELocal x => Some (x, []) | ENode (KField f) [e] => match place e with Some (x, fs) => Some (x, fs ++ [f]) | None => None end | _ => None end.
  Fixpoint put_field (f : name) (new : val -> option val) (fs : list (name * val)) : option (list (name * val)) :=
    match fs with
    | [] => None
    | (g, v) :: fs => if Nat.eqb f g then option_map (fun v => (g, v) :: fs) (new v) else option_map (cons (g, v)) (put_field f new fs)
    end.
  Fixpoint put_nth (n : nat) (new : val -> option val) (vs : list val) : option (list val) :=
    match n, vs with
    | 0, v :: vs => option_map (fun v => v :: vs) (new v)
    | S n, v :: vs => option_map (cons v) (put_nth n new vs)
    | _, [] => None
    end.
  Fixpoint put (fs : list name) (new : val) (old : val) : option val :=
    match fs with
    | [] => Some new
    | f :: fs =>
        match old with
        | VStruct p vs => option_map (VStruct p) (put_field f (put fs new) vs)
        | VTup vs => option_map VTup (put_nth f (put fs new) vs)
        | _ => None
        end
    end.
  Definition write (e : expr) (v : val) (s : store) (t : trace) : result :=
    match place e with
    | Some (x, []) => Fine (Val unit_) (set s x v) t
    | Some (x, fs) => match s x with
                      | Some old => match put fs v old with Some new => Fine (Val unit_) (set s x new) t | None => Wrong end
                      | None => Wrong
                      end
    | None => Wrong
    end.
  Section With.
    Variable ev : expr -> store -> trace -> result.
    Fixpoint ev_list (es : list expr) (k : list val -> store -> trace -> result) (s : store) (t : trace) : result :=
      match es with
      | [] => k [] s t
      | e :: es => bind (ev e s t) (fun v => ev_list es (fun vs => k (v :: vs)))
      end.
    Definition ev_opt (e : option expr) (k : option val -> store -> trace -> result) (s : store) (t : trace) : result :=
      match e with Some e => bind (ev e s t) (fun v => k (Some v)) | None => k None s t end.
    Definition ev_stmt (block : list stmt * option expr -> store -> trace -> result) (x : stmt) (k : store -> trace -> result) (s : store) (t : trace) : result :=
      match x with
      | SLet p _ _ None _ => k s t
      | SLet p _ _ (Some e) els =>
          bind (ev e s t) (fun v s t =>
            match matches p v with
            | Some b => k (bind_all s b) t
            | None => match els with Some blk => bind (block blk s t) (fun _ _ _ => Wrong) | None => Wrong end
            end)
      | SExpr e | SSemi e => bind (ev e s t) (fun _ => k)
      | SItem => k s t
      end.
    Fixpoint ev_stmts (block : list stmt * option expr -> store -> trace -> result) (ss : list stmt) (k : store -> trace -> result) (s : store) (t : trace) : result :=
      match ss with [] => k s t | x :: ss => ev_stmt block x (ev_stmts block ss k) s t end.
    Definition ev_tail (e : option expr) (s : store) (t : trace) : result := match e with Some e => ev e s t | None => Fine (Val unit_) s t end.
    Fixpoint ev_arms (arms : list (pat * option expr * expr)) (v : val) (s : store) (t : trace) : result :=
      match arms with
      | [] => Wrong
      | (p, g, b) :: arms =>
          match matches p v with
          | None => ev_arms arms v s t
          | Some bs =>
              match g with
              | None => ev b (bind_all s bs) t
              | Some g => bind (ev g (bind_all s bs) t) (fun c s t => match truth c with Some true => ev b s t | Some false => ev_arms arms v s t | None => Wrong end)
              end
          end
      end.
  End With.

  (** The statements, then the end of the block. *)
  Fixpoint block (ev : expr -> store -> trace -> result) (n : nat) (b : list stmt * option expr) (s : store) (t : trace) : result :=
    match n with
    | 0 => More
    | S n => ev_stmts ev (block ev n) (fst b) (ev_tail ev (snd b)) s t
    end.
  Definition leave (x : exit) (o : option val) (s : store) (t : trace) : result :=
    let v := match o with Some v => v | None => unit_ end in
    match x with XBreak l => Fine (Brk l v) s t | XContinue l => Fine (Cnt l) s t | XReturn => Fine (Ret v) s t end.
  (** A break or `continue` without a label is for the innermost loop, one with a label for the innermost loop or block so called. *)
  Definition for_loop (lab l : option label) : bool := match l with None => true | Some _ => lab_eqb lab l end.
  (** `&&` goes on with [true], `||` with [false]. *)
  Definition short (go_on : bool) (v : val) (k : store -> trace -> result) (s : store) (t : trace) : result :=
    match truth v with Some b => if Bool.eqb b go_on then k s t else Fine (Val v) s t | None => Wrong end.
  Definition boolean (v : val) (s : store) (t : trace) : result := match truth v with Some _ => Fine (Val v) s t | None => Wrong end.
  Definition binary (ev : expr -> store -> trace -> result) (op : bop) (lp rp : bool) (a b : expr) (s : store) (t : trace) : result :=
    bind (ev a s t) (fun v s t =>
      match op with
      | And => short true v (fun s t => bind (ev b s t) boolean) s t
      | Or => short false v (fun s t => bind (ev b s t) boolean) s t
      | _ => bind (ev b s t) (operate op lp rp v)
      end).
  Fixpoint eval (n : nat) (e : expr) (s : store) (t : trace) : result :=
    match n with
    | 0 => More
    | S n =>
        let ev := eval n in
        match e with
        | ELit l => Fine (Val (VLit l)) s t
        | ELocal x => match s x with Some v => Fine (Val v) s t | None => Wrong end
        | EItem d _ => Fine (Val (w_item w d)) s t
        | ENode k es => ev_list ev es (act k) s t
        | EBinary op lp rp a b => binary ev op lp rp a b s t
        | EAssign None l r => bind (ev r s t) (write l)
        | EAssign (Some op) l r => bind (ev r s t) (fun u s t => bind (ev l s t) (fun v s t => bind (operate op true true v u s t) (write l)))
        | EBlock lab _ ss tail =>
            match block ev n (ss, tail) s t with
            | Fine (Brk (Some l) v) s t => if lab_eqb lab (Some l) then Fine (Val v) s t else Fine (Brk (Some l) v) s t
            | r => r
            end
        | EIf c a b =>
            bind (ev c s t) (fun v s t => match truth v with
              | Some true => ev a s t
              | Some false => match b with Some b => ev b s t | None => Fine (Val unit_) s t end
              | None => Wrong end)
        | ELet p _ e => bind (ev e s t) (fun v s t => match matches p v with
              | Some b => Fine (Val (VLit (LBool true))) (bind_all s b) t
              | None => Fine (Val (VLit (LBool false))) s t end)
        | EMatch e arms => bind (ev e s t) (ev_arms ev arms)
        | ELoop lab k ss tail =>
            match block ev n (ss, tail) s t with
            | Fine (Val _) s t => ev (ELoop lab k ss tail) s t
            | Fine (Brk l v) s t => if for_loop lab l then Fine (Val v) s t else Fine (Brk l v) s t
            | Fine (Cnt l) s t => if for_loop lab l then ev (ELoop lab k ss tail) s t else Fine (Cnt l) s t
            | r => r
            end
        | EExit x e => ev_opt ev e (leave x) s t
        | EClosure _ => Wrong
        end
    end.
End Run.

(** ** Bindings *)
Fixpoint binds_pat (p : pat) : list id :=
  match p with
  | PBind _ x s => x :: match s with Some p => binds_pat p | None => [] end
  | PRef _ p => binds_pat p
  | PTuple ps _ | PVariant _ ps _ => flat_map binds_pat ps
  | PStruct _ fs _ => flat_map (fun f => binds_pat (snd f)) fs
  | POr ps => match ps with p :: _ => binds_pat p | [] => [] end
  | _ => []
  end.
Definition opt_list {A B} (f : A -> list B) (o : option A) : list B := match o with Some x => f x | None => [] end.
(** All bindings made inside an expression. *)
Fixpoint binds (e : expr) : list id :=
  match e with
  | ELit _ | ELocal _ | EItem _ _ => []
  | ENode _ es => flat_map binds es
  | EBinary _ _ _ l r | EAssign _ l r => binds l ++ binds r
  | EBlock _ _ ss t | ELoop _ _ ss t => flat_map stmt_binds ss ++ opt_list binds t
  | EIf c t e => binds c ++ binds t ++ opt_list binds e
  | ELet p _ e => binds_pat p ++ binds e
  | EMatch e arms => binds e ++ flat_map (fun a => match a with (p, g, b) => binds_pat p ++ opt_list binds g ++ binds b end) arms
  | EExit _ e => opt_list binds e
  | EClosure e => binds e
  end
with stmt_binds (s : stmt) : list id :=
  match s with
  | SLet p _ _ i els => opt_list binds i ++ match els with Some (ss, t) => flat_map stmt_binds ss ++ opt_list binds t | None => [] end ++ binds_pat p
  | SExpr e | SSemi e => binds e
  | SItem => []
  end.
(** The bindings made by a condition. *)
Fixpoint exports (e : expr) : list id :=
  match e with ELet p _ _ => binds_pat p | EBinary And _ _ l r => exports l ++ exports r | _ => [] end.
Definition minus (xs ys : list id) : list id := filter (fun y => negb (existsb (Nat.eqb y) xs)) ys.
Definition stmt_exports (s : stmt) : list id := match s with SLet p _ _ _ _ => binds_pat p | _ => [] end.
(** The locals of an expression that are bound outside.  (The second part of a chain `let p = e && f` is not in the scope of `p` here.) *)
Fixpoint free (e : expr) : list id :=
  match e with
  | ELit _ | EItem _ _ => []
  | ELocal x => [x]
  | ENode _ es => flat_map free es
  | EBinary _ _ _ l r | EAssign _ l r => free l ++ free r
  | EBlock _ _ ss t | ELoop _ _ ss t => fold_right (fun s later => stmt_free s ++ minus (stmt_exports s) later) (opt_list free t) ss
  | EIf c t e => free c ++ minus (exports c) (free t) ++ opt_list free e
  | ELet _ _ e => free e
  | EMatch e arms =>
      free e ++ flat_map (fun a => match a with (p, g, b) => minus (binds_pat p) (opt_list free g ++ minus (opt_list exports g) (free b)) end) arms
  | EExit _ e => opt_list free e
  | EClosure e => free e
  end
with stmt_free (s : stmt) : list id :=
  match s with
  | SLet _ _ _ i els =>
      opt_list free i ++ match els with Some (ss, t) => fold_right (fun s later => stmt_free s ++ minus (stmt_exports s) later) (opt_list free t) ss | None => [] end
  | SExpr e | SSemi e => free e
  | SItem => []
  end.

(** ** Parts *)
Fixpoint stmt_parts (s : stmt) : list expr :=
  match s with
  | SLet _ _ _ i els => opt_list (fun e => [e]) i ++ match els with Some (ss, t) => flat_map stmt_parts ss ++ opt_list (fun e => [e]) t | None => [] end
  | SExpr e | SSemi e => [e]
  | SItem => []
  end.
Definition block_parts (b : list stmt * option expr) : list expr := flat_map stmt_parts (fst b) ++ opt_list (fun e => [e]) (snd b).
Definition arm_parts (a : pat * option expr * expr) : list expr := opt_list (fun e => [e]) (snd (fst a)) ++ [snd a].
Definition parts (e : expr) : list expr :=
  match e with
  | ELit _ | ELocal _ | EItem _ _ => []
  | ENode _ es => es
  | EBinary _ _ _ l r | EAssign _ l r => [l; r]
  | EBlock _ _ ss t | ELoop _ _ ss t => block_parts (ss, t)
  | EIf c t e => c :: t :: opt_list (fun e => [e]) e
  | ELet _ _ e => [e]
  | EMatch e arms => e :: flat_map arm_parts arms
  | EExit _ e => opt_list (fun e => [e]) e
  | EClosure e => [e]
  end.
Inductive within : expr -> expr -> Prop :=
| w_here e : within e e
| w_part e c d : In c (parts e) -> within c d -> within e d.
Definition no_block_labels (e : expr) : Prop := forall l u ss t, ~ within e (EBlock (Some l) u ss t).

(** ** Expressions that differ in the order of operands *)
Inductive opt_rel {A} (E : A -> A -> Prop) : option A -> option A -> Prop :=
| or_none : opt_rel E None None
| or_some x y : E x y -> opt_rel E (Some x) (Some y).
Section Rel.
  Variable E : expr -> expr -> Prop.
  Variable P : pat -> pat -> Prop.
  Inductive stmt_rel : stmt -> stmt -> Prop :=
  | sr_let p p' k k' t t' i i' : P p p' -> opt_rel E i i' -> stmt_rel (SLet p k t i None) (SLet p' k' t' i' None)
  | sr_let_else p p' k k' t t' i i' ss ss' b b' : P p p' -> opt_rel E i i' -> Forall2 stmt_rel ss ss' -> opt_rel E b b' ->
      stmt_rel (SLet p k t i (Some (ss, b))) (SLet p' k' t' i' (Some (ss', b')))
  | sr_expr e e' : E e e' -> stmt_rel (SExpr e) (SExpr e')
  | sr_semi e e' : E e e' -> stmt_rel (SSemi e) (SSemi e')
  | sr_item : stmt_rel SItem SItem.
  Inductive block_rel : list stmt * option expr -> list stmt * option expr -> Prop :=
  | br ss ss' t t' : Forall2 stmt_rel ss ss' -> opt_rel E t t' -> block_rel (ss, t) (ss', t').
  Inductive arm_rel : pat * option expr * expr -> pat * option expr * expr -> Prop :=
  | ar p p' g g' b b' : P p p' -> opt_rel E g g' -> E b b' -> arm_rel (p, g, b) (p', g', b').
End Rel.
(** Operators whose operands may be exchanged, and what the operator becomes: comparisons; the others if the left operand is primitive. *)
Inductive exchangeable : bop -> bop -> bool -> Prop :=
| ex_eq p : exchangeable Eq Eq p | ex_ne p : exchangeable Ne Ne p
| ex_lt p : exchangeable Lt Gt p | ex_gt p : exchangeable Gt Lt p | ex_le p : exchangeable Le Ge p | ex_ge p : exchangeable Ge Le p
| ex_add : exchangeable Add Add true | ex_mul : exchangeable Mul Mul true
| ex_xor : exchangeable BitXor BitXor true | ex_band : exchangeable BitAnd BitAnd true | ex_bor : exchangeable BitOr BitOr true
| ex_and : exchangeable And And true | ex_or : exchangeable Or Or true.
(** [reordered C e e']: [e'] is [e] with the operands of some such operators exchanged, those for which [C] holds. *)
Inductive reordered (C : expr -> Prop) : expr -> expr -> Prop :=
| ro_same e : reordered C e e
| ro_node k es es' : Forall2 (reordered C) es es' -> reordered C (ENode k es) (ENode k es')
| ro_binary op lp rp l r l' r' : reordered C l l' -> reordered C r r' -> reordered C (EBinary op lp rp l r) (EBinary op lp rp l' r')
| ro_exchange op op' lp lp' rp l r l' r' : exchangeable op' op lp' -> C (EBinary op lp rp l r) ->
    reordered C l l' -> reordered C r r' -> reordered C (EBinary op lp rp l r) (EBinary op' rp lp r' l')
| ro_assign op l r l' r' : reordered C l l' -> reordered C r r' -> reordered C (EAssign op l r) (EAssign op l' r')
| ro_block lab u ss t ss' t' : block_rel (reordered C) eq (ss, t) (ss', t') -> reordered C (EBlock lab u ss t) (EBlock lab u ss' t')
| ro_if c t e c' t' e' : reordered C c c' -> reordered C t t' -> opt_rel (reordered C) e e' -> reordered C (EIf c t e) (EIf c' t' e')
| ro_let p t e e' : reordered C e e' -> reordered C (ELet p t e) (ELet p t e')
| ro_match e e' arms arms' : reordered C e e' -> Forall2 (arm_rel (reordered C) eq) arms arms' -> reordered C (EMatch e arms) (EMatch e' arms')
| ro_loop lab k ss t ss' t' : block_rel (reordered C) eq (ss, t) (ss', t') -> reordered C (ELoop lab k ss t) (ELoop lab k ss' t')
| ro_exit x e e' : opt_rel (reordered C) e e' -> reordered C (EExit x e) (EExit x e').

(** ** Operands that may be exchanged: they do nothing but compute a value *)
Definition arithmetic (op : bop) : bool := match op with Add | Sub | Mul | Div | Rem | Shl | Shr => true | _ => false end.
(** [p]: may it panic? *)
Fixpoint computes (p : bool) (e : expr) : bool :=
  match e with
  | ELit _ | ELocal _ | EItem _ _ => true
  | ENode k es =>
      match k with KCall | KMethod _ => false | KIndex | KUnary Neg => p | _ => true end && forallb (computes p) es
  | EBinary op lp rp l r =>
      match op with
      | And | Or => computes false l && computes false r
      | _ => (p || negb (arithmetic op)) && lp && rp && computes p l && computes p r
      end
  | _ => false
  end.
Definition calm (e : expr) : Prop :=
  match e with
  | EBinary (And | Or) _ _ l r => computes false l = true /\ computes false r = true
  | EBinary _ lp rp l r => lp = true /\ rp = true /\ computes true l = true /\ computes true r = true
  | _ => True
  end.
(** Primitive operators as they are: symmetric, and only arithmetic panics. *)
Record sensible (w : world) : Prop := {
  w_commutes : commutes w;
  w_comparison : forall op a b, arithmetic op = false -> w_prim w op a b <> None;
  w_negation : forall a, w_un w Not a <> None }.

(** ** Constants *)
(** Whatever is taken for a constant has that value, always; and it is not a `let`. *)
Definition konst_sound (w : world) (konst : expr -> option (nat * lit)) : Prop :=
  forall e k c, konst e = Some (k, c) ->
    exports e = [] /\
    forall n s t, (eval w n e s t = More /\ n < size e) \/ eval w n e s t = Fine (Val (VLit c)) s t.
(** The two expressions are apart: no binding is made twice, and none is used outside the expression that makes it. *)
Definition apart (l r : expr) : Prop :=
  NoDup (binds l ++ binds r) /\ (forall x, In x (free l) \/ In x (free r) -> ~ In x (binds l ++ binds r)).
(** Before either runs, its bindings have no values. *)
Definition fresh (l r : expr) (s : store) : Prop := forall x, In x (binds l ++ binds r) -> s x = None.
(** [prim] tells whether the type of an expression is primitive: the operators are marked accordingly, and expressions found equal agree on it. *)
Definition marked (prim : expr -> bool) (e : expr) : Prop := forall op lp rp a b, within e (EBinary op lp rp a b) -> lp = prim a /\ rp = prim b.
Definition types_agree (konst : expr -> option (nat * lit)) (allow : bool) (prim : expr -> bool) (l r : expr) : Prop :=
  forall n a b m, within l a -> within r b -> fst (eq_expr konst allow n a b m) = true -> prim a = prim b.
Record comparable (w : world) (konst : expr -> option (nat * lit)) (allow : bool) (prim : expr -> bool) (l r : expr) : Prop := {
  c_konst : konst_sound w konst;
  c_apart : apart l r;
  c_left : no_block_labels l;
  c_right : no_block_labels r;
  c_marked_left : marked prim l;
  c_marked_right : marked prim r;
  c_types : types_agree konst allow prim l r }.
(** If [a] is finished, [b] has the same outcome, the same events, and the same values of all locals but [xs]; with [lax] it may also go wrong. *)
Definition follows (lax : bool) (xs : list id) (a b : result) : Prop :=
  match a with
  | Fine o s t => match b with Fine o' s' t' => o = o' /\ t = t' /\ (forall x, ~ In x xs -> s x = s' x) | Wrong => lax = true | More => False end
  | _ => True
  end.

(** ** Expressions without effects *)
(** Operators are those of primitive types. *)
Definition primitive_operators (e : expr) : Prop := forall op lp rp a b, within e (EBinary op lp rp a b) -> lp = true /\ rp = true.
(** Nothing happened but that the locals [xs] may have got values. *)
Definition harmless (xs : list id) (r : result) (s : store) (t : trace) : Prop :=
  match r with Fine _ s' t' => t' = t /\ (forall x, ~ In x xs -> s' x = s x) | _ => True end.

(** ** Expressions whose equals are equal word for word *)
Fixpoint or_free (p : pat) : bool :=
  match p with
  | PBind _ _ (Some p) | PRef _ p => or_free p
  | PTuple ps _ | PVariant _ ps _ => forallb or_free ps
  | PStruct _ fs _ => forallb (fun f => or_free (snd f)) fs
  | POr _ => false
  | _ => true
  end.
(** The patterns right inside. *)
Fixpoint stmt_pats (s : stmt) : list pat :=
  match s with SLet p _ _ _ els => p :: match els with Some (ss, _) => flat_map stmt_pats ss | None => [] end | _ => [] end.
Definition pats (e : expr) : list pat :=
  match e with
  | EBlock _ _ ss _ | ELoop _ _ ss _ => flat_map stmt_pats ss
  | ELet p _ _ => [p]
  | EMatch _ arms => map (fun a => fst (fst a)) arms
  | _ => []
  end.
(** No lifetimes. *)
Fixpoint plain_ty (t : ty) : bool := match t with TyRef _ _ _ => false | TyPtr _ t | TySlice t => plain_ty t | _ => true end.
(** No `..` in struct patterns. *)
Fixpoint plain_pat (p : pat) : bool :=
  match p with
  | PBind _ _ (Some p) | PRef _ p => plain_pat p
  | PTuple ps _ | PVariant _ ps _ | POr ps => forallb plain_pat ps
  | PStruct _ fs rest => negb rest && forallb (fun f => plain_pat (snd f)) fs
  | _ => true
  end.
(** Not an operator whose operands may be exchanged, not an empty block, not a block around a `return`, not an `unsafe` block, without lifetimes and `..` in struct patterns. *)
Definition rigid_here (e : expr) : bool :=
  forallb plain_pat (pats e) &&
  match e with
  | EBinary op lp _ _ _ => match op with Sub | Div | Rem | Shl | Shr => true | Add | Mul | And | Or | BitAnd | BitXor | BitOr => negb lp | _ => false end
  | EBlock _ u ss t =>
      negb u && match ss, t with
                | [], None | [], Some (EExit XReturn _) | [SExpr (EExit XReturn _)], None | [SSemi (EExit XReturn _)], None => false
                | _, _ => true
                end
  | ENode (KCast t) _ => plain_ty t
  | ELet _ (Some t) _ => plain_ty t
  | EExit (XContinue _) (Some _) => false
  | _ => true
  end.
Definition rigid (e : expr) : Prop := forall d, within e d -> rigid_here d = true.
(** Expressions found equal are constants of one value, or none is a constant. *)
Definition constants_agree (konst : expr -> option (nat * lit)) (allow : bool) (l r : expr) : Prop :=
  forall n a b m, within l a -> within r b -> fst (eq_expr konst allow n a b m) = true -> option_map snd (konst a) = option_map snd (konst b).
(** ** Expressions that are equal to themselves *)
Fixpoint complete_ty (t : ty) : bool := match t with TyNever => false | TyRef _ _ t | TyPtr _ t | TySlice t => complete_ty t | _ => true end.
Definition opt_all {A} (f : A -> bool) (o : option A) : bool := match o with Some x => f x | None => true end.
Fixpoint stmt_regular (s : stmt) : bool :=
  match s with SLet _ _ t _ els => opt_all complete_ty t && match els with Some (ss, _) => forallb stmt_regular ss | None => true end | SItem => false | _ => true end.
(** Without closures, items inside blocks, or-patterns and the type `!`; if not [allow], without calls and assignments. *)
Definition regular_here (allow : bool) (e : expr) : bool :=
  forallb or_free (pats e) &&
  match e with
  | EClosure _ => false
  | ENode (KCast t) _ => complete_ty t
  | ENode (KCall | KMethod _) _ | EAssign _ _ _ => allow
  | ELet _ (Some t) _ => complete_ty t
  | EBlock _ _ ss _ | ELoop _ _ ss _ => forallb stmt_regular ss
  | _ => true
  end.
Definition regular (allow : bool) (e : expr) : Prop := forall d, within e d -> regular_here allow d = true.

(** ** Chains of conditions *)
Section Chain.
  Variable w : world.
  (** All conditions are found false, one after the other. *)
  Inductive all_false : list expr -> store -> trace -> store -> trace -> Prop :=
  | af_nil s t : all_false [] s t s t
  | af_cons c cs s t n s1 t1 s2 t2 : eval w n c s t = Fine (Val (VLit (LBool false))) s1 t1 -> all_false cs s1 t1 s2 t2 -> all_false (c :: cs) s t s2 t2.
End Chain.
