(** A language of closures: bodies with local variables, patterns, assignment, `return`, `break`, loops, and calls of
    unknown functions, together with the methods of Option, Result and bool that take closures.  This is the meaning of
    programs against which the lints about such methods are judged; nothing in this file models clippy. *)
From Coq Require Export List ZArith Bool Lia.
Export ListNotations.

(** ** Values.  References are kept apart from what they refer to; closures that are only created are all alike. *)
Inductive kind := KTup | KArr | KCtor (c : nat).
Inductive val :=
| VInt (z : Z)
| VBool (b : bool)
| VData (k : kind) (vs : list val)
| VRef (v : val)
| VFn.

Definition c_none : nat := 0.
Definition c_some : nat := 1.
Definition c_ok : nat := 2.
Definition c_err : nat := 3.
Definition none_v : val := VData (KCtor c_none) [].
Definition some_v (v : val) : val := VData (KCtor c_some) [v].
Definition ok_v (v : val) : val := VData (KCtor c_ok) [v].
Definition err_v (v : val) : val := VData (KCtor c_err) [v].
Definition unit_v : val := VData KTup [].

Definition kind_eqb (a b : kind) : bool :=
  match a, b with
  | KTup, KTup | KArr, KArr => true
  | KCtor c, KCtor d => Nat.eqb c d
  | _, _ => false
  end.

(** ** Patterns.  Variables carry the identity of their binding, not a name.  [by_ref] is the mode computed by the type
    checker (match ergonomics); `..` has a position. *)
Inductive pat :=
| PWild
| PBind (by_ref : bool) (x : nat) (sub : option pat)
| PData (k : kind) (ps : list pat) (dots : option nat)
| PSlice (before : list pat) (mid : option pat) (after : list pat)
| PStruct (c : nat) (fs : list (nat * pat)) (rest : bool)
| PLit (z : Z)
| PBool (b : bool)
| PRef (p : pat).

(** ** Expressions.  The receiver of a method has one of the types the methods belong to.  [adj] marks an adjustment (a
    coercion or reborrow inserted by the type checker).  A call of a function other than a constructor, an operator, a
    field access and so on are all [ECall]. *)
Inductive rty := TOption | TResult | TBool.
Inductive path := PCtor (c : nat) | PFn (f : nat) | PIdentity.
Inductive meth :=
| MMap | MMapErr | MAndThen | MAnd | MOrElse | MOr | MUnwrap | MUnwrapErr | MExpect | MExpectErr | MUnwrapOr | MUnwrapOrElse
| MUnwrapOrDefault (is_bool : bool) | MMapOr | MMapOrElse | MIsGood | MIsBad | MIsGoodAnd | MIsNoneOr | MFilter | MOk
| MErr | MOkOr | MOkOrElse | MZip | MAsRef | MThen | MThenSome.

Inductive expr :=
| EVar (x : nat) (adj : bool)
| EInt (z : Z)
| EBool (b : bool)
| EData (k : kind) (es : list expr)
| EStruct (c : nat) (fs : list (nat * expr))
| ECall (f : nat) (es : list expr)
| ECallPath (p : path) (es : list expr)
| ENot (e : expr)
| EEq (neg : bool) (a b : expr)
| EOr (a b : expr)
| EAssign (x : nat) (e : expr)
| EIf (c a : expr) (b : option expr)
| EIfLet (p : pat) (c a : expr) (b : option expr)
| EMatch (is_try : bool) (e : expr) (arms : list (pat * option expr * expr))
| EBlock (label : option nat) (ss : list stmt) (tail : option expr)
| ELoop (label : option nat) (body : expr)
| ERet (e : option expr)
| EBreak (label : option nat) (e : option expr)
| EClosure (ps : list pat) (body : expr)
| EMeth (t : rty) (m : meth) (recv : expr) (args : list arg)
| EPanic (es : list expr)
with stmt :=
| SLet (p : pat) (init : option expr) (els : option expr)
| SExpr (e : expr)
| SSemi (e : expr)
with arg :=
| AE (e : expr)
| AC (ps : list pat) (body : expr)
| AP (p : path).

(** ** Meaning of patterns. *)
Fixpoint nodupb (l : list nat) : bool :=
  match l with [] => true | x :: r => negb (existsb (Nat.eqb x) r) && nodupb r end.
Definition binding := (nat * val)%type.
Fixpoint match_pat (p : pat) (v : val) {struct p} : option (list binding) :=
  let fix all (ps : list pat) (vs : list val) {struct ps} : option (list binding) :=
    match ps, vs with
    | [], [] => Some []
    | p :: ps, v :: vs =>
        match match_pat p v, all ps vs with Some a, Some b => Some (a ++ b) | _, _ => None end
    | _, _ => None
    end in
  match p, v with
  | PWild, _ => Some []
  | PBind r x None, v => Some [(x, if r then VRef v else v)]
  | PBind r x (Some q), v =>
      match match_pat q v with Some bs => Some ((x, if r then VRef v else v) :: bs) | None => None end
  | PData k ps None, VData k' vs => if kind_eqb k k' then all ps vs else None
  | PData k ps (Some n), VData k' vs =>
      if kind_eqb k k' && (length ps <=? length vs)
      then all ps (firstn n vs ++ skipn (length vs - (length ps - n)) vs) else None
  | PSlice b None a, VData KArr vs =>
      match all b (firstn (length b) vs), all a (skipn (length b) vs) with
      | Some x, Some y => Some (x ++ y)
      | _, _ => None
      end
  | PSlice b (Some m) a, VData KArr vs =>
      if length b + length a <=? length vs
      then match all b (firstn (length b) vs),
                 match_pat m (VData KArr (firstn (length vs - (length b + length a)) (skipn (length b) vs))),
                 all a (skipn (length vs - length a) vs) with
           | Some x, Some y, Some z => Some (x ++ y ++ z)
           | _, _, _ => None
           end
      else None
  | PStruct c fs rest, VData (KCtor c') vs =>
      let fix fields (fs : list (nat * pat)) : option (list binding) :=
        match fs with
        | [] => Some []
        | (i, p) :: fs =>
            match nth_error vs i with
            | Some v => match match_pat p v, fields fs with Some a, Some b => Some (a ++ b) | _, _ => None end
            | None => None
            end
        end in
      if Nat.eqb c c' && nodupb (map fst fs) && (rest || Nat.eqb (length fs) (length vs)) then fields fs else None
  | PLit z, VInt z' => if Z.eqb z z' then Some [] else None
  | PBool b, VBool b' => if Bool.eqb b b' then Some [] else None
  | PRef p, VRef v => match_pat p v
  | _, _ => None
  end.

(** ** The world: what unknown functions do, what adjustments and `==` on other types compute. *)
Inductive cout := CVal (v : val) | CPanic.
Record world := {
  W : Type;
  call : nat -> list val -> W -> cout * W;
  adjust : val -> val;
  eq_other : val -> val -> bool
}.
Definition env := list binding.
Definition state (w : world) : Type := (env * W w)%type.

(** What a piece of code may end with.  [OStuck] is what the type checker excludes. *)
Inductive out :=
| OVal (v : val) | ORet (v : val) | OBrk (l : option nat) (v : val) | OPanic | ODiverge | OStuck.

Fixpoint lookup (x : nat) (r : env) : option val :=
  match r with [] => None | (y, v) :: r => if Nat.eqb x y then Some v else lookup x r end.
Fixpoint assign (x : nat) (v : val) (r : env) : option env :=
  match r with
  | [] => None
  | (y, u) :: r => if Nat.eqb x y then Some ((y, v) :: r) else option_map (cons (y, u)) (assign x v r)
  end.
(** Leaving a scope: variables bound since the environment had length [n] are gone. *)
Definition leave {w : world} (n : nat) (st : state w) : state w := (skipn (length (fst st) - n) (fst st), snd st).
Definition enter {w : world} (bs : list binding) (st : state w) : state w := (bs ++ fst st, snd st).

(** `==` of Option and Result compares the variants, then the payloads. *)
Definition std_ctor (c : nat) : bool := c <=? c_err.
Fixpoint value_eq (w : world) (a b : val) {struct a} : bool :=
  match a, b with
  | VData (KCtor c) us, VData (KCtor d) vs =>
      if std_ctor c && std_ctor d
      then Nat.eqb c d && match us, vs with [x], [y] => value_eq w x y | [], [] => true | _, _ => false end
      else eq_other w a b
  | _, _ => eq_other w a b
  end.

(** The two variants of Option and Result, and their payloads. *)
Inductive view := Good (x : val) | Bad (es : list val).
Definition good_ctor (t : rty) : nat := match t with TResult => c_ok | _ => c_some end.
Definition view_of (t : rty) (v : val) : option view :=
  match t, v with
  | TOption, VData (KCtor c) [x] => if Nat.eqb c c_some then Some (Good x) else None
  | TOption, VData (KCtor c) [] => if Nat.eqb c c_none then Some (Bad []) else None
  | TResult, VData (KCtor c) [x] =>
      if Nat.eqb c c_ok then Some (Good x) else if Nat.eqb c c_err then Some (Bad [x]) else None
  | TBool, VBool true => Some (Good unit_v)
  | TBool, VBool false => Some (Bad [])
  | _, _ => None
  end.

(** Struct expressions give every field once. *)
Fixpoint field (i : nat) (l : list (nat * val)) : option val :=
  match l with [] => None | (j, v) :: l => if Nat.eqb i j then Some v else field i l end.
Fixpoint sequence {A} (l : list (option A)) : option (list A) :=
  match l with
  | [] => Some []
  | Some a :: l => option_map (cons a) (sequence l)
  | None :: _ => None
  end.
Definition build (l : list (nat * val)) : option (list val) :=
  if nodupb (map fst l) then sequence (map (fun i => field i l) (seq 0 (length l))) else None.

Definition same_label (a b : option nat) : bool :=
  match a, b with Some x, Some y => Nat.eqb x y | _, _ => false end.

(** ** Evaluation.  [fuel] bounds the rounds of each loop; [dflt] is the function behind `Default::default`. *)
Definition dflt : nat := 0.
Section Eval.
  Variable w : world.
  Variable fuel : nat.
  Let st := state w.

  (** The first argument that is an expression or can be called. *)
  Definition bind_all (ps : list pat) (vs : list val) : option (list binding) := match_pat (PData KTup ps None) (VData KTup vs).

  Definition calls (f : nat) (vs : list val) (s : st) : out * st :=
    let '(c, x) := call w f vs (snd s) in
    (match c with CVal v => OVal v | CPanic => OPanic end, (fst s, x)).

  Definition call_path (p : path) (vs : list val) (s : st) : out * st :=
    match p, vs with
    | PCtor c, _ => (OVal (VData (KCtor c) vs), s)
    | PFn f, _ => calls f vs s
    | PIdentity, [v] => (OVal v, s)
    | PIdentity, _ => (OStuck, s)
    end.

  (** Continue with the value of an expression. *)
  Definition andthen (r : out * st) (k : val -> st -> out * st) : out * st :=
    match r with (OVal v, s) => k v s | r => r end.

  (** A method, given the value of its receiver, the values of its arguments that are no closures, and how to call
      the closures. *)
  Definition method (t : rty) (m : meth) (v : val) (es : list val) (fs : list (list val -> st -> out * st)) (s : st)
    : out * st :=
    match view_of t v with
    | None => (OStuck, s)
    | Some vw =>
        match m, vw, es, fs with
        | MMap, Good x, [], [f] => andthen (f [x] s) (fun y s => (OVal (VData (KCtor (good_ctor t)) [y]), s))
        | MMap, Bad _, [], [f] => (OVal v, s)
        | MMapErr, Good _, [], [f] => (OVal v, s)
        | MMapErr, Bad us, [], [f] => andthen (f us s) (fun y s => (OVal (err_v y), s))
        | MAndThen, Good x, [], [f] => f [x] s
        | MAndThen, Bad _, [], [f] => (OVal v, s)
        | MOrElse, Good _, [], [f] => (OVal v, s)
        | MOrElse, Bad us, [], [f] => f us s
        | MAnd, Good _, [d], [] => (OVal d, s)
        | MAnd, Bad _, [d], [] => (OVal v, s)
        | MOkOrElse, Good x, [], [f] => (OVal (ok_v x), s)
        | MOkOrElse, Bad us, [], [f] => andthen (f us s) (fun y s => (OVal (err_v y), s))
        | MOr, Good _, [d], [] => (OVal v, s)
        | MOr, Bad _, [d], [] => (OVal d, s)
        | MUnwrap, Good x, [], [] => (OVal x, s)
        | MUnwrap, Bad _, [], [] => (OPanic, s)
        | MUnwrapErr, Good _, [], [] => (match t with TResult => OPanic | _ => OStuck end, s)
        | MUnwrapErr, Bad [u], [], [] => (OVal u, s)
        | MExpect, Good x, [_], [] => (OVal x, s)
        | MExpect, Bad _, [_], [] => (OPanic, s)
        | MExpectErr, Good _, [_], [] => (match t with TResult => OPanic | _ => OStuck end, s)
        | MExpectErr, Bad [u], [_], [] => (OVal u, s)
        | MUnwrapOr, Good x, [_], [] => (OVal x, s)
        | MUnwrapOr, Bad _, [d], [] => (OVal d, s)
        | MUnwrapOrElse, Good x, [], [f] => (OVal x, s)
        | MUnwrapOrElse, Bad us, [], [f] => f us s
        | MUnwrapOrDefault _, Good x, [], [] => (OVal x, s)
        | MUnwrapOrDefault true, Bad _, [], [] => (OVal (VBool false), s)
        | MUnwrapOrDefault false, Bad _, [], [] => calls dflt [] s
        | MMapOr, Good x, [_], [f] => f [x] s
        | MMapOr, Bad _, [d], [f] => (OVal d, s)
        | MMapOrElse, Good x, [], [_; f] => f [x] s
        | MMapOrElse, Bad us, [], [g; _] => g us s
        | MIsGood, Good _, [], [] => (OVal (VBool true), s)
        | MIsGood, Bad _, [], [] => (OVal (VBool false), s)
        | MIsBad, Good _, [], [] => (OVal (VBool false), s)
        | MIsBad, Bad _, [], [] => (OVal (VBool true), s)
        | MIsGoodAnd, Good x, [], [f] =>
            andthen (f [x] s) (fun y s => match y with VBool b => (OVal (VBool b), s) | _ => (OStuck, s) end)
        | MIsGoodAnd, Bad _, [], [f] => (OVal (VBool false), s)
        | MIsNoneOr, Good x, [], [f] =>
            andthen (f [x] s) (fun y s => match y with VBool b => (OVal (VBool b), s) | _ => (OStuck, s) end)
        | MIsNoneOr, Bad _, [], [f] => (OVal (VBool true), s)
        | MFilter, Good x, [], [f] =>
            andthen (f [VRef x] s)
              (fun y s => match y with VBool b => (OVal (if b then v else none_v), s) | _ => (OStuck, s) end)
        | MFilter, Bad _, [], [f] => (OVal v, s)
        | MOk, Good x, [], [] => (OVal (some_v x), s)
        | MOk, Bad _, [], [] => (OVal none_v, s)
        | MErr, Good _, [], [] => (OVal none_v, s)
        | MErr, Bad [u], [], [] => (OVal (some_v u), s)
        | MOkOr, Good x, [_], [] => (OVal (ok_v x), s)
        | MOkOr, Bad _, [d], [] => (OVal (err_v d), s)
        | MZip, vw, [d], [] =>
            match vw, view_of TOption d with
            | Good x, Some (Good y) => (OVal (some_v (VData KTup [x; y])), s)
            | _, Some _ => (OVal none_v, s)
            | _, None => (OStuck, s)
            end
        | MAsRef, Good x, [], [] => (OVal (VData (KCtor (good_ctor t)) [VRef x]), s)
        | MAsRef, Bad us, [], [] => (OVal (match us with [u] => err_v (VRef u) | _ => v end), s)
        | MThen, Good _, [], [f] => andthen (f [] s) (fun y s => (OVal (some_v y), s))
        | MThen, Bad _, [], [f] => (OVal none_v, s)
        | MThenSome, Good _, [d], [] => (OVal (some_v d), s)
        | MThenSome, Bad _, [d], [] => (OVal none_v, s)
        | _, _, _, _ => (OStuck, s)
        end
    end.

  Fixpoint eval (e : expr) (s : st) {struct e} : out * st :=
    let fix evals (es : list expr) (s : st) (k : list val -> st -> out * st) {struct es} : out * st :=
      match es with
      | [] => k [] s
      | e :: es => andthen (eval e s) (fun v s => evals es s (fun vs s => k (v :: vs) s))
      end in
    let fix fields (fs : list (nat * expr)) (s : st) (k : list (nat * val) -> st -> out * st) {struct fs} : out * st :=
      match fs with
      | [] => k [] s
      | (i, e) :: fs => andthen (eval e s) (fun v s => fields fs s (fun vs s => k ((i, v) :: vs) s))
      end in
    let opt (o : option expr) (s : st) : out * st := match o with Some e => eval e s | None => (OVal unit_v, s) end in
    match e with
    | EVar x adj =>
        match lookup x (fst s) with Some v => (OVal (if adj then adjust w v else v), s) | None => (OStuck, s) end
    | EInt z => (OVal (VInt z), s)
    | EBool b => (OVal (VBool b), s)
    | EData k es => evals es s (fun vs s => (OVal (VData k vs), s))
    | EStruct c fs =>
        fields fs s (fun vs s => match build vs with Some l => (OVal (VData (KCtor c) l), s) | None => (OStuck, s) end)
    | ECall f es => evals es s (calls f)
    | ECallPath p es => evals es s (call_path p)
    | ENot e => andthen (eval e s) (fun v s => match v with VBool b => (OVal (VBool (negb b)), s) | _ => (OStuck, s) end)
    | EEq neg a b =>
        andthen (eval a s) (fun u s => andthen (eval b s) (fun v s => (OVal (VBool (xorb neg (value_eq w u v))), s)))
    | EOr a b =>
        andthen (eval a s) (fun u s => match u with VBool true => (OVal u, s) | VBool false => eval b s | _ => (OStuck, s) end)
    | EAssign x e =>
        andthen (eval e s)
          (fun v s => match assign x v (fst s) with Some r => (OVal unit_v, (r, snd s)) | None => (OStuck, s) end)
    | EIf c a b =>
        andthen (eval c s)
          (fun v s => match v with VBool true => eval a s | VBool false => opt b s | _ => (OStuck, s) end)
    | EIfLet p c a b =>
        andthen (eval c s)
          (fun v s => match match_pat p v with
                      | Some bs => let '(o, s') := eval a (enter bs s) in (o, leave (length (fst s)) s')
                      | None => opt b s
                      end)
    | EMatch _ e arms =>
        andthen (eval e s)
          (fun v =>
             (fix go (arms : list (pat * option expr * expr)) (s : st) {struct arms} : out * st :=
                match arms with
                | [] => (OStuck, s)
                | (p, g, b) :: arms =>
                    match match_pat p v with
                    | None => go arms s
                    | Some bs =>
                        let n := length (fst s) in
                        match g with
                        | None => let '(o, s') := eval b (enter bs s) in (o, leave n s')
                        | Some g =>
                            match eval g (enter bs s) with
                            | (OVal (VBool true), s') => let '(o, s'') := eval b s' in (o, leave n s'')
                            | (OVal (VBool false), s') => go arms (leave n s')
                            | (OVal _, s') => (OStuck, leave n s')
                            | (o, s') => (o, leave n s')
                            end
                        end
                    end
                end) arms)
    | EBlock l ss t =>
        let n := length (fst s) in
        let '(o, s') :=
          (fix go (ss : list stmt) (s : st) {struct ss} : out * st :=
             match ss with
             | [] => opt t s
             | SExpr e :: ss | SSemi e :: ss => andthen (eval e s) (fun _ s => go ss s)
             | SLet p None _ :: ss => (OStuck, s)
             | SLet p (Some i) els :: ss =>
                 andthen (eval i s)
                   (fun v s => match match_pat p v, els with
                               | Some bs, _ => go ss (enter bs s)
                               | None, Some b =>
                                   match eval b s with (OVal _, s) => (OStuck, s) | r => r end
                               | None, None => (OStuck, s)
                               end)
             end) ss s in
        (match o with OBrk l' v => if same_label l l' then OVal v else o | _ => o end, leave n s')
    | ELoop l b =>
        (fix rounds (k : nat) (s : st) {struct k} : out * st :=
           match k with
           | O => (ODiverge, s)
           | S k =>
               match eval b s with
               | (OVal _, s) => rounds k s
               | (OBrk None v, s) => (OVal v, s)
               | (OBrk l' v, s) => (if same_label l l' then OVal v else OBrk l' v, s)
               | r => r
               end
           end) fuel s
    | ERet e => andthen (opt e s) (fun v s => (ORet v, s))
    | EBreak l e => andthen (opt e s) (fun v s => (OBrk l v, s))
    | EClosure _ _ => (OVal VFn, s)
    | EPanic es => evals es s (fun _ s => (OPanic, s))
    | EMeth t m recv args =>
        let apply (a : arg) (vs : list val) (s : st) : out * st :=
          match a with
          | AE _ => (OStuck, s)
          | AP p => call_path p vs s
          | AC ps b =>
              match bind_all ps vs with
              | None => (OStuck, s)
              | Some bs =>
                  let '(o, s') := eval b (enter bs s) in
                  (match o with ORet v => OVal v | OBrk _ _ => OStuck | _ => o end, leave (length (fst s)) s')
              end
          end in
        andthen (eval recv s)
          (fun v s =>
             match view_of t v with
             | None => (OStuck, s)
             | Some _ =>
                 (fix go (args : list arg) (s : st) (es : list val) (fs : list (list val -> st -> out * st)) {struct args}
                    : out * st :=
                    match args with
                    | [] => method t m v (rev es) (rev fs) s
                    | AE e :: args => andthen (eval e s) (fun u s => go args s (u :: es) fs)
                    | a :: args => go args s es (apply a :: fs)
                    end) args s [] []
             end)
    end.

  (** Calling a closure or the function a path names. *)
  Definition apply (a : arg) (vs : list val) (s : st) : out * st :=
    match a with
    | AE _ => (OStuck, s)
    | AP p => call_path p vs s
    | AC ps b =>
        match bind_all ps vs with
        | None => (OStuck, s)
        | Some bs =>
            let '(o, s') := eval b (enter bs s) in
            (match o with ORet v => OVal v | OBrk _ _ => OStuck | _ => o end, leave (length (fst s)) s')
        end
    end.

  (** A function with this body: what it returns. *)
  Definition run_fn (b : expr) (s : st) : out * st :=
    let '(o, s') := eval b s in (match o with ORet v => OVal v | OBrk _ _ => OStuck | _ => o end, leave (length (fst s)) s').
End Eval.
