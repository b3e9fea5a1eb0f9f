(** A language of statements and expressions with variables, blocks, patterns, loops, `break`, `continue`, `return` and
    calls of unknown functions.  This is the meaning of programs against which the lints about blocks, loops and
    assignments are judged; nothing in this file models clippy.

    Simplifications: integers do not overflow; values are copied, never dropped or borrowed; variables are names, so that
    shadowing and capture are visible; a `let` has everything after it in its block as its last argument.  [OStuck] is a
    program the compiler rejects. *)
From Coq Require Export List ZArith Arith Bool Lia.
Export ListNotations.

(** Values: [V0], [V1] and [V2] are the values of `enum`s and tuples with no, one and two fields; [VHole] is in a variable that is
    declared and not yet assigned. *)
Inductive val := VUnit | VBool (b : bool) | VInt (z : Z) | V0 (c : nat) | V1 (c : nat) (v : val) | V2 (c : nat) (v w : val)
  | VVec (l : list val) | VHole.
Definition vnone := V0 0.
Definition vsome := V1 1.
Definition vpair := V2 2.

Inductive pat := PWild | PVar (x : nat) | P0 (c : nat) | P1 (c : nat) (p : pat) | P2 (c : nat) (p q : pat).
Definition upd (f : nat -> val) (x : nat) (v : val) : nat -> val := fun y => if y =? x then v else f y.
Fixpoint pvars (p : pat) : list nat :=
  match p with PWild | P0 _ => [] | PVar x => [x] | P1 _ p => pvars p | P2 _ p q => pvars p ++ pvars q end.
Fixpoint pbind (p : pat) (v : val) (f : nat -> val) : option (nat -> val) :=
  match p, v with
  | PWild, _ => Some f
  | PVar x, _ => Some (upd f x v)
  | P0 c, V0 c' => if c =? c' then Some f else None
  | P1 c p, V1 c' v => if c =? c' then pbind p v f else None
  | P2 c p q, V2 c' v w => if c =? c' then match pbind p v f with Some f => pbind q w f | None => None end else None
  | _, _ => None
  end.
Definition mem (x : nat) (l : list nat) : bool := existsb (Nat.eqb x) l.

Inductive op := OAdd | OSub | OMul | ODiv | OXor | OBAnd | OBOr | OEq | ONe | OLt.

(** What an evaluation ends in.  [OElse]: a condition failed. *)
Inductive out := OVal (v : val) | OElse | OBrk (l : option nat) (v : val) | OCnt (l : option nat) | ORet (v : val) | OPanic
  | OStuck | OFuel.
Definition bin (o : op) (v w : val) : out :=
  match o, v, w with
  | OAdd, VInt a, VInt b => OVal (VInt (a + b))
  | OSub, VInt a, VInt b => OVal (VInt (a - b))
  | OMul, VInt a, VInt b => OVal (VInt (a * b))
  | ODiv, VInt a, VInt b => if (b =? 0)%Z then OPanic else OVal (VInt (Z.quot a b))
  | OXor, VInt a, VInt b => OVal (VInt (Z.lxor a b))
  | OBAnd, VInt a, VInt b => OVal (VInt (Z.land a b))
  | OBOr, VInt a, VInt b => OVal (VInt (Z.lor a b))
  | OEq, VInt a, VInt b => OVal (VBool (a =? b)%Z)
  | ONe, VInt a, VInt b => OVal (VBool (negb (a =? b)%Z))
  | OLt, VInt a, VInt b => OVal (VBool (a <? b)%Z)
  | _, _, _ => OStuck
  end.

Inductive ex :=
  | XVal (v : val)                      (* a literal, `()` *)
  | XVar (x : nat)
  | XCall (f : nat) (a b : ex)          (* f(a, b) *)
  | XBin (o : op) (a b : ex)
  | XNot (a : ex)
  | XAnd (a b : ex)                     (* a && b *)
  | XOr (a b : ex)                      (* a || b *)
  | X1 (c : nat) (a : ex)               (* c(a) *)
  | X2 (c : nat) (a b : ex)             (* c(a, b) *)
  | XIdx (x : nat) (i : ex)             (* x[i] *)
  | XLen (x : nat) | XIsEmpty (x : nat) | XPop (x : nat)
  | XUnwrap (a : ex)
  | XArr (a : ex)                       (* [a] *)
  | XEnum (a b : ex)                    (* (a..).zip(b), for b a vector *)
  | XAsg (x : nat) (a : ex)             (* x = a *)
  | XAsgOp (o : op) (x : nat) (a : ex)  (* x o= a *)
  | XAsgIdx (x : nat) (i a : ex)        (* x[i] = a *)
  | XOpIdx (o : op) (x : nat) (i a : ex) (* x[i] o= a *)
  | XSwap (x y : nat)                   (* std::mem::swap(&mut x, &mut y) *)
  | XSwapIdx (x : nat) (i j : ex)       (* x.swap(i, j) *)
  | XBrace (a : ex)                     (* { a } *)
  | XSeq (a b : ex)                     (* a; b *)
  | XDecl (x : nat) (b : ex)            (* let x; b *)
  | XLet (p : pat) (a b : ex)           (* let p = a; b *)
  | XLetElse (p : pat) (a d b : ex)     (* let p = a else { d }; b *)
  | XIf (k d : ex)                      (* if k else { d }: k is the conditions with the block *)
  | XWhen (k : ex)                      (* if k, with no `else` *)
  | XTest (a k : ex)                    (* in conditions: a && k, or a { k } at the end *)
  | XBind (p : pat) (a k : ex)          (* in conditions: let p = a && k, or let p = a { k } at the end *)
  | XMatch (a : ex) (p : pat) (b : ex) (q : pat) (d : ex) (* match a { p => b, q => d } *)
  | XLoop (l : option nat) (b : ex)
  | XWhile (l : option nat) (k : ex)
  | XFor (l : option nat) (p : pat) (a b : ex)
  | XBlk (l : nat) (b : ex)             (* 'l: { b } *)
  | XBrk (l : option nat) (a : ex)
  | XCnt (l : option nat)
  | XRet (a : ex).

(** The events so far: each call with its arguments. *)
Definition ev := (nat * val * val)%type.
Definition st := ((nat -> val) * list ev)%type.
Definition next (r : out * st) (k : val -> st -> out * st) : out * st :=
  match fst r with OVal v => k v (snd r) | o => (o, snd r) end.
(** The state after the scope of [xs], entered in state [s], is left in state [s']. *)
Definition back (xs : list nat) (s s' : st) : st := (fun y => if mem y xs then fst s y else fst s' y, snd s').
Definition leave (xs : list nat) (s : st) (r : out * st) : out * st := (fst r, back xs s (snd r)).

(** Whether a `break` or `continue` with label [l'] is for a loop with label [l]. *)
Definition hits (l l' : option nat) : bool :=
  match l' with None => true | Some b => match l with Some a => a =? b | None => false end end.
Fixpoint run_loop (l : option nat) (f : st -> out * st) (n : nat) (s : st) : out * st :=
  match n with
  | 0 => (OFuel, s)
  | S n =>
      let r := f s in
      match fst r with
      | OVal _ => run_loop l f n (snd r)
      | OCnt l' => if hits l l' then run_loop l f n (snd r) else r
      | OBrk l' v => if hits l l' then (OVal v, snd r) else r
      | _ => r
      end
  end.
Fixpoint run_for (l : option nat) (f : val -> st -> out * st) (vs : list val) (s : st) : out * st :=
  match vs with
  | [] => (OVal VUnit, s)
  | v :: vs =>
      let r := f v s in
      match fst r with
      | OVal _ => run_for l f vs (snd r)
      | OCnt l' => if hits l l' then run_for l f vs (snd r) else r
      | OBrk l' w => if hits l l' then (OVal VUnit, snd r) else r
      | _ => r
      end
  end.
Fixpoint number (z : Z) (vs : list val) : list val :=
  match vs with [] => [] | v :: vs => vpair (VInt z) v :: number (z + 1) vs end.
Fixpoint put (l : list val) (i : nat) (v : val) : list val :=
  match l, i with [], _ => [] | _ :: l, 0 => v :: l | w :: l, S i => w :: put l i v end.
Definition at_ (l : list val) (z : Z) : option val := if (z <? 0)%Z then None else nth_error l (Z.to_nat z).
Definition put_at (l : list val) (z : Z) (v : val) : list val := put l (Z.to_nat z) v.
Definition setv (s : st) (x : nat) (v : val) : st := (upd (fst s) x v, snd s).

(** A value that was read; [VHole] is none. *)
Definition given (v : val) (s : st) : out * st := match v with VHole => (OStuck, s) | _ => (OVal v, s) end.

Section Meaning.
(** What the called functions do: the value the last call of a history gives; they panic where there is none. *)
Variable world : list ev -> option val.
(** How many times a loop may go round. *)
Variable n : nat.

Fixpoint eval (e : ex) (s : st) {struct e} : out * st :=
  match e with
  | XVal v => given v s
  | XVar x => given (fst s x) s
  | XCall f a b => next (eval a s) (fun v s => next (eval b s) (fun w s =>
      let h := snd s ++ [(f, v, w)] in
      match world h with Some r => given r (fst s, h) | None => (OPanic, (fst s, h)) end))
  | XBin o a b => next (eval a s) (fun v s => next (eval b s) (fun w s => (bin o v w, s)))
  | XNot a => next (eval a s) (fun v s => match v with VBool b => (OVal (VBool (negb b)), s) | _ => (OStuck, s) end)
  | XAnd a b => next (eval a s) (fun v s => match v with
      VBool true => eval b s | VBool false => (OVal (VBool false), s) | _ => (OStuck, s) end)
  | XOr a b => next (eval a s) (fun v s => match v with
      VBool false => eval b s | VBool true => (OVal (VBool true), s) | _ => (OStuck, s) end)
  | X1 c a => next (eval a s) (fun v s => (OVal (V1 c v), s))
  | X2 c a b => next (eval a s) (fun v s => next (eval b s) (fun w s => (OVal (V2 c v w), s)))
  | XIdx x i => next (eval i s) (fun v s => match fst s x, v with
      | VVec l, VInt z => match at_ l z with Some w => given w s | None => (OPanic, s) end
      | _, _ => (OStuck, s) end)
  | XLen x => match fst s x with VVec l => (OVal (VInt (Z.of_nat (length l))), s) | _ => (OStuck, s) end
  | XIsEmpty x => match fst s x with VVec l => (OVal (VBool (length l =? 0)), s) | _ => (OStuck, s) end
  | XPop x => match fst s x with
      | VVec [] => (OVal vnone, s)
      | VVec l => (OVal (vsome (last l VUnit)), setv s x (VVec (removelast l)))
      | _ => (OStuck, s) end
  | XUnwrap a => next (eval a s) (fun v s => match v with
      V1 1 w => given w s | V0 0 => (OPanic, s) | _ => (OStuck, s) end)
  | XArr a => next (eval a s) (fun v s => (OVal (VVec [v]), s))
  | XEnum a b => next (eval a s) (fun v s => next (eval b s) (fun w s => match v, w with
      VInt z, VVec l => (OVal (VVec (number z l)), s) | _, _ => (OStuck, s) end))
  | XAsg x a => next (eval a s) (fun v s => (OVal VUnit, setv s x v))
  | XAsgOp o x a => next (eval a s) (fun v s => match bin o (fst s x) v with
      OVal w => (OVal VUnit, setv s x w) | o => (o, s) end)
  | XAsgIdx x i a => next (eval a s) (fun v s => next (eval i s) (fun j s => match fst s x, j with
      | VVec l, VInt z => match at_ l z with Some _ => (OVal VUnit, setv s x (VVec (put_at l z v))) | None => (OPanic, s) end
      | _, _ => (OStuck, s) end))
  | XOpIdx o x i a => next (eval a s) (fun v s => next (eval i s) (fun j s => match fst s x, j with
      | VVec l, VInt z => match at_ l z with
          | Some u => match bin o u v with OVal w => (OVal VUnit, setv s x (VVec (put_at l z w))) | o => (o, s) end
          | None => (OPanic, s) end
      | _, _ => (OStuck, s) end))
  | XSwap x y => if x =? y then (OStuck, s) else match fst s x, fst s y with
      VHole, _ | _, VHole => (OStuck, s) | v, w => (OVal VUnit, setv (setv s x w) y v) end
  | XSwapIdx x i j => next (eval i s) (fun v s => next (eval j s) (fun w s => match fst s x, v, w with
      | VVec l, VInt a, VInt b => match at_ l a, at_ l b with
          | Some u, Some t => (OVal VUnit, setv s x (VVec (put_at (put_at l a t) b u)))
          | _, _ => (OPanic, s) end
      | _, _, _ => (OStuck, s) end))
  | XBrace a => eval a s
  | XSeq a b => next (eval a s) (fun _ s => eval b s)
  | XDecl x b => leave [x] s (eval b (setv s x VHole))
  | XLet p a b => next (eval a s) (fun v s => match pbind p v (fst s) with
      | Some f => leave (pvars p) s (eval b (f, snd s)) | None => (OStuck, s) end)
  | XLetElse p a d b => next (eval a s) (fun v s => match pbind p v (fst s) with
      | Some f => leave (pvars p) s (eval b (f, snd s))
      | None => next (eval d s) (fun _ s => (OStuck, s)) end)
  | XIf k d => match eval k s with (OElse, s) => eval d s | r => r end
  | XWhen k => match eval k s with (OElse, s) => (OVal VUnit, s) | (OVal _, s) => (OVal VUnit, s) | r => r end
  | XTest a k => next (eval a s) (fun v s => match v with
      VBool true => eval k s | VBool false => (OElse, s) | _ => (OStuck, s) end)
  | XBind p a k => next (eval a s) (fun v s => match pbind p v (fst s) with
      | Some f => leave (pvars p) s (eval k (f, snd s)) | None => (OElse, s) end)
  | XMatch a p b q d => next (eval a s) (fun v s => match pbind p v (fst s) with
      | Some f => leave (pvars p) s (eval b (f, snd s))
      | None => match pbind q v (fst s) with
          Some f => leave (pvars q) s (eval d (f, snd s)) | None => (OStuck, s) end end)
  | XLoop l b => run_loop l (eval b) n s
  | XWhile l k => run_loop l (fun s => match eval k s with (OElse, s) => (OBrk None VUnit, s) | r => r end) n s
  | XFor l p a b => next (eval a s) (fun v s => match v with
      | VVec vs => run_for l (fun v s => match pbind p v (fst s) with
          Some f => leave (pvars p) s (eval b (f, snd s)) | None => (OStuck, s) end) vs s
      | _ => (OStuck, s) end)
  | XBlk l b => match eval b s with
      (OBrk (Some l') v, s) => if l =? l' then (OVal v, s) else (OBrk (Some l') v, s) | r => r end
  | XBrk l a => next (eval a s) (fun v s => (OBrk l v, s))
  | XCnt l => (OCnt l, s)
  | XRet a => next (eval a s) (fun v s => (ORet v, s))
  end.
End Meaning.

(** ** Two programs that do the same: from every state, they end in the same way, with the same calls made and the same values in
    all variables. *)
Definition agree (X : nat -> bool) (s s' : st) : Prop := snd s = snd s' /\ forall y, X y = false -> fst s y = fst s' y.
Definition alike (X : nat -> bool) (r r' : out * st) : Prop := fst r = fst r' /\ agree X (snd r) (snd r').
Definition none_of (y : nat) : bool := false.
Definition same (e e' : ex) : Prop := forall world n s, alike none_of (eval world n e s) (eval world n e' s).
(** The same, of programs the compiler accepts. *)
Definition same_ok (e e' : ex) : Prop :=
  forall world n s, fst (eval world n e s) <> OStuck -> alike none_of (eval world n e s) (eval world n e' s).
(** The same, where both are accepted. *)
Definition same_typed (e e' : ex) : Prop :=
  forall world n s, fst (eval world n e s) <> OStuck -> fst (eval world n e' s) <> OStuck -> alike none_of (eval world n e s) (eval world n e' s).

(** Whether a variable occurs in a program, other than as a variable of the same name declared there. *)
Fixpoint uses (x : nat) (e : ex) : bool :=
  match e with
  | XVal _ | XCnt _ => false
  | XVar y | XLen y | XIsEmpty y | XPop y => x =? y
  | XCall _ a b | XBin _ a b | XAnd a b | XOr a b | X2 _ a b | XEnum a b | XSeq a b | XIf a b | XTest a b => uses x a || uses x b
  | XNot a | X1 _ a | XArr a | XUnwrap a | XBrace a | XWhen a | XLoop _ a | XWhile _ a | XBlk _ a | XBrk _ a | XRet a => uses x a
  | XIdx y a | XAsg y a | XAsgOp _ y a => (x =? y) || uses x a
  | XAsgIdx y a b | XOpIdx _ y a b | XSwapIdx y a b => (x =? y) || uses x a || uses x b
  | XSwap y z => (x =? y) || (x =? z)
  | XDecl y b => negb (x =? y) && uses x b
  | XLet p a b | XBind p a b | XFor _ p a b => uses x a || negb (mem x (pvars p)) && uses x b
  | XLetElse p a d b => uses x a || uses x d || negb (mem x (pvars p)) && uses x b
  | XMatch a p b q d => uses x a || negb (mem x (pvars p)) && uses x b || negb (mem x (pvars q)) && uses x d
  end.
(** Whether it is assigned or changed. *)
Fixpoint changes (x : nat) (e : ex) : bool :=
  match e with
  | XVal _ | XCnt _ | XVar _ | XLen _ | XIsEmpty _ => false
  | XPop y => x =? y
  | XCall _ a b | XBin _ a b | XAnd a b | XOr a b | X2 _ a b | XEnum a b | XSeq a b | XIf a b | XTest a b => changes x a || changes x b
  | XNot a | X1 _ a | XArr a | XUnwrap a | XBrace a | XWhen a | XLoop _ a | XWhile _ a | XBlk _ a | XBrk _ a | XRet a => changes x a
  | XIdx _ a => changes x a
  | XAsg y a | XAsgOp _ y a => (x =? y) || changes x a
  | XAsgIdx y a b | XOpIdx _ y a b | XSwapIdx y a b => (x =? y) || changes x a || changes x b
  | XSwap y z => (x =? y) || (x =? z)
  | XDecl y b => negb (x =? y) && changes x b
  | XLet p a b | XBind p a b | XFor _ p a b => changes x a || negb (mem x (pvars p)) && changes x b
  | XLetElse p a d b => changes x a || changes x d || negb (mem x (pvars p)) && changes x b
  | XMatch a p b q d => changes x a || negb (mem x (pvars p)) && changes x b || negb (mem x (pvars q)) && changes x d
  end.

(** Whether a variable of this name is declared somewhere in a program. *)
Fixpoint binds (x : nat) (e : ex) : bool :=
  match e with
  | XVal _ | XCnt _ | XVar _ | XLen _ | XIsEmpty _ | XPop _ | XSwap _ _ => false
  | XCall _ a b | XBin _ a b | XAnd a b | XOr a b | X2 _ a b | XEnum a b | XSeq a b | XIf a b | XTest a b | XAsgIdx _ a b
  | XOpIdx _ _ a b | XSwapIdx _ a b => binds x a || binds x b
  | XNot a | X1 _ a | XArr a | XUnwrap a | XBrace a | XWhen a | XLoop _ a | XWhile _ a | XBlk _ a | XBrk _ a | XRet a | XIdx _ a
  | XAsg _ a | XAsgOp _ _ a => binds x a
  | XDecl y b => (x =? y) || binds x b
  | XLet p a b | XBind p a b | XFor _ p a b => binds x a || mem x (pvars p) || binds x b
  | XLetElse p a d b => binds x a || binds x d || mem x (pvars p) || binds x b
  | XMatch a p b q d => binds x a || mem x (pvars p) || binds x b || mem x (pvars q) || binds x d
  end.
(** In a block or in the body of a loop, no name declared within a statement is that of a variable used after the statement. *)
Fixpoint tidy (e : ex) : Prop :=
  match e with
  | XSeq a r => (forall x, binds x a = true -> uses x r = false) /\ tidy r
  | XLet _ _ r | XDecl _ r | XLetElse _ _ _ r | XLoop _ r | XFor _ _ _ r | XWhile _ r | XTest _ r | XBind _ _ r => tidy r
  | _ => True end.
(** The patterns in a program; in each, a name occurs at most once. *)
Fixpoint pats (e : ex) : list pat :=
  match e with
  | XVal _ | XCnt _ | XVar _ | XLen _ | XIsEmpty _ | XPop _ | XSwap _ _ => []
  | XCall _ a b | XBin _ a b | XAnd a b | XOr a b | X2 _ a b | XEnum a b | XSeq a b | XIf a b | XTest a b | XAsgIdx _ a b
  | XOpIdx _ _ a b | XSwapIdx _ a b => pats a ++ pats b
  | XNot a | X1 _ a | XArr a | XUnwrap a | XBrace a | XWhen a | XLoop _ a | XWhile _ a | XBlk _ a | XBrk _ a | XRet a | XIdx _ a
  | XAsg _ a | XAsgOp _ _ a | XDecl _ a => pats a
  | XLet p a b | XBind p a b | XFor _ p a b => p :: pats a ++ pats b
  | XLetElse p a d b => p :: pats a ++ pats d ++ pats b
  | XMatch a p b q d => p :: q :: pats a ++ pats b ++ pats d
  end.
Definition linear (e : ex) : Prop := forall p, In p (pats e) -> NoDup (pvars p).
(** Where an expression yields a value, that is `()`. *)
Definition unit_valued (e : ex) : Prop := forall world n s v s', eval world n e s = (OVal v, s') -> v = VUnit.

(** What is Rust: conditions occur only in `if` and `while`.  [shape true]: conditions with their block. *)
Fixpoint shape (k : bool) (e : ex) : bool :=
  match e with
  | XTest a b => k && shape false a && shape true b
  | XBind _ a b => k && shape false a && shape true b
  | XVal _ | XCnt _ | XVar _ | XLen _ | XIsEmpty _ | XPop _ | XSwap _ _ => true
  | XCall _ a b | XBin _ a b | XAnd a b | XOr a b | X2 _ a b | XEnum a b | XSeq a b | XLet _ a b | XFor _ _ a b
  | XAsgIdx _ a b | XOpIdx _ _ a b | XSwapIdx _ a b => shape false a && shape false b
  | XIf a b => shape true a && shape false b
  | XWhen a | XWhile _ a => shape true a
  | XNot a | X1 _ a | XArr a | XUnwrap a | XBrace a | XLoop _ a | XBlk _ a | XBrk _ a | XRet a | XIdx _ a | XAsg _ a | XAsgOp _ _ a
  | XDecl _ a => shape false a
  | XLetElse _ a d b => shape false a && shape false d && shape false b
  | XMatch a _ b _ d => shape false a && shape false b && shape false d
  end.
Definition rust (e : ex) : Prop := shape false e = true.

(** A program with parts of it, related by [R], replaced. *)
Inductive everywhere (R : ex -> ex -> Prop) : ex -> ex -> Prop :=
  | E_here a b : R a b -> everywhere R a b
  | E_same a : everywhere R a a
  | E_call f a b a' b' : everywhere R a a' -> everywhere R b b' -> everywhere R (XCall f a b) (XCall f a' b')
  | E_bin o a b a' b' : everywhere R a a' -> everywhere R b b' -> everywhere R (XBin o a b) (XBin o a' b')
  | E_not a a' : everywhere R a a' -> everywhere R (XNot a) (XNot a')
  | E_and a b a' b' : everywhere R a a' -> everywhere R b b' -> everywhere R (XAnd a b) (XAnd a' b')
  | E_or a b a' b' : everywhere R a a' -> everywhere R b b' -> everywhere R (XOr a b) (XOr a' b')
  | E_1 c a a' : everywhere R a a' -> everywhere R (X1 c a) (X1 c a')
  | E_2 c a b a' b' : everywhere R a a' -> everywhere R b b' -> everywhere R (X2 c a b) (X2 c a' b')
  | E_idx x a a' : everywhere R a a' -> everywhere R (XIdx x a) (XIdx x a')
  | E_unwrap a a' : everywhere R a a' -> everywhere R (XUnwrap a) (XUnwrap a')
  | E_arr a a' : everywhere R a a' -> everywhere R (XArr a) (XArr a')
  | E_enum a b a' b' : everywhere R a a' -> everywhere R b b' -> everywhere R (XEnum a b) (XEnum a' b')
  | E_asg x a a' : everywhere R a a' -> everywhere R (XAsg x a) (XAsg x a')
  | E_asgop o x a a' : everywhere R a a' -> everywhere R (XAsgOp o x a) (XAsgOp o x a')
  | E_asgidx x a b a' b' : everywhere R a a' -> everywhere R b b' -> everywhere R (XAsgIdx x a b) (XAsgIdx x a' b')
  | E_opidx o x a b a' b' : everywhere R a a' -> everywhere R b b' -> everywhere R (XOpIdx o x a b) (XOpIdx o x a' b')
  | E_swapidx x a b a' b' : everywhere R a a' -> everywhere R b b' -> everywhere R (XSwapIdx x a b) (XSwapIdx x a' b')
  | E_brace a a' : everywhere R a a' -> everywhere R (XBrace a) (XBrace a')
  | E_seq a b a' b' : everywhere R a a' -> everywhere R b b' -> everywhere R (XSeq a b) (XSeq a' b')
  | E_decl x b b' : everywhere R b b' -> everywhere R (XDecl x b) (XDecl x b')
  | E_let p a b a' b' : everywhere R a a' -> everywhere R b b' -> everywhere R (XLet p a b) (XLet p a' b')
  | E_letelse p a d b a' d' b' : everywhere R a a' -> everywhere R d d' -> everywhere R b b' -> everywhere R (XLetElse p a d b) (XLetElse p a' d' b')
  | E_if k d k' d' : everywhere R k k' -> everywhere R d d' -> everywhere R (XIf k d) (XIf k' d')
  | E_when k k' : everywhere R k k' -> everywhere R (XWhen k) (XWhen k')
  | E_test a k a' k' : everywhere R a a' -> everywhere R k k' -> everywhere R (XTest a k) (XTest a' k')
  | E_bind p a k a' k' : everywhere R a a' -> everywhere R k k' -> everywhere R (XBind p a k) (XBind p a' k')
  | E_match a p b q d a' b' d' : everywhere R a a' -> everywhere R b b' -> everywhere R d d' -> everywhere R (XMatch a p b q d) (XMatch a' p b' q d')
  | E_loop l b b' : everywhere R b b' -> everywhere R (XLoop l b) (XLoop l b')
  | E_while l k k' : everywhere R k k' -> everywhere R (XWhile l k) (XWhile l k')
  | E_for l p a b a' b' : everywhere R a a' -> everywhere R b b' -> everywhere R (XFor l p a b) (XFor l p a' b')
  | E_blk l b b' : everywhere R b b' -> everywhere R (XBlk l b) (XBlk l b')
  | E_brk l a a' : everywhere R a a' -> everywhere R (XBrk l a) (XBrk l a')
  | E_ret a a' : everywhere R a a' -> everywhere R (XRet a) (XRet a').
