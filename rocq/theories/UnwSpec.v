(* A small language for what /repo/clippy_lints/src/unwrap.rs looks at: variables, fields, methods of Option and
   Result, conditions, loops, assignments and mutable borrows.  This file is the meaning of programs; it does not
   depend on the model of the lint (UnwModel.v). *)
From Coq Require Import List ZArith Bool Arith Lia.
Import ListNotations.

(* Some / None / Ok / Err; None carries VUnit. *)
Inductive ctor := CSome | CNone | COk | CErr.
Inductive value := VUnit | VBool (b : bool) | VInt (z : Z) | VRec (l : list value) | VC (c : ctor) (v : value).

(* Static type of a place as far as it matters: Option, Result, anything else. *)
Inductive kind := KOpt | KRes | KOther.

(* A variable and the fields that are projected from it, first to last: x.0.1 is (x, [0; 1]).  Auto-dereferencing of
   references and boxes is left out: x.f is the same place whether x is a struct or a unique reference to one. *)
Definition place := (nat * list nat)%type.

(* Method names.  MOther n true is any other method that takes &mut self, MOther n false any other one. *)
Inductive meth := MIsSome | MIsNone | MIsOk | MIsErr | MUnwrap | MExpect | MUnwrapErr | MAsRef | MAsMut
                | MOther (n : nat) (mutable : bool).

Inductive bop := BAnd | BOr | BBitAnd | BBitOr.

(* Method calls carry the identity of the expression (its HirId). *)
Inductive ex :=
| EVal (v : value)
| EVar (x : nat)
| EField (e : ex) (i : nat)
| EMeth0 (id : nat) (m : meth) (r : ex)              (* r.m() *)
| EMeth1 (id : nat) (m : meth) (r a : ex)            (* r.m(a) *)
| ECall (f : nat) (a : ex)                           (* unknown code: a function, *r = .., .. *)
| EPair (a b : ex)
| EBorrow (e : ex)                                   (* &mut e *)
| ERefMut (e : ex)                                   (* match e { Some(ref mut v) => v, .. } *)
| ENot (a : ex)
| EBin (o : bop) (a b : ex)
| EBlock (e : ex)
| EIf (c t : ex)
| EIfElse (c t f : ex)
| EAssign (l e : ex)
| ELet (x : nat) (e k : ex)                          (* let x = e; k *)
| ESeq (a b : ex)
| ELoop (b : ex)
| EBreak
| EContinue
| EReturn (e : ex)
| EPanic.

Fixpoint get (v : value) (fs : list nat) : option value :=
  match fs with
  | [] => Some v
  | f :: r => match v with VRec l => match nth_error l f with Some u => get u r | None => None end | _ => None end
  end.
Fixpoint set_nth (l : list value) (i : nat) (u : value) : list value :=
  match l, i with
  | [], _ => []
  | _ :: r, O => u :: r
  | a :: r, S j => a :: set_nth r j u
  end.
Fixpoint put (v : value) (fs : list nat) (u : value) : value :=
  match fs with
  | [] => u
  | f :: r => match v with VRec l => match nth_error l f with Some w => VRec (set_nth l f (put w r u)) | None => v end
              | _ => v end
  end.

Fixpoint prefix (a b : list nat) : bool :=
  match a, b with [], _ => true | x :: r, y :: q => (x =? y) && prefix r q | _, [] => false end.
Definition overlap (p q : place) : bool :=
  (fst p =? fst q) && (prefix (snd p) (snd q) || prefix (snd q) (snd p)).

(* What can still be changed through mutable references: the place, and whether only what is inside the variant that
   is there (a reference to the payload, as from Option::as_mut or `ref mut`) or all of it. *)
Record loan := { on : place; inside : bool }.
(* seen: the calls of unwrap, expect and unwrap_err made so far, latest first, and whether they panicked. *)
Record st := { loc : nat -> value; loans : list loan; tick : nat; seen : list (nat * bool) }.

Definition at_place (s : st) (p : place) : option value := get (loc s (fst p)) (snd p).
Definition set_place (s : st) (p : place) (v : value) : st :=
  {| loc := fun y => if y =? fst p then put (loc s y) (snd p) v else loc s y;
     loans := loans s; tick := tick s; seen := seen s |}.
(* Using a place ends the mutable references that overlap it: what the borrow checker guarantees. *)
Definition use (p : place) (s : st) : st :=
  {| loc := loc s; loans := filter (fun l => negb (overlap (on l) p)) (loans s); tick := tick s; seen := seen s |}.
Definition lend (p : place) (i : bool) (s : st) : st :=
  let s := use p s in
  {| loc := loc s; loans := {| on := p; inside := i |} :: loans s; tick := tick s; seen := seen s |}.
Definition note (id : nat) (b : bool) (s : st) : st :=
  {| loc := loc s; loans := loans s; tick := tick s; seen := (id, b) :: seen s |}.

(* Unknown code answers (None: it panics) and writes through any of the references that are still alive. *)
Record reply := { ans : option value; writes : place -> option value }.
Definition world := nat -> list value -> nat -> reply.

Definition write (r : reply) (s : st) (l : loan) : st :=
  match writes r (on l) with
  | None => s
  | Some v =>
      if inside l
      then match at_place s (on l) with
           | Some (VC CNone _) => s
           | Some (VC c _) => set_place s (on l) (VC c v)
           | _ => s
           end
      else set_place s (on l) v
  end.

Inductive out := OVal (v : value) | OPanic | OBreak | OCont | ORet (v : value) | OStuck | OFuel.
Definition bind (r : out * st) (k : value -> st -> out * st) : out * st :=
  match r with (OVal v, s) => k v s | _ => r end.

Definition act (w : world) (f : nat) (args : list value) (s : st) : out * st :=
  let r := w f args (tick s) in
  let s := {| loc := loc s; loans := loans s; tick := S (tick s); seen := seen s |} in
  (match ans r with Some v => OVal v | None => OPanic end, fold_left (write r) (loans s) s).

(* Values a place of the type can hold. *)
Definition conforms (k : kind) (v : value) : bool :=
  match k, v with
  | KOpt, VC CSome _ | KOpt, VC CNone _ | KRes, VC COk _ | KRes, VC CErr _ => true
  | KOther, VC _ _ => false
  | KOther, _ => true
  | _, _ => false
  end.

Fixpoint place_of (e : ex) : option place :=
  match e with
  | EVar x => Some (x, [])
  | EField r i => match place_of r with Some (x, fs) => Some (x, fs ++ [i]) | None => None end
  | _ => None
  end.

Definition unwraps (m : meth) : bool := match m with MUnwrap | MExpect | MUnwrapErr => true | _ => false end.
Definition by_mut (m : meth) : bool := match m with MAsMut | MOther _ true => true | _ => false end.

(* The number by which unknown code knows the method. *)
Definition code (m : meth) : nat :=
  match m with MIsSome => 0 | MIsNone => 1 | MIsOk => 2 | MIsErr => 3 | MUnwrap => 4 | MExpect => 5 | MUnwrapErr => 6
             | MAsRef => 7 | MAsMut => 8 | MOther n _ => 9 + n end.

(* The methods of the standard library on Option and Result; None: not one of them. *)
Definition std (m : meth) (c : ctor) (v : value) : option out :=
  match m, c with
  | MIsSome, CSome | MIsNone, CNone | MIsOk, COk | MIsErr, CErr => Some (OVal (VBool true))
  | MIsSome, CNone | MIsNone, CSome | MIsOk, CErr | MIsErr, COk => Some (OVal (VBool false))
  | (MIsSome | MIsNone | MIsOk | MIsErr), _ => Some OStuck
  | (MUnwrap | MExpect), (CSome | COk) => Some (OVal v)
  | (MUnwrap | MExpect), (CNone | CErr) => Some OPanic
  | MUnwrapErr, CErr => Some (OVal v)
  | MUnwrapErr, COk => Some OPanic
  | MUnwrapErr, _ => Some OStuck
  | (MAsRef | MAsMut), _ => Some (OVal (VC c v))
  | MOther _ _, _ => None
  end.

(* Remember how a call of unwrap, expect or unwrap_err ended. *)
Definition noted (id : nat) (m : meth) (r : out * st) : out * st :=
  if unwraps m then
    match r with (OVal v, s) => (OVal v, note id false s) | (OPanic, s) => (OPanic, note id true s) | _ => r end
  else r.

(* Call m on the value v of the place p (None: of a temporary). *)
Definition invoke (w : world) (id : nat) (m : meth) (p : option place) (v : value) (args : list value) (s : st)
  : out * st :=
  let opaque :=
    let s := match p with Some p => if by_mut m then lend p false s else s | None => s end in
    noted id m (act w (code m) (v :: args) s) in
  match v with
  | VC c u =>
      match std m c u with
      | Some o =>
          let s := match p, m with Some p, MAsMut => lend p true s | _, _ => s end in
          noted id m (o, s)
      | None => opaque
      end
  | _ => opaque
  end.

Section eval.
Variable w : world.
Variable T : place -> kind.

Definition read (p : place) (s : st) : out * st :=
  match at_place s p with
  | Some v => if conforms (T p) v then (OVal v, use p s) else (OStuck, s)
  | None => (OStuck, s)
  end.

Definition both (o : bop) (v u : value) : out :=
  match v, u with
  | VBool a, VBool b => OVal (VBool (match o with BAnd | BBitAnd => a && b | _ => a || b end))
  | _, _ => OStuck
  end.

Fixpoint eval (n : nat) (e : ex) (s : st) : out * st :=
  match n with
  | O => (OFuel, s)
  | S n =>
    match e with
    | EVal v => (OVal v, s)
    | EVar x => read (x, []) s
    | EField r i =>
        match place_of e with
        | Some p => read p s
        | None => bind (eval n r s) (fun v s => match get v [i] with Some u => (OVal u, s) | None => (OStuck, s) end)
        end
    | EMeth0 id m r => bind (eval n r s) (fun v s => invoke w id m (place_of r) v [] s)
    | EMeth1 id m r a =>
        bind (eval n r s) (fun v s => bind (eval n a s) (fun u s => invoke w id m (place_of r) v [u] s))
    | ECall f a => bind (eval n a s) (fun v s => act w f [v] s)
    | EPair a b => bind (eval n a s) (fun v s => bind (eval n b s) (fun u s => (OVal (VRec [v; u]), s)))
    | EBorrow r =>
        bind (eval n r s) (fun v s =>
          (OVal VUnit, match place_of r with Some p => lend p false s | None => s end))
    | ERefMut r =>
        bind (eval n r s) (fun v s =>
          match v with
          | VC c u => (OVal VUnit, match place_of r with Some p => lend p true s | None => s end)
          | _ => (OStuck, s)
          end)
    | ENot a => bind (eval n a s) (fun v s => match v with VBool b => (OVal (VBool (negb b)), s) | _ => (OStuck, s) end)
    | EBin o a b =>
        bind (eval n a s) (fun v s =>
          match o, v with
          | BAnd, VBool false => (OVal (VBool false), s)
          | BOr, VBool true => (OVal (VBool true), s)
          | _, _ => bind (eval n b s) (fun u s => (both o v u, s))
          end)
    | EBlock a => eval n a s
    | EIf c t =>
        bind (eval n c s) (fun v s => match v with
          | VBool true => eval n t s | VBool false => (OVal VUnit, s) | _ => (OStuck, s) end)
    | EIfElse c t f =>
        bind (eval n c s) (fun v s => match v with
          | VBool true => eval n t s | VBool false => eval n f s | _ => (OStuck, s) end)
    | EAssign l a =>
        match place_of l with
        | Some p => bind (eval n a s) (fun v s => (OVal VUnit, set_place (use p s) p v))
        | None => (OStuck, s)
        end
    | ELet x a k => bind (eval n a s) (fun v s => eval n k (set_place (use (x, []) s) (x, []) v))
    | ESeq a b => bind (eval n a s) (fun _ s => eval n b s)
    | ELoop b =>
        match eval n b s with
        | (OVal _, s) | (OCont, s) => eval n (ELoop b) s
        | (OBreak, s) => (OVal VUnit, s)
        | r => r
        end
    | EBreak => (OBreak, s)
    | EContinue => (OCont, s)
    | EReturn a => bind (eval n a s) (fun v s => (ORet v, s))
    | EPanic => (OPanic, s)
    end
  end.
End eval.

(* Identities are unique, and variables are used in the scope of their only declaration: so is HIR. *)
Fixpoint ids (e : ex) : list nat :=
  match e with
  | EVal _ | EVar _ | EBreak | EContinue | EPanic => []
  | EMeth0 id _ r => id :: ids r
  | EMeth1 id _ r a => id :: ids r ++ ids a
  | EField a _ | ECall _ a | EBorrow a | ERefMut a | ENot a | EBlock a | ELoop a | EReturn a => ids a
  | EPair a b | EBin _ a b | EIf a b | EAssign a b | ELet _ a b | ESeq a b => ids a ++ ids b
  | EIfElse a b c => ids a ++ ids b ++ ids c
  end.
Fixpoint scoped (G : list nat) (e : ex) : Prop :=
  match e with
  | EVal _ | EBreak | EContinue | EPanic => True
  | EVar x => In x G
  | EMeth0 _ _ a | EField a _ | ECall _ a | EBorrow a | ERefMut a | ENot a | EBlock a | ELoop a | EReturn a => scoped G a
  | EMeth1 _ _ a b | EPair a b | EBin _ a b | EIf a b | EAssign a b | ESeq a b => scoped G a /\ scoped G b
  | EIfElse a b c => scoped G a /\ scoped G b /\ scoped G c
  | ELet x a k => ~ In x G /\ scoped G a /\ scoped (x :: G) k
  end.
(* Every method named as_mut is the one of Option or Result. *)
Fixpoint std_as_mut (T : place -> kind) (e : ex) : Prop :=
  match e with
  | EVal _ | EVar _ | EBreak | EContinue | EPanic => True
  | EMeth0 _ m r => (m = MAsMut -> forall p, place_of r = Some p -> T p <> KOther) /\ std_as_mut T r
  | EField a _ | ECall _ a | EBorrow a | ERefMut a | ENot a | EBlock a | ELoop a | EReturn a => std_as_mut T a
  | EMeth1 _ _ a b | EPair a b | EBin _ a b | EIf a b | EAssign a b | ESeq a b | ELet _ a b => std_as_mut T a /\ std_as_mut T b
  | EIfElse a b c => std_as_mut T a /\ std_as_mut T b /\ std_as_mut T c
  end.
