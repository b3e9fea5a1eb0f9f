(* Loops over a range that index a sequence, and loops over the elements of the sequence
   (/repo/clippy_lints/src/loops/needless_range_loop.rs).  Does not depend on RngModel.v. *)
From Coq Require Import List ZArith Bool PeanoNat.
Import ListNotations.
Local Open Scope Z_scope.

Definition name := nat.
Inductive row := KLit (z : Z) | KVar (x : name).
Inductive sq := SArr (v : name) | SRow (v : name) (k : row).      (* v, v[k] *)
Inductive expr :=
| ELit (z : Z) | EVar (x : name) | EAdd (a b : expr)
| EOp (o : nat) (a b : expr)            (* other operators, without effect *)
| ECall (f : nat) (a : expr)
| EIdx (s : sq) (a : expr)              (* v[a], v[k][a] *)
| ELen (v : name) | ERows (v : name)    (* v.len() of a vector, and of a vector of vectors *)
| EItem.                                (* *item *)
Inductive stmt :=
| SSkip | SSeq (a b : stmt) | SExpr (e : expr) | SAssign (x : name) (e : expr)
| SStore (s : sq) (a e : expr)          (* v[a] = e *)
| SItem (e : expr)                      (* *item = e *)
| SIf (c : expr) (a b : stmt).

Definition trace := list (nat * Z).
Record state := { vars : name -> Z; arrs : name -> list Z; mats : name -> list (list Z); calls_made : trace }.
Definition set (x : name) (v : Z) (st : state) : state :=
  {| vars := fun y => if Nat.eqb x y then v else vars st y; arrs := arrs st; mats := mats st; calls_made := calls_made st |}.

(* Where a sequence is *)
Inductive loc := LArr (v : name) | LRow (v : name) (n : nat).
Definition locate (s : sq) (st : state) : option loc :=
  match s with
  | SArr v => Some (LArr v)
  | SRow v k =>
      let z := match k with KLit z => z | KVar x => vars st x end in
      if z <? 0 then None else if (Z.to_nat z <? length (mats st v))%nat then Some (LRow v (Z.to_nat z)) else None
  end.
Definition content (l : loc) (st : state) : list Z :=
  match l with LArr v => arrs st v | LRow v n => nth n (mats st v) [] end.
Fixpoint replace {A} (n : nat) (x : A) (l : list A) : list A :=
  match l, n with [], _ => [] | _ :: l, O => x :: l | y :: l, S n => y :: replace n x l end.
Definition put (l : loc) (c : list Z) (st : state) : state :=
  match l with
  | LArr v => {| vars := vars st; arrs := fun y => if Nat.eqb v y then c else arrs st y; mats := mats st; calls_made := calls_made st |}
  | LRow v n => {| vars := vars st; arrs := arrs st; mats := fun y => if Nat.eqb v y then replace n c (mats st v) else mats st y; calls_made := calls_made st |}
  end.
(* None: panic *)
Definition load (l : loc) (z : Z) (st : state) : option Z := if z <? 0 then None else nth_error (content l st) (Z.to_nat z).
Definition store (l : loc) (z : Z) (v : Z) (st : state) : option state :=
  if z <? 0 then None else
  if (Z.to_nat z <? length (content l st))%nat then Some (put l (replace (Z.to_nat z) v (content l st)) st) else None.

Section Run.
Variable op : nat -> Z -> Z -> Z.
Variable calls : nat -> Z -> trace -> Z.
Section Item.
Variable item : option (loc * Z).       (* what item points to *)
Fixpoint eval (e : expr) (st : state) : option (Z * state) :=
  match e with
  | ELit z => Some (z, st)
  | EVar x => Some (vars st x, st)
  | EAdd a b => match eval a st with Some (u, st) => match eval b st with Some (v, st) => Some (u + v, st) | None => None end | None => None end
  | EOp o a b => match eval a st with Some (u, st) => match eval b st with Some (v, st) => Some (op o u v, st) | None => None end | None => None end
  | ECall f a =>
      match eval a st with
      | Some (u, st) => Some (calls f u (calls_made st), {| vars := vars st; arrs := arrs st; mats := mats st; calls_made := (f, u) :: calls_made st |})
      | None => None
      end
  | EIdx s a =>
      match eval a st with
      | Some (u, st) => match locate s st with Some l => match load l u st with Some v => Some (v, st) | None => None end | None => None end
      | None => None
      end
  | ELen v => Some (Z.of_nat (length (arrs st v)), st)
  | ERows v => Some (Z.of_nat (length (mats st v)), st)
  | EItem => match item with Some (l, p) => match load l p st with Some v => Some (v, st) | None => None end | None => None end
  end.
Fixpoint exec (s : stmt) (st : state) : option state :=
  match s with
  | SSkip => Some st
  | SSeq a b => match exec a st with Some st => exec b st | None => None end
  | SExpr e => match eval e st with Some (_, st) => Some st | None => None end
  | SAssign x e => match eval e st with Some (v, st) => Some (set x v st) | None => None end
  | SStore s a e =>
      match eval e st with
      | Some (v, st) =>
          match eval a st with
          | Some (u, st) => match locate s st with Some l => store l u v st | None => None end
          | None => None
          end
      | None => None
      end
  | SItem e =>
      match eval e st with
      | Some (v, st) => match item with Some (l, p) => store l p v st | None => None end
      | None => None
      end
  | SIf c a b => match eval c st with Some (v, st) => if v =? 0 then exec b st else exec a st | None => None end
  end.
End Item.
(* a, a + 1, .. without b *)
Definition range (a b : Z) : list Z := map (fun n => a + Z.of_nat n) (seq 0 (Z.to_nat (b - a))).
(* for i in a..b { body }, a..=b *)
Fixpoint each (i : name) (body : stmt) (l : list Z) (st : state) : option state :=
  match l with [] => Some st | p :: l => match exec None body (set i p st) with Some st => each i body l st | None => None end end.
Definition for_range (i : name) (a b : expr) (closed : bool) (body : stmt) (st : state) : option state :=
  match eval None a st with
  | Some (u, st) => match eval None b st with Some (v, st) => each i body (range u (if closed then v + 1 else v)) st | None => None end
  | None => None
  end.
(* The positions that iter, skip(n), take(n) leave *)
Inductive adaptor := Skip (e : expr) | Take (e : expr) | TakeOneMore (e : expr).
Definition adapt (ad : adaptor) (l : list Z) (st : state) : option (list Z * state) :=
  match ad with
  | Skip e => match eval None e st with Some (n, st) => Some (skipn (Z.to_nat n) l, st) | None => None end
  | Take e => match eval None e st with Some (n, st) => Some (firstn (Z.to_nat n) l, st) | None => None end
  | TakeOneMore e => match eval None e st with Some (n, st) => Some (firstn (Z.to_nat (n + 1)) l, st) | None => None end
  end.
Fixpoint adapts (ads : list adaptor) (l : list Z) (st : state) : option (list Z * state) :=
  match ads with [] => Some (l, st) | ad :: ads => match adapt ad l st with Some (l, st) => adapts ads l st | None => None end end.
(* for item in s.iter().. { body }, or for (i, item) in s.iter().enumerate().. { body } *)
Fixpoint each_item (i : option name) (s : loc) (body : stmt) (l : list Z) (st : state) : option state :=
  match l with
  | [] => Some st
  | p :: l =>
      match exec (Some (s, p)) body (match i with Some i => set i p st | None => st end) with
      | Some st => each_item i s body l st
      | None => None
      end
  end.
Definition for_items (i : option name) (s : sq) (ads : list adaptor) (body : stmt) (st : state) : option state :=
  match locate s st with
  | None => None
  | Some l =>
      match adapts ads (range 0 (Z.of_nat (length (content l st)))) st with
      | Some (ps, st) => each_item i l body ps st
      | None => None
      end
  end.
End Run.

(* The state, but for the variable of the loop, which ends with it *)
Definition same_but (i : name) (a b : option state) : Prop :=
  match a, b with
  | Some a, Some b => (forall x, x <> i -> vars a x = vars b x) /\ arrs a = arrs b /\ mats a = mats b /\ calls_made a = calls_made b
  | None, None => True
  | _, _ => False
  end.
Fixpoint pure (e : expr) : bool :=
  match e with ELit _ | EVar _ | ELen _ | ERows _ => true | EAdd a b | EOp _ a b => pure a && pure b | _ => false end.
Fixpoint assigned (s : stmt) : list name :=
  match s with SSeq a b | SIf _ a b => assigned a ++ assigned b | SAssign x _ => [x] | _ => [] end.
Fixpoint no_item_e (e : expr) : bool :=
  match e with EItem => false | EAdd a b | EOp _ a b => no_item_e a && no_item_e b | ECall _ a | EIdx _ a => no_item_e a | _ => true end.
Fixpoint no_item (s : stmt) : bool :=
  match s with
  | SSkip => true | SSeq a b => no_item a && no_item b | SIf c a b => no_item_e c && no_item a && no_item b
  | SExpr e | SAssign _ e => no_item_e e | SStore _ a e => no_item_e a && no_item_e e | SItem _ => false
  end.
