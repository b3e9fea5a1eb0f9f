(* Iterators and what consumes them (/repo/clippy_lints/src/infinite_iter.rs).  Does not depend on IitModel.v. *)
From Coq Require Import List Bool PeanoNat.
Import ListNotations.

Inductive method := Zip | Chain | Cycle | Map | By_ref | Cloned | Inspect | Enumerate | Peekable | Fuse | Skip | Skip_while | Filter | Filter_map
  | Flat_map | Take_while | Scan | Take.
(* How many arguments the methods have *)
Definition arity (m : method) : nat :=
  match m with Cycle | By_ref | Cloned | Enumerate | Peekable | Fuse => 0 | Scan => 2 | _ => 1 end.
Inductive expr :=
| EMethod (m : method) (receiver : expr) (arg : option expr) (f : nat)   (* arg: an iterator; f: a closure or a number *)
| ERepeat (x : nat)                            (* std::iter::repeat(x) *)
| ERange (start : nat) (last : option nat)     (* start..last, start.. *)
| EBlock (tail : option expr)
| ERef (e : expr)
| EOther (l : list nat).                       (* an iterator over these items *)
(* What is left of an iterator *)
Inductive iter :=
| IList (l : list nat) | IRepeat (x : nat) | IFrom (n : nat)
| IZip (a b : iter) | IChain (a : option iter) (b : iter) | ICycle (whole cur : iter)
| IMap (f : nat) (a : iter) | IFilter (f : nat) (a : iter) | IFilterMap (f : nat) (a : iter)
| IFlat (f : nat) (inner : option iter) (a : iter) | ISkip (n : nat) (a : iter) | ISkipWhile (f : nat) (started : bool) (a : iter)
| ITakeWhile (f : nat) (ended : bool) (a : iter) | ITake (n : nat) (a : iter) | IEnumerate (n : nat) (a : iter).
Inductive answer := Unknown (* not within so many steps *) | None_ | Some_ (x : nat) (rest : iter).

Section Run.
Variable fn : nat -> nat -> nat.
Variable pred : nat -> nat -> bool.
Variable opt : nat -> nat -> option nat.
Variable flat : nat -> nat -> iter.
Fixpoint next (fuel : nat) (i : iter) : answer :=
  match fuel with
  | O => Unknown
  | S fuel =>
      match i with
      | IList [] => None_
      | IList (x :: l) => Some_ x (IList l)
      | IRepeat x => Some_ x (IRepeat x)
      | IFrom n => Some_ n (IFrom (S n))
      | IZip a b =>
          match next fuel a with
          | Some_ x a => match next fuel b with Some_ y b => Some_ (x + y) (IZip a b) | r => r end
          | r => r
          end
      | IChain (Some a) b => match next fuel a with Some_ x a => Some_ x (IChain (Some a) b) | None_ => next fuel (IChain None b) | Unknown => Unknown end
      | IChain None b => match next fuel b with Some_ x b => Some_ x (IChain None b) | r => r end
      | ICycle w c =>
          match next fuel c with
          | Some_ x c => Some_ x (ICycle w c)
          | None_ => match next fuel w with Some_ x c => Some_ x (ICycle w c) | r => r end
          | Unknown => Unknown
          end
      | IMap f a => match next fuel a with Some_ x a => Some_ (fn f x) (IMap f a) | r => r end
      | IFilter f a => match next fuel a with Some_ x a => if pred f x then Some_ x (IFilter f a) else next fuel (IFilter f a) | r => r end
      | IFilterMap f a => match next fuel a with Some_ x a => match opt f x with Some y => Some_ y (IFilterMap f a) | None => next fuel (IFilterMap f a) end | r => r end
      | IFlat f (Some j) a => match next fuel j with Some_ x j => Some_ x (IFlat f (Some j) a) | None_ => next fuel (IFlat f None a) | Unknown => Unknown end
      | IFlat f None a => match next fuel a with Some_ x a => next fuel (IFlat f (Some (flat f x)) a) | r => r end
      | ISkip 0 a => match next fuel a with Some_ x a => Some_ x (ISkip 0 a) | r => r end
      | ISkip (S n) a => match next fuel a with Some_ x a => next fuel (ISkip n a) | r => r end
      | ISkipWhile f b a => match next fuel a with Some_ x a => if b || negb (pred f x) then Some_ x (ISkipWhile f true a) else next fuel (ISkipWhile f false a) | r => r end
      | ITakeWhile f true a => None_
      | ITakeWhile f false a => match next fuel a with Some_ x a => if pred f x then Some_ x (ITakeWhile f false a) else None_ | r => r end
      | ITake 0 a => None_
      | ITake (S n) a => match next fuel a with Some_ x a => Some_ x (ITake n a) | r => r end
      | IEnumerate n a => match next fuel a with Some_ x a => Some_ (n + x) (IEnumerate (S n) a) | r => r end
      end
  end.
Definition from_to (a b : nat) : list nat := seq a (b - a).
Fixpoint start (e : expr) : iter :=
  match e with
  | EMethod m r arg f =>
      let a := start r in
      let b := match arg with Some e => start e | None => IList [] end in
      match m with
      | Zip => IZip a b | Chain => IChain (Some a) b | Cycle => ICycle a a | Map => IMap f a | Enumerate => IEnumerate 0 a
      | By_ref | Cloned | Inspect | Peekable | Fuse => a
      | Skip => ISkip f a | Skip_while => ISkipWhile f false a | Filter => IFilter f a | Filter_map => IFilterMap f a | Flat_map => IFlat f None a
      | Take_while | Scan => ITakeWhile f false a | Take => ITake f a
      end
  | ERepeat x => IRepeat x
  | ERange a (Some b) => IList (from_to a b)
  | ERange a None => IFrom a
  | EBlock (Some e) => start e
  | EBlock None => IList []
  | ERef e => start e
  | EOther l => IList l
  end.
(* Consuming: stop, the items at which it ends early.  None: not within so many steps *)
Fixpoint consume (stop : nat -> bool) (fuel : nat) (i : iter) : option unit :=
  match fuel with
  | O => None
  | S fuel => match next fuel i with Unknown => None | None_ => Some tt | Some_ x i => if stop x then Some tt else consume stop fuel i end
  end.
(* cycle() is of iterators that have an item *)
Fixpoint cycles_ok (e : expr) : Prop :=
  match e with
  | EMethod m r arg _ =>
      (m = Cycle -> forall fuel, next fuel (start r) <> None_) /\ cycles_ok r /\ match arg with Some e => cycles_ok e | None => True end
  | EBlock (Some e) | ERef e => cycles_ok e
  | _ => True
  end.
End Run.

(* What consumes an iterator *)
Inductive consumer :=
| CAll                                (* count, fold, for_each, partition, max, min, ... *)
| CSum (p : option (nat -> bool))     (* sum and product; Some p, where the result is an Option or a Result, and p tells the items that end it *)
| CFind (p : nat -> bool)             (* find, position, any, all *)
| CLast (double_ended : bool)
| CCollect (into : bool) (p : nat -> bool).   (* into: into a collection; otherwise p tells what may end it *)
Definition stops (c : consumer) : nat -> bool :=
  match c with CSum (Some p) | CFind p | CCollect false p => p | _ => fun _ => false end.
