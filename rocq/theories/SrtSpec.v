(* Sorting with a closure that compares (/repo/clippy_lints/src/methods/unnecessary_sort_by.rs).  Does not depend on SrtModel.v. *)
From Coq Require Import List Bool PeanoNat.
Import ListNotations.

Notation ident := nat (only parsing).
Inductive expr :=
| EArray (l : list expr)
| ETup (l : list expr)
| ECall (f : expr) (args : list expr)
| EMethod (m : nat) (receiver : expr) (args : list expr)
| EBin (op : nat) (a b : expr)
| EUn (op : nat) (e : expr)
| ELit (n : nat)
| ECast (ty : nat) (e : expr)
| EField (e : expr) (f : nat)
| EPath (segments : list ident)
| ERef (e : expr).
Inductive pat :=
| PTup (dots : option nat) (l : list pat)      (* tuples, tuple structs *)
| PBind (x : ident) (sub : option pat)         (* x, x @ sub *)
| PWild
| PRef (p : pat).

Definition env := ident -> option nat.
Section Run.
(* Values are numbers, whose parts, functions and so on are parameters; & does not change a value, nor how it compares *)
Variable array tuple : list nat -> nat.
Variable call : nat -> list nat -> nat.
Variable method : nat -> nat -> list nat -> nat.
Variable bin : nat -> nat -> nat -> nat.
Variable un : nat -> nat -> nat.
Variable cast : nat -> nat -> nat.
Variable field : nat -> nat -> nat.
Variable global : list ident -> nat.
Variable part : option nat -> nat -> nat -> nat -> nat.    (* by the position of .., how many patterns, and which of them *)
Fixpoint eval (r : env) (e : expr) : nat :=
  match e with
  | EArray l => array (map (eval r) l)
  | ETup l => tuple (map (eval r) l)
  | ECall f l => call (eval r f) (map (eval r) l)
  | EMethod m e l => method m (eval r e) (map (eval r) l)
  | EBin o a b => bin o (eval r a) (eval r b)
  | EUn o e => un o (eval r e)
  | ELit n => n
  | ECast t e => cast t (eval r e)
  | EField e f => field f (eval r e)
  | EPath [x] => match r x with Some v => v | None => global [x] end
  | EPath p => global p
  | ERef e => eval r e
  end.
Section Each.
Variable f : pat -> nat -> list (ident * nat).
Fixpoint binds (d : option nat) (n i : nat) (l : list pat) (v : nat) : list (ident * nat) :=
  match l with [] => [] | p :: l => f p (part d n i v) ++ binds d n (S i) l v end.
End Each.
Fixpoint bind (p : pat) (v : nat) : list (ident * nat) :=
  match p with
  | PTup d l => binds bind d (length l) 0 l v
  | PBind x s => (x, v) :: match s with Some p => bind p v | None => [] end
  | PWild => []
  | PRef p => bind p v
  end.
Fixpoint lookup (l : list (ident * nat)) (x : ident) : option nat :=
  match l with [] => None | (y, v) :: l => if Nat.eqb y x then Some v else lookup l x end.
(* |l, r| a.cmp(&b), and the keys |l| k *)
Definition compared (l r : pat) (a b : expr) (u v : nat) : comparison :=
  Nat.compare (eval (lookup (bind l u ++ bind r v)) a) (eval (lookup (bind l u ++ bind r v)) b).
Definition key (l : pat) (k : expr) (u : nat) : nat := eval (lookup (bind l u)) k.
End Run.
Fixpoint names (p : pat) : list ident :=
  match p with
  | PTup _ l => (fix go l := match l with [] => [] | p :: l => names p ++ go l end) l
  | PBind x s => x :: match s with Some p => names p | None => [] end
  | PWild => []
  | PRef p => names p
  end.
Fixpoint no_sub (p : pat) : bool :=
  match p with
  | PTup _ l => forallb no_sub l
  | PBind _ s => match s with Some _ => false | None => true end
  | PWild => true
  | PRef p => no_sub p
  end.
(* A stable sort *)
Fixpoint insert (c : nat -> nat -> comparison) (x : nat) (l : list nat) : list nat :=
  match l with [] => [x] | y :: l' => match c x y with Gt => y :: insert c x l' | _ => x :: l end end.
Fixpoint sort (c : nat -> nat -> comparison) (l : list nat) : list nat := match l with [] => [] | x :: l => insert c x (sort c l) end.

(* The same but for names, and &: as many elements, arguments and segments; the same types in casts *)
Fixpoint no_ref (e : expr) : expr := match e with ERef e => no_ref e | e => e end.
Section All2.
Variable f : expr -> expr -> bool.
Fixpoint all2 (l l' : list expr) : bool := match l, l' with [], [] => true | x :: l, y :: l' => f x y && all2 l l' | _, _ => false end.
End All2.
Fixpoint alike (a b : expr) : bool :=
  match a with
  | ERef a => alike a b
  | _ =>
    match a, no_ref b with
    | EArray l, EArray l' | ETup l, ETup l' => all2 alike l l'
    | ECall f l, ECall f' l' => alike f f' && all2 alike l l'
    | EMethod _ r l, EMethod _ r' l' => alike r r' && all2 alike l l'
    | EBin _ x y, EBin _ x' y' => alike x x' && alike y y'
    | EUn _ x, EUn _ x' => alike x x'
    | ELit _, ELit _ => true
    | ECast t x, ECast t' x' => Nat.eqb t t' && alike x x'
    | EField x _, EField x' _ => alike x x'
    | EPath s, EPath s' => Nat.eqb (length s) (length s')
    | _, _ => false
    end
  end.
