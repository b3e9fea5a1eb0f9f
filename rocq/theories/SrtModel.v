(* Model of /repo/clippy_lints/src/methods/unnecessary_sort_by.rs.  Patterns of structs and slices, and the types that keep the lint from
   suggesting a key (299-330), are not modelled. *)
From Coq Require Import List Bool PeanoNat.
Import ListNotations.
From Verif Require Import SrtSpec.

(* 134-167 BindingSource, BindingKey, BindingValue, BindingMap: the pairs, the last first; n_refs is not modelled *)
Definition binding_map := list (ident * ident).
Definition get (m : binding_map) (left : bool) (x : ident) : option ident :=
  if left then match find (fun p => Nat.eqb (fst p) x) m with Some p => Some (snd p) | None => None end
  else match find (fun p => Nat.eqb (snd p) x) m with Some p => Some (fst p) | None => None end.
Definition contains_key (m : binding_map) (left : bool) (x : ident) : bool := match get m left x with Some _ => true | None => false end.
Section Zip.
Variable f : expr -> expr -> bool.
Fixpoint zip_all (l l' : list expr) : bool := match l, l' with x :: l, y :: l' => f x y && zip_all l l' | _, _ => true end.
End Zip.
Fixpoint zip_idents (l l' : list ident) : bool := match l, l' with x :: l, y :: l' => Nat.eqb x y && zip_idents l l' | _, _ => true end.
(* 119-129 (and 268-272): & are peeled *)
Definition peel1 (b : expr) : expr := match b with ERef b => b | b => b end.
Fixpoint peel (b : expr) : expr := match b with ERef b => peel b | b => b end.
(* 33-132 mirrored_exprs; blocks of DropTemps (77-79) are not modelled *)
Fixpoint mirrored_exprs (m : binding_map) (left : bool) (a b : expr) : bool :=
  match a with
  | ERef a => mirrored_exprs m left a (peel1 b)
  | EArray l => match peel b with EArray l' => zip_all (mirrored_exprs m left) l l' | _ => false end
  | ECall f l => match peel b with ECall f' l' => mirrored_exprs m left f f' && zip_all (mirrored_exprs m left) l l' | _ => false end
  | EMethod n r l =>
      match peel b with EMethod n' r' l' => Nat.eqb n n' && zip_all (mirrored_exprs m left) l l' && mirrored_exprs m left r r' | _ => false end
  | ETup l => match peel b with ETup l' => zip_all (mirrored_exprs m left) l l' | _ => false end
  | EBin o x y => match peel b with EBin o' x' y' => Nat.eqb o o' && mirrored_exprs m left x x' && mirrored_exprs m left y y' | _ => false end
  | EUn o x => match peel b with EUn o' x' => Nat.eqb o o' && mirrored_exprs m left x x' | _ => false end
  | ELit n => match peel b with ELit n' => Nat.eqb n n' | _ => false end
  | ECast _ x => match peel b with ECast _ x' => mirrored_exprs m left x x' | _ => false end
  | EField x f => match peel b with EField x' f' => Nat.eqb f f' && mirrored_exprs m left x x' | _ => false end
  (* 83-118 *)
  | EPath s =>
      match peel b with
      | EPath s' =>
          zip_idents s s' && forallb (fun x => negb (contains_key m true x) && negb (contains_key m false x)) s
          || match s, s' with [x], [y] => match get m left x with Some z => Nat.eqb z y | None => false end | _, _ => false end
      | _ => false
      end
  end.
(* 170-241 mapping_of_mirrored_pats; what is below @ is ignored (184) *)
Section Zip2.
Variable f : pat -> pat -> binding_map -> option binding_map.
Fixpoint zip_pats (l l' : list pat) (m : binding_map) : option binding_map :=
  match l, l' with x :: l, y :: l' => match f x y m with Some m => zip_pats l l' m | None => None end | _, _ => Some m end.
End Zip2.
Definition dots_eqb (a b : option nat) : bool := match a, b with Some a, Some b => Nat.eqb a b | None, None => true | _, _ => false end.
Fixpoint mirrored_pats (p q : pat) (m : binding_map) : option binding_map :=
  match p, q with
  | PTup d l, PTup d' l' => if dots_eqb d d' && Nat.eqb (length l) (length l') then zip_pats mirrored_pats l l' m else None
  | PBind x _, PBind y _ => Some ((x, y) :: m)
  | PWild, PWild => Some m
  | PRef p, PRef q => mirrored_pats p q m
  | _, _ => None
  end.
Inductive trigger := Sort | SortByKey (arg : pat) (body : expr) (reverse : bool).
(* 243-342 detect_lint, of a closure |l, r| a.cmp(b) *)
Definition detect_lint (l r : pat) (a b : expr) : option trigger :=
  match mirrored_pats l r [] with
  | None => None
  | Some m =>
      let found := if mirrored_exprs m true a b then Some (a, false) else if mirrored_exprs m false a b then Some (peel1 b, true) else None in
      match found with
      | None => None
      | Some (body, reverse) =>
          match a, l with
          | EPath [x], PBind y _ => if Nat.eqb x y then Some Sort else Some (SortByKey l body reverse)
          | _, _ => Some (SortByKey l body reverse)
          end
      end
  end.
