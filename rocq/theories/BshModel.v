(* Model of /repo/clippy_lints/src/ifs/branches_sharing_code.rs.  Macros (adjust_by_closest_callsite) and declarations
   of variables with a destructor (needs_ordered_drop: the lint then stops) do not occur. *)
From Coq Require Import List ZArith Bool PeanoNat.
Import ListNotations.
From Verif Require Import BshSpec.

(* SpanlessEq (see C72) on statements; variables with the same name, for which it is checked elsewhere that they are
   the same variable. *)
Definition expr_dec : forall a b : expr, {a = b} + {a <> b}.
Proof. decide equality; first [apply Nat.eq_dec | apply Z.eq_dec]. Defined.
Definition stmt_dec : forall a b : stmt, {a = b} + {a <> b}.
Proof. decide equality; first [apply expr_dec | apply Nat.eq_dec]. Defined.
Definition eqb {A} (dec : forall a b : A, {a = b} + {a <> b}) (a b : A) : bool := if dec a b then true else false.
(* SpanlessHash does not tell variables apart *)
Fixpoint blur (e : expr) : expr :=
  match e with
  | ELit z => ELit z | EVar _ => EVar 0 | EOp o a b => EOp o (blur a) (blur b) | ECall f a => ECall f (blur a) | EMut f _ => EMut f 0
  end.
Definition blur_stmt (s : stmt) : stmt :=
  match s with SLet _ e => SLet 0 (blur e) | SSet _ e => SSet 0 (blur e) | SExpr e => SExpr (blur e) | SRet e => SRet (blur e) end.

Definition mem (x : name) (l : list name) : bool := existsb (Nat.eqb x) l.
(* branches_sharing_code.rs:265-278 modifies_any_local, as far as the statement really changes the variable *)
Fixpoint changed (e : expr) : list name :=
  match e with EOp _ a b => changed a ++ changed b | ECall _ a => changed a | EMut _ x => [x] | _ => [] end.
Definition modified (s : stmt) : list name :=
  match s with SLet _ e | SExpr e | SRet e => changed e | SSet x e => x :: changed e end.
Definition modifies_any_local (locals : list name) (s : stmt) : bool := existsb (fun x => mem x locals) (modified s).

(* branches_sharing_code.rs:282-307 eq_stmts, for the next statement of all other blocks *)
Definition heads (p : stmt -> bool) (others : list (list stmt)) : bool :=
  forallb (fun b => match b with t :: _ => p t | [] => false end) others.
(* branches_sharing_code.rs:331-350: how many statements at the start are equal and do not modify what the conditions
   use; a variable of the same name that is declared by one of them is another *)
Fixpoint start_end_eq (locals : list name) (first : list stmt) (others : list (list stmt)) : nat :=
  match first with
  | [] => 0
  | s :: first =>
      if modifies_any_local locals s then 0
      else if heads (eqb stmt_dec s) others
      then S (start_end_eq (filter (fun x => negb (mem x (bound [s]))) locals) first (map (@tl _) others))
      else 0
  end.
(* branches_sharing_code.rs:380-396: how many at the end have the same hash; first and others are reversed *)
Fixpoint end_search (first : list stmt) (others : list (list stmt)) : nat :=
  match first with
  | [] => 0
  | s :: first =>
      if heads (fun t => eqb stmt_dec (blur_stmt s) (blur_stmt t)) others then S (end_search first (map (@tl _) others)) else 0
  end.
(* branches_sharing_code.rs:398-449: of these, the ones after the last that is not equal.  own: names of variables
   declared before in one of the blocks and not shared; acc: the statements accepted so far *)
Definition resolves (own : list name) (acc : list stmt) (xs : list name) : bool :=
  forallb (fun x => negb (mem x own) || mem x (bound acc)) xs.
Fixpoint end_begin_eq (first : list stmt) (others : list (list stmt)) (own : list name) (acc : list stmt) : list stmt * list name :=
  match first with
  | [] => (acc, own)
  | s :: first =>
      if heads (eqb stmt_dec s) others && resolves own acc (used s)
      then end_begin_eq first (map (@tl _) others) own (acc ++ [s])
      else end_begin_eq first (map (@tl _) others) (bound (flat_map (fun b => firstn 1 b) others) ++ bound [s] ++ bound acc ++ own) []
  end.
Definition last_n {A} (n : nat) (l : list A) : list A := skipn (length l - n) l.

Definition all_tails (p : expr -> bool) (others : list block) : bool :=
  forallb (fun b : block => match snd b with Some e => p e | None => false end) others.
(* branches_sharing_code.rs:309-470 scan_block_for_eq: how many statements at the start are shared, and what is shared
   at the end *)
Definition scan (cs : list expr) (first : block) (others : list block) : nat * option (list stmt * option expr) :=
  let n := start_end_eq (flat_map names cs) (fst first) (map fst others) in
  let expr_hash_eq :=
    match snd first with
    | Some e => all_tails (fun t => eqb expr_dec (blur e) (blur t)) others
    | None => forallb (fun b : block => match snd b with None => true | Some _ => false end) others
    end in
  if expr_hash_eq then
    let k := end_search (rev (skipn n (fst first))) (map (fun b : block => rev (fst b)) others) in
    let own := flat_map (fun b : block => bound (skipn n (firstn (length (fst b) - k) (fst b)))) (first :: others) in
    let '(l, own) := end_begin_eq (last_n k (fst first)) (map (fun b : block => last_n k (fst b)) others) own [] in
    match snd first with
    | Some e =>
        if all_tails (eqb expr_dec e) others && resolves own l (names e) then (n, Some (l, Some e)) else (n, None)
    | None => (n, Some (l, None))
    end
  else (n, None).

(* What is left of a block *)
Definition rest (n : nat) (last : option (list stmt * option expr)) (b : block) : block :=
  match last with
  | Some (l, _) => (skipn n (firstn (length (fst b) - length l) (fst b)), None)
  | None => (skipn n (fst b), snd b)
  end.
(* branches_sharing_code.rs:24-104 check: the shared code in front of and after the if.  Which names the moved
   declarations hide after the if is left to a warning (106, 493-518). *)
Record moved := { start_ : list stmt; blocks_ : list block; end_ : option (list stmt * option expr) }.
Definition check (cs : list expr) (bs : list block) : option moved :=
  match bs with
  | first :: others =>
      match others with
      | [] => None
      | _ :: _ =>
          let (n, last) := scan cs first others in
          match n, last with
          | O, None | O, Some ([], None) => None
          | _, _ => Some {| start_ := firstn n (fst first); blocks_ := map (rest n last) bs; end_ := last |}
          end
      end
  | [] => None
  end.

(* branches_sharing_code.rs:124-195 check_match: the same expression at the end of every arm *)
Definition arm_names (a : name * block) : list name := fst a :: bound (fst (snd a)).
Definition check_match (arms : list (name * block)) : option (list (name * block) * expr) :=
  match arms with
  | first :: ((_ :: _) as others) =>
      match snd (snd first) with
      | Some e =>
          if all_tails (eqb expr_dec e) (map snd others) && resolves (flat_map arm_names arms) [] (names e) &&
             existsb (fun a : name * block => match fst (snd a) with [] => false | _ => true end) arms
          then Some (map (fun a : name * block => (fst a, (fst (snd a), None) : block)) arms, e)
          else None
      | None => None
      end
  | _ => None
  end.
