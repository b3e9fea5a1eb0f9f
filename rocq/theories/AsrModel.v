(* Model of /repo/clippy_lints/src/missing_asserts_for_indexing.rs.  Slices are named; the comparison of slices by value
   (eq_expr_value, C72) is equality of names.  The order of visits is the order in the text, so that the tests of the order of
   spans (260, 321) hold for an index after an assertion and fail for an assertion after an index. *)
From Coq Require Import List Bool PeanoNat.
Import ListNotations.
From Verif Require Import AsrSpec.

(* 215-235 upper_index_expr: the literal, or the end of a range if it is 1 or more *)
Definition upper_index_expr (i : index) : option nat :=
  match i with
  | At n => Some n
  | Upto _ (S b) => Some b
  | Through _ (S b) => Some (S b)
  | _ => None
  end.

(* 172-203 IndexEntry; count: how many indexes *)
Inductive entry :=
| StrayAssert (len : nat) (c : cmp) (m : macro)
| AssertWithIndex (highest : nat) (is_first_highest : bool) (len : nat) (c : cmp) (m : macro) (count : nat)
| IndexWithoutAssert (highest : nat) (is_first_highest : bool) (count : nat).
Definition map_ := list (name * entry).
Fixpoint find_ (v : name) (m : map_) : option entry :=
  match m with [] => None | (w, e) :: m => if Nat.eqb v w then Some e else find_ v m end.
Fixpoint put (v : name) (e : entry) (m : map_) : map_ :=
  match m with [] => [(v, e)] | (w, f) :: m => if Nat.eqb v w then (w, e) :: m else (w, f) :: put v e m end.

(* 237-301 check_index *)
Definition on_index (i : nat) (e : option entry) : entry :=
  match e with
  | Some (StrayAssert len c m) => AssertWithIndex i true len c m 1
  | Some (IndexWithoutAssert h f n) => IndexWithoutAssert (Nat.max h i) (if f then i <=? h else f) (S n)
  | Some (AssertWithIndex h f len c m n) => AssertWithIndex (Nat.max h i) (if f then i <=? h else f) len c m (S n)
  | None => IndexWithoutAssert i true 1
  end.
Definition check_index (v : name) (i : index) (m : map_) : map_ :=
  match upper_index_expr i with Some n => put v (on_index n (find_ v m)) m | None => m end.
(* 303-344 check_assert *)
Definition check_assert (v : name) (c : cmp) (n : nat) (k : macro) (m : map_) : map_ :=
  match find_ v m with Some _ => m | None => put v (StrayAssert n c k) m end.
(* 436-450 check_body *)
Fixpoint visit (s : stmt) (m : map_) : map_ :=
  match s with
  | Index v i => check_index v i m
  | Check v c n k => check_assert v c n k m
  | Set_ _ _ => m
  | If _ a b =>
      let go := (fix go (ss : list stmt) (m : map_) := match ss with [] => m | s :: ss => go ss (visit s m) end) in
      go b (go a m)
  end.
Fixpoint visits (ss : list stmt) (m : map_) : map_ := match ss with [] => m | s :: ss => visits ss (visit s m) end.

(* 346-434 report_indexes: an assertion to replace the one there is, or one to add *)
Inductive sugg := Replace (c : cmp) (n : nat) (m : macro) | Add (n : nat).
Definition report_entry (e : entry) : option sugg :=
  match e with
  | AssertWithIndex h f len c m n =>
      if (1 <? n) && negb f then
        match c with
        | Less | LessEq => Some (Replace More h Assert)
        | More => if len <? h then Some (Replace More h Assert) else None
        | MoreEq => if len <=? h then Some (Replace More h Assert) else None
        | Equal => if len <? h + 1 then Some (Replace Equal (h + 1) m) else None
        end
      else None
  | IndexWithoutAssert h f n => if (1 <? n) && negb f then Some (Add h) else None
  | StrayAssert _ _ _ => None
  end.
Definition report (v : name) (ss : list stmt) : option sugg :=
  match find_ v (visits ss []) with Some e => report_entry e | None => None end.
(* The text with the assertion that is suggested *)
Fixpoint replace_first (v : name) (c : cmp) (n : nat) (m : macro) (ss : list stmt) : list stmt :=
  match ss with
  | [] => []
  | Check w c' n' m' :: ss => if Nat.eqb v w then Check w c n m :: ss else Check w c' n' m' :: replace_first v c n m ss
  | s :: ss => s :: replace_first v c n m ss
  end.
Definition apply (v : name) (s : sugg) (ss : list stmt) : list stmt :=
  match s with Replace c n m => replace_first v c n m ss | Add n => Check v More n Assert :: ss end.
