(* Model of /repo/clippy_lints/src/vec_init_then_push.rs, for the statements of a block.  Blocks within statements are not modelled.  How the
   vector is used later (75-119), which only keeps small vectors from being reported, is a parameter. *)
From Coq Require Import List Bool PeanoNat.
Import ListNotations.
From Verif Require Import VipSpec.

(* 54-63 VecPushSearcher: where the vector is made, what has been pushed *)
Record searcher := { local_id : ident; kind : init; direct : bool; start : nat; pushed : list item }.
Record report := { r_local : ident; r_direct : bool; r_start : nat; r_items : list item }.
Section Check.
Variable extended : ident -> bool.
(* 65-150 display_err *)
Definition display_err (s : searcher) : list report :=
  let found := length (pushed s) in
  let go required :=
    if extended (local_id s) && Nat.leb found required then []
    else [{| r_local := local_id s; r_direct := direct s; r_start := start s; r_items := pushed s |}] in
  if Nat.eqb found 0 then []
  else match kind s with
       | IConst x => if Nat.ltb found x then [] else go x
       | IExpr _ => []
       | _ => go 3
       end.
(* get_vec_init_kind, but for IExpr (163, 186) *)
Definition get_vec_init_kind (a : init) : option init := match a with INew | IConst _ => Some a | IExpr _ | IVec _ => None end.
(* 158-199 check_local, check_expr *)
Definition begin (n : nat) (t : stm) : option searcher :=
  match t with
  | SLet v a => match get_vec_init_kind a with Some k => Some {| local_id := v; kind := k; direct := true; start := n; pushed := [] |} | None => None end
  | SMatch _ v a => match get_vec_init_kind a with Some k => Some {| local_id := v; kind := k; direct := false; start := n; pushed := [] |} | None => None end
  | _ => None
  end.
(* 201-225 check_stmt, check_block_post: n statements are before *)
Fixpoint check_stmts (o : option searcher) (n : nat) (l : list stm) : list report :=
  match l with
  | [] => match o with Some s => display_err s | None => [] end
  | t :: l =>
      match o with
      | Some s =>
          match (match t with SPush v i => if Nat.eqb v (local_id s) then Some i else None | _ => None end) with
          | Some i =>
              check_stmts (Some {| local_id := local_id s; kind := kind s; direct := direct s; start := start s; pushed := pushed s ++ [i] |}) (S n) l
          | None => display_err s ++ check_stmts (begin n t) (S n) l
          end
      | None => check_stmts (begin n t) (S n) l
      end
  end.
End Check.
