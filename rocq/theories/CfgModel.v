(** Model of `non_minimal_cfg`, /repo/clippy_lints/src/attrs/non_minimal_cfg.rs. *)
From Coq Require Export List Bool.
Export ListNotations.

(** An item in `cfg(..)`: a name or `key = "value"`, a literal, or a list under `all`, `any`, `not` or another name. *)
Inductive head := All | Any | Not | Other (name : nat).
Inductive item := Atom (name : nat) | Lit (b : bool) | Group (h : head) (list : list item).
(** [check_nested_cfg], non_minimal_cfg.rs:17-56.  Each report is given by the items after its suggestion is applied, [None] if it has none. *)
Fixpoint reports (i : item) : list (option (list item)) :=
  match i with
  | Group h l =>
      match h with
      | Any | All =>
          map (option_map (fun l' => [Group h l']))
            ((fix nested (before l : list item) : list (option (list item)) :=
                match l with
                | [] => []
                | x :: r => map (option_map (fun x' => before ++ x' ++ r)) (reports x) ++ nested (before ++ [x]) r
                end) [] l)
          ++ match h, l with
             | _, [x] => [Some [x]]
             | All, [] => [None]
             | _, _ => []
             end
      | _ => []
      end
  | _ => []
  end.
Definition nested : list item -> list item -> list (option (list item)) :=
  fix nested (before l : list item) : list (option (list item)) :=
    match l with
    | [] => []
    | x :: r => map (option_map (fun x' => before ++ x' ++ r)) (reports x) ++ nested (before ++ [x]) r
    end.
Definition check_nested_cfg (items : list item) : list (option (list item)) := nested [] items.
