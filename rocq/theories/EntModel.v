(* Model of /repo/clippy_lints/src/entry.rs.  Macros, awaits while a mutex is locked, inline assembly and what can be moved into closures
   otherwise are not modelled. *)
From Coq Require Import List Bool PeanoNat.
Import ListNotations.
From Verif Require Import EntSpec.

Definition key_eqb (a b : key) : bool := match a, b with KVar x, KVar y => Nat.eqb x y | KCall f, KCall g => Nat.eqb f g | _, _ => false end.
(* 361-391 InsertSearcher; edits: how many insertions *)
Record searcher := { allow_insert_closure : bool; can_use_entry : bool; in_tail_pos : bool; is_map_used : bool; is_key_used : bool; edits : nat }.
Definition stop (v : searcher) : searcher :=
  {| allow_insert_closure := allow_insert_closure v; can_use_entry := false; in_tail_pos := in_tail_pos v; is_map_used := is_map_used v; is_key_used := is_key_used v; edits := edits v |}.
Definition set_tail (t : bool) (v : searcher) : searcher :=
  {| allow_insert_closure := allow_insert_closure v; can_use_entry := can_use_entry v; in_tail_pos := t; is_map_used := is_map_used v; is_key_used := is_key_used v; edits := edits v |}.
Definition set_used (u : bool) (v : searcher) : searcher :=
  {| allow_insert_closure := allow_insert_closure v; can_use_entry := can_use_entry v; in_tail_pos := in_tail_pos v; is_map_used := u; is_key_used := is_key_used v; edits := edits v |}.
Definition set_key (v : searcher) : searcher :=
  {| allow_insert_closure := allow_insert_closure v; can_use_entry := can_use_entry v; in_tail_pos := in_tail_pos v; is_map_used := is_map_used v; is_key_used := true; edits := edits v |}.
Definition allow (b : bool) (v : searcher) : searcher :=
  {| allow_insert_closure := allow_insert_closure v && b; can_use_entry := can_use_entry v; in_tail_pos := in_tail_pos v; is_map_used := is_map_used v; is_key_used := is_key_used v; edits := edits v |}.
Definition one_more (v : searcher) : searcher :=
  {| allow_insert_closure := allow_insert_closure v; can_use_entry := can_use_entry v; in_tail_pos := in_tail_pos v; is_map_used := true; is_key_used := is_key_used v; edits := S (edits v) |}.
Definition names (k : key) (x : name) : bool := match k with KVar y => Nat.eqb y x | KCall _ => false end.
(* 417-427 visit_insert_expr_arguments *)
Definition visit_value (k : key) (val : value) (v : searcher) : searcher :=
  match val with VMap _ => set_used true v | VKey x => if names k x then set_key v else v | _ => v end.
(* 579-586 other expressions *)
Definition other (movable : bool) (v : searcher) : searcher := set_tail false (allow movable (allow (negb (in_tail_pos v)) v)).
(* 503-533 an insertion *)
Definition visit_insert (k : key) (k' : key) (val : value) (v : searcher) : searcher :=
  let v := visit_value k val v in
  if is_map_used v || negb (key_eqb k k') then stop v else
  let v := one_more v in allow (in_tail_pos v) v.
(* 494-587 visit_expr, with 429-492 visit_stmt and visit_block *)
Fixpoint visit (inloop : bool) (k : key) (s : stmt) (v : searcher) : searcher :=
  if negb (can_use_entry v) then v else
  match s with
  | SSkip => allow (negb (in_tail_pos v)) v
  | SSeq a b => let w := visit inloop k a (set_tail false v) in visit inloop k b (set_tail (in_tail_pos v) w)
  | SInsert false k' val => visit_insert k k' val v
  | SInsert true k' val => visit_insert k k' val (other true v)
  | SUseMap _ => set_used true (other true v)
  | SUseKey x _ | SSet x _ => let v := other true v in if names k x then set_key v else v
  | SCall _ => other true v
  | SBreak => other inloop v     (* loops: the loops around, inside the block *)
  | SReturn => other false v
  | SIf _ a b =>
      (* visit_cond_arm (396-405) restores the tail position *)
      let va := visit inloop k a v in
      let vb := visit inloop k b (set_used (is_map_used v) (set_tail (in_tail_pos v) va)) in
      set_used (is_map_used va || is_map_used vb) (set_tail (in_tail_pos v) vb)
  | SWhen _ a => visit inloop k a (other true v)
  | SLoop b =>
      let w := visit true k b (allow (negb (in_tail_pos v)) v) in
      if Nat.eqb (edits w) (edits v) then w else stop w
  | SMany _ b => visit false k b (other true v)
  | SEntry _ _ _ => v
  end.
(* 722-763 find_insert_calls *)
Definition find_insert_calls (k : key) (s : stmt) : option searcher :=
  let v := visit false k s {| allow_insert_closure := true; can_use_entry := true; in_tail_pos := true; is_map_used := false; is_key_used := false; edits := 0 |} in
  if can_use_entry v then Some v else None.
(* 626-692 snippet, snippet_occupied, snippet_vacant: the insertions replaced *)
Fixpoint snippet (vacant : bool) (s : stmt) : stmt :=
  match s with
  | SInsert o _ v => SEntry o vacant v
  | SSeq a b => SSeq (snippet vacant a) (snippet vacant b)
  | SIf c a b => SIf c (snippet vacant a) (snippet vacant b)
  | SWhen c a => SWhen c (snippet vacant a)
  | SLoop b => SLoop (snippet vacant b)
  | SMany f b => SMany f (snippet vacant b)
  | _ => s
  end.
Definition can_have_side_effects (v : value) : bool := match v with VLit _ => false | VKey _ => true | VCall _ => true | VMap _ => true end.
(* 66-212 check_expr: Some None, where no code is suggested; copy: are the keys Copy? *)
Definition check_expr (copy : bool) (c : check_) : option (option suggestion) :=
  match c with
  | Check negated k a b =>
      match find_insert_calls k a with
      | None => None
      | Some va =>
          match b with
          | Some b =>
              match find_insert_calls k b with
              | None => None
              | Some vb =>
                  if Nat.eqb (edits va) 0 && Nat.eqb (edits vb) 0 then None
                  else if (is_key_used va || is_key_used vb) && negb copy then Some None
                  else if Nat.eqb (edits vb) 0 then Some (Some (IfLet k negated (snippet negated a) (Some b)))
                  else if Nat.eqb (edits va) 0 then Some (Some (IfLet k (negb negated) (snippet (negb negated) b) (Some a)))
                  else Some (Some (if negated then Match k (snippet true a) (snippet false b) else Match k (snippet true b) (snippet false a)))
              end
          | None =>
              if Nat.eqb (edits va) 0 then None
              else if negb (allow_insert_closure va) then Some (Some (IfLet k negated (snippet negated a) None))
              else if negb negated then None
              else match a with
                   | SInsert _ _ v => Some (Some (if can_have_side_effects v then OrInsertWith k v else OrInsert k v))
                   | _ => Some (Some (OrInsertBlock k (snippet true a)))
                   end
          end
      end
  end.
