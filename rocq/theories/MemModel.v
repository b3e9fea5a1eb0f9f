(* Model of /repo/clippy_lints/src/loops/manual_memcpy.rs. *)
From Coq Require Import List ZArith Bool.
Import ListNotations.
From Verif Require Import MemSpec.
Open Scope Z_scope.

(* Suggestions are expressions instead of text; equal text is taken as equal expressions. *)
Fixpoint ix_eqb (a b : ix) : bool :=
  match a, b with
  | ILit n, ILit m => n =? m
  | IVar x, IVar y => Nat.eqb x y
  | ILen x, ILen y => base_eqb x y
  | IAdd a b, IAdd c d | ISub a b, ISub c d => ix_eqb a c && ix_eqb b d
  | INeg a, INeg b => ix_eqb a b
  | _, _ => false
  end.

(* manual_memcpy.rs:238-240 is_zero *)
Definition is_zero (e : ix) : bool := match e with ILit n => n =? 0 | _ => false end.
(* manual_memcpy.rs:249-258, 275-284 Add for MinifyingSugg *)
Definition madd (a b : ix) : ix := if is_zero a then b else if is_zero b then a else IAdd a b.
(* manual_memcpy.rs:260-273, 286-299 Sub for MinifyingSugg *)
Definition msub (a b : ix) : ix :=
  if is_zero b then a else if is_zero a then INeg b else if ix_eqb a b then ILit 0 else ISub a b.

(* manual_memcpy.rs:301-339 Offset and apply_offset; true: positive *)
Definition offset := (bool * ix)%type.
Definition apply_offset (e : ix) (o : offset) : ix := if fst o then madd e (snd o) else msub e (snd o).

(* manual_memcpy.rs:341-356 StartKind, Start *)
Inductive kind := KRange | KCounter (initializer : ix).
Definition starts := list (nat * kind).

(* manual_memcpy.rs:382-385 get_start *)
Definition get_start (ss : starts) (e : ix) : option kind :=
  match e with
  | IVar x => match find (fun p => Nat.eqb (fst p) x) ss with Some p => Some (snd p) | None => None end
  | _ => None
  end.
(* manual_memcpy.rs:387-396 get_offset *)
Definition get_offset (ss : starts) (e : ix) : option ix :=
  match e with
  | ILit n => Some e
  | IVar x => match get_start ss e with None => Some e | Some _ => None end
  | _ => None
  end.
Definition zip {A B} (a : option A) (b : option B) : option (A * B) :=
  match a, b with Some x, Some y => Some (x, y) | _, _ => None end.
(* manual_memcpy.rs:377-415 get_details_from_idx *)
Definition details (ss : starts) (idx : ix) : option (kind * offset) :=
  match idx with
  | IAdd l r =>
      match zip (get_start ss l) (get_offset ss r) with
      | Some (k, o) => Some (k, (true, o))
      | None => match zip (get_start ss r) (get_offset ss l) with
                | Some (k, o) => Some (k, (true, o))
                | None => None
                end
      end
  | ISub l r => match zip (get_start ss l) (get_offset ss r) with Some (k, o) => Some (k, (false, o)) | None => None end
  | IVar x => match get_start ss idx with Some k => Some (k, (true, ILit 0)) | None => None end
  | _ => None
  end.

(* loops/utils.rs:15-116 IncrementVisitor on a body without branches: the state of one variable *)
Inductive vstate := VInitial | VIncrOnce | VDontWarn.
Definition mentions (x : nat) (e : ix) : bool := existsb (Nat.eqb x) (vars e).
Definition looked (m : vstate) (b : bool) : vstate := if b then match m with VIncrOnce => VDontWarn | _ => m end else m.
Definition incr (x : nat) (m : vstate) (c : stmt) : vstate :=
  match c with
  | SCopy _ i _ j => looked m (mentions x i || mentions x j)
  | SAdd y k =>
      if Nat.eqb x y
      then match m with VInitial => if k =? 1 then VIncrOnce else VDontWarn | _ => VDontWarn end
      else m
  | SAddAt _ i _ => looked m (mentions x i)
  | SLet _ e => looked m (mentions x e)
  | SSet y e => if Nat.eqb x y then VDontWarn else looked m (mentions x e)
  end.
Definition incr_once (body : list stmt) (x : nat) : bool :=
  match fold_left (incr x) body VInitial with VIncrOnce => true | _ => false end.

(* manual_memcpy.rs:459-484 get_loop_counters; inits is what InitializeVisitor (loops/utils.rs:118-250) finds in the
   enclosing block: variables and the expressions they are set to before the loop *)
Definition get_loop_counters (inits : list (nat * ix)) (body : list stmt) : starts :=
  map (fun p => (fst p, KCounter (snd p))) (filter (fun p => incr_once body (fst p)) inits).

Definition res_local_id (b : base) : option nat := match b with BLocal a => Some a | BPath _ => None end.
Definition same_res (a b : base) : bool :=
  match res_local_id a, res_local_id b with
  | Some x, Some y => Nat.eqb x y
  | None, None => true
  | _, _ => false
  end.

Section check.
Variable alen : base -> option Z.      (* the length, if the type is an array *)
Variables lo hi : ix.                  (* the range *)
Variable closed : bool.

(* manual_memcpy.rs:486-512 is_array_length_equal_to_range; end_value - start_value overflows (and the compiler
   panics, in debug builds) if the range is reversed, here that is false *)
Definition is_array_length_equal_to_range (b : base) : bool :=
  match alen b, lo, hi with
  | Some n, ILit x, ILit y => n =? y - x
  | _, _, _ => false
  end.

(* manual_memcpy.rs:126-132 print_offset; None is the empty text *)
Definition print_offset (e : ix) : option ix := if ix_eqb e (ILit 0) then None else Some e.
(* manual_memcpy.rs:134-151 print_limit *)
Definition print_limit (b : base) (e : ix) : option ix :=
  match hi with
  | ILen r =>
      if same_res r b then if ix_eqb e hi then None else Some e
      else Some (if closed then madd e (ILit 1) else e)
  | _ => Some (if closed then madd e (ILit 1) else e)
  end.
(* manual_memcpy.rs:156-180 print_offset_and_limit *)
Definition offset_and_limit (b : base) (k : kind) (o : offset) : option ix * option ix :=
  match k with
  | KRange => (print_offset (apply_offset lo o), print_limit b (apply_offset hi o))
  | KCounter c => (print_offset (apply_offset c o), print_limit b (msub (madd (apply_offset hi o) c) lo))
  end.
(* manual_memcpy.rs:117-217 build_manual_memcpy_suggestion; copy_from_slice and clone_from_slice are the same here *)
Definition build (d : base) (kd : kind) (od : offset) (s : base) (ks : kind) (os : offset) : copy :=
  let (a, b) := offset_and_limit d kd od in
  let (x, y) := offset_and_limit s ks os in
  let '(a, b) := if is_array_length_equal_to_range d then (None, None) else (a, b) in
  let '(x, y) := if is_array_length_equal_to_range s then (None, None) else (x, y) in
  {| d_ := d; dlo := a; dhi := b; s_ := s; slo := x; shi := y |}.

(* manual_memcpy.rs:60-96, one statement.  The elements need no type here, bases do not mention the loop variable. *)
Definition assignment (ss : starts) (c : stmt) : option copy :=
  match c with
  | SCopy d i s j =>
      match details ss i, details ss j with
      | Some (kd, od), Some (ks, os) => if same_res d s then None else Some (build d kd od s ks os)
      | _, _ => None
      end
  | _ => None
  end.
(* manual_memcpy.rs:429-457 get_assignments: which statements are looked at.  Declarations are not; of compound
   assignments only those to variables that are not counters are. *)
Definition kept (counters : starts) (c : stmt) : bool :=
  match c with
  | SLet _ _ => false
  | SAdd x _ => negb (existsb (fun p => Nat.eqb (fst p) x) counters)
  | SAddAt _ _ _ => false
  | _ => true
  end.
Fixpoint all {A} (l : list (option A)) : option (list A) :=
  match l with
  | [] => Some []
  | Some a :: r => match all r with Some q => Some (a :: q) | None => None end
  | None :: _ => None
  end.
(* manual_memcpy.rs:20-115 check *)
Definition check (i : nat) (inits : list (nat * ix)) (body : list stmt) : option (list copy) :=
  let cs := get_loop_counters inits body in
  match all (map (assignment ((i, KRange) :: cs)) (filter (kept cs) body)) with
  | Some [] | None => None
  | Some l => Some l
  end.
End check.
