(** Model of /repo/clippy_lints/src/duration_suboptimal_units.rs. *)
From Coq Require Export ZArith.
From Verif Require Export Text.
Local Open Scope Z_scope.

(** duration_suboptimal_units.rs:150-165 [Unit].  A version is an element of [ver]; its order is in [meets]. *)
Inductive ver := V1_27 | V1_3 | V1_91.
Record tunit := { uname : text; factor : Z; since : option ver }.
(** duration_suboptimal_units.rs:168-204 [UNITS]; versions from /repo/clippy_utils/src/msrvs.rs. *)
Definition UNITS : list tunit :=
  [{| uname := tx "from_nanos"; factor := 0; since := Some V1_27 |};
   {| uname := tx "from_micros"; factor := 1000; since := Some V1_27 |};
   {| uname := tx "from_millis"; factor := 1000; since := Some V1_3 |};
   {| uname := tx "from_secs"; factor := 1000; since := Some V1_3 |};
   {| uname := tx "from_mins"; factor := 60; since := Some V1_91 |};
   {| uname := tx "from_hours"; factor := 60; since := Some V1_91 |}].
(** duration_suboptimal_units.rs:206-218 [EXTENDED_UNITS]. *)
Definition EXTENDED_UNITS : list tunit :=
  [{| uname := tx "from_days"; factor := 24; since := None |}; {| uname := tx "from_weeks"; factor := 7; since := None |}].
(** duration_suboptimal_units.rs:63-72 [new]; [ext]: the feature duration_constructors is on. *)
Definition units (ext : bool) : list tunit := UNITS ++ if ext then EXTENDED_UNITS else [].

(** [u64::div_exact]. *)
Definition div_exact (a b : Z) : option Z := if (b =? 0) then None else if (a mod b =? 0) then Some (a / b) else None.
(** [Iterator::skip_while]. *)
Fixpoint skip_while {A} (f : A -> bool) (l : list A) : list A :=
  match l with [] => [] | x :: r => if f x then skip_while f r else l end.
(** duration_suboptimal_units.rs:128-143: the [try_fold]; a break ends it with the current pair. *)
Fixpoint climb (meets : ver -> bool) (us : list tunit) (cur : text * Z) : text * Z :=
  match us with
  | [] => cur
  | u :: us =>
      match div_exact (snd cur) (factor u) with
      | Some v => if match since u with None => true | Some v => meets v end then climb meets us (uname u, v) else cur
      | None => cur
      end
  end.
(** duration_suboptimal_units.rs:121-146 [promote]. *)
Definition promote (meets : ver -> bool) (us : list tunit) (name : text) (value : Z) : option (text * Z) :=
  let best := climb meets (tl (skip_while (fun u => negb (teqb (uname u) name)) us)) (name, value) in
  if teqb (fst best) name then None else Some best.
(** duration_suboptimal_units.rs:75-113 [check_expr]: constructor, constant value of the argument (C27), whether
    the argument is a literal.  External macros left out. *)
Definition check_duration (meets : ver -> bool) (ext : bool) (name : text) (value : Z) (literal : bool) : option (text * Z) :=
  if value =? 0 then None
  else match promote meets (units ext) name value with
       | Some (n, v) => if negb literal || (10 <? v) then Some (n, v) else None
       | None => None
       end.
