(** What patterns match, and which patterns can be written down. *)
From Coq Require Export Permutation.
From Verif Require Export OrPatModel.

(** Any type of values with ways to look into them. *)
Record world := {
  val : Type;
  leaf : bool -> nat -> val -> bool;                    (* a literal, constant or range matches *)
  inner : un -> val -> option val;                      (* behind a reference or box *)
  parts : prod_kind -> val -> option (list val);        (* the elements of a slice, tuple or tuple struct of this kind *)
  of_path : nat -> val -> bool;                         (* the value is of this struct or variant *)
  field : nat -> nat -> val -> option val
}.
Section Matching.
  Context (w : world).
  (** Name, binding mode and value. *)
  Definition env : Type := list (nat * nat * val w).
  Definition results : Type := list (env * list (val w)).
  Fixpoint suffixes (l : list (val w)) : list (list (val w)) := match l with [] => [[]] | _ :: r => l :: suffixes r end.
  (** The bindings of those ways to match that leave nothing. *)
  Definition full (r : results) : list env := flat_map (fun x => match snd x with [] => [fst x] | _ => [] end) r.
  (** All ways to match the values at the front of a list, from left to right, with the values that remain: `..` takes any number of values,
      everything else one. *)
  Fixpoint m (p : pat) (vs : list (val w)) : results :=
    match p with
    | PRest => map (fun r => ([], r)) (suffixes vs)
    | POr ps => flat_map (fun p => m p vs) ps
    | PParen p => m p vs
    | _ =>
        match vs with
        | [] => []
        | v :: r =>
            map (fun e => (e, r))
              match p with
              | PLeaf range n => if leaf w range n v then [[]] else []
              | PIdent md x None => [[(x, md, v)]]
              | PIdent md x (Some p) => map (cons (x, md, v)) (full (m p [v]))
              | PUn u p => match inner w u v with Some v => full (m p [v]) | None => [] end
              | PProd k ps =>
                  match parts w k v with
                  | Some vs =>
                      full ((fix go ps vs := match ps with
                        | [] => [([], vs)]
                        | p :: ps => flat_map (fun x => map (fun y => (fst x ++ fst y, snd y)) (go ps (snd x))) (m p vs)
                        end) ps vs)
                  | None => []
                  end
              | PStruct n fps _ =>
                  if of_path w n v then
                    (fix go fps := match fps with
                      | [] => [[]]
                      | f :: fps =>
                          match field w n (field_name f) v with
                          | Some x => flat_map (fun e => map (app e) (go fps)) (full (m (snd f) [x]))
                          | None => []
                          end
                      end) fps
                  else []
              | _ => [[]]                               (* `_` *)
              end
        end
    end.
  Definition ways (p : pat) (v : val w) : list env := full (m p [v]).
  Definition matches (p : pat) (v : val w) : Prop := exists e, In e (ways p v).
  (** The bindings of a match without a guard: the first way. *)
  Definition first_way (p : pat) (v : val w) : option env := hd_error (ways p v).
End Matching.
(** Bindings are a set: their order does not matter. *)
Definition some_way (w : world) (p : pat) (v : val w) (e : env w) : Prop := exists e', In e' (ways w p v) /\ Permutation e e'.

(** A pattern accepted by the compiler names no field twice. *)
Fixpoint fields_once (p : pat) : Prop :=
  match p with
  | PIdent _ _ (Some p) | PUn _ p | PParen p => fields_once p
  | PProd _ ps | POr ps => (fix go l := match l with [] => True | p :: l => fields_once p /\ go l end) ps
  | PStruct _ fps _ => NoDup (map field_name fps) /\ (fix go l := match l with [] => True | f :: l => fields_once (snd f) /\ go l end) fps
  | _ => True
  end.
(** No or-pattern within an alternative of an or-pattern. *)
Fixpoint or_free (p : pat) : Prop :=
  match p with
  | PIdent _ _ (Some p) | PUn _ p | PParen p => or_free p
  | PProd _ ps => (fix go l := match l with [] => True | p :: l => or_free p /\ go l end) ps
  | PStruct _ fps _ => (fix go l := match l with [] => True | f :: l => or_free (snd f) /\ go l end) fps
  | POr _ => False
  | _ => True
  end.
Fixpoint flat (p : pat) : Prop :=
  match p with
  | PIdent _ _ (Some p) | PUn _ p | PParen p => flat p
  | PProd _ ps => (fix go l := match l with [] => True | p :: l => flat p /\ go l end) ps
  | PStruct _ fps _ => (fix go l := match l with [] => True | f :: l => flat (snd f) /\ go l end) fps
  | POr ps => (fix go l := match l with [] => True | p :: l => or_free p /\ go l end) ps
  | _ => True
  end.

(** The Rust reference: after `x @` no bare alternatives; after `&`, `&mut` and `box` neither these nor a range, and no `mut x` after `&`; `..` stands only in
    slices, tuples and tuple structs; a shorthand field is its name. *)
(** An or-pattern of one alternative is printed as this alternative. *)
Fixpoint only (p : pat) : pat := match p with POr [p] => only p | p => p end.
Definition bare_or (p : pat) : Prop := match only p with POr _ => True | _ => False end.
Definition bare_range (p : pat) : Prop := match only p with PLeaf true _ => True | _ => False end.
Definition bare_mut (p : pat) : Prop := match only p with PIdent 1 _ _ => True | _ => False end.
Fixpoint writable (p : pat) : Prop :=
  match p with
  | PRest => False
  | PIdent _ _ (Some p) => writable p /\ ~ bare_or p
  | PUn UDeref p => writable p
  | PUn u p => writable p /\ ~ bare_or p /\ ~ bare_range p /\ (u = URef -> ~ bare_mut p)
  | PParen p => writable p
  | PProd _ ps => (fix go l := match l with [] => True | p :: l => (p = PRest \/ writable p) /\ go l end) ps
  | POr ps => (fix go l := match l with [] => True | p :: l => writable p /\ go l end) ps
  | PStruct _ fps _ =>
      (fix go l := match l with
        | [] => True
        | f :: l => writable (snd f) /\ (shorthand f = true -> exists md, snd f = PIdent md (field_name f) None) /\ go l
        end) fps
  | _ => True
  end.
(** What the parentheses put in do not mend: ranges after `&`, `&mut`, `box`, and a lone alternative `mut x` after `&`.  There are no alternatives directly in alternatives. *)
Fixpoint well_placed (p : pat) : Prop :=
  match p with
  | PRest => False
  | PIdent _ _ (Some p) | PParen p | PUn UDeref p => well_placed p
  | PUn u p => well_placed p /\ ~ bare_range p /\ (u = URef -> bare_mut p -> only p = p)
  | PProd _ ps => (fix go l := match l with [] => True | p :: l => (p = PRest \/ well_placed p) /\ go l end) ps
  | POr ps => ps <> [] /\ (fix go l := match l with [] => True | p :: l => (is_or p = false /\ well_placed p) /\ go l end) ps
  | PStruct _ fps _ =>
      (fix go l := match l with
        | [] => True
        | f :: l => well_placed (snd f) /\ (shorthand f = true -> exists md, snd f = PIdent md (field_name f) None) /\ go l
        end) fps
  | _ => True
  end.
(** No `deref!(..)` pattern. *)
Fixpoint no_deref (p : pat) : Prop :=
  match p with
  | PUn UDeref _ => False
  | PIdent _ _ (Some p) | PUn _ p | PParen p => no_deref p
  | PProd _ ps | POr ps => (fix go l := match l with [] => True | p :: l => no_deref p /\ go l end) ps
  | PStruct _ fps _ => (fix go l := match l with [] => True | f :: l => no_deref (snd f) /\ go l end) fps
  | _ => True
  end.
