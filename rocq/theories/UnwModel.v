(* Model of /repo/clippy_lints/src/unwrap.rs. *)
From Coq Require Import List ZArith Bool Arith.
Import ListNotations.
From Verif Require Import UnwSpec.

(* unwrap.rs:126-166 Local: the variable and the fields, last to first; no fields is Local::Pure.  The span is left
   out, as it is by PartialEq. *)
Definition local := (nat * list nat)%type.
Fixpoint eqs (a b : list nat) : bool :=
  match a, b with [], [] => true | x :: r, y :: q => (x =? y) && eqs r q | _, _ => false end.
Definition local_eq (a b : local) : bool := (fst a =? fst b) && eqs (snd a) (snd b).

(* unwrap.rs:300-321 extract_local *)
Fixpoint extract_local (e : ex) : option local :=
  match e with
  | EVar x => Some (x, [])
  | EField r i => match extract_local r with Some (x, is) => Some (x, i :: is) | None => None end
  | _ => None
  end.

(* clippy_utils/src/usage.rs:35-44 is_potentially_local_place; captured variables are left out *)
Definition is_potentially_local_place (x : nat) (p : place) : bool := fst p =? x.
Fixpoint zip_all (a b : list nat) : bool :=
  match a, b with x :: r, y :: q => (x =? y) && zip_all r q | _, _ => true end.
(* unwrap.rs:178-206 Local::is_potentially_local_place *)
Definition potentially (l : local) (p : place) : bool :=
  match snd l with
  | [] => is_potentially_local_place (fst l) p
  | is => is_potentially_local_place (fst l) p && (length (snd p) <=? length is) && zip_all (snd p) (rev is)
  end.

(* unwrap.rs:323-374 MutationVisitor driven by ExprUseVisitor over an expression: mutable borrows (but those for a
   call of as_mut without arguments, is_as_mut_use) and assignments of what may be the place. *)
Fixpoint mutated (l : local) (e : ex) : bool :=
  let hit r := match place_of r with Some p => potentially l p | None => false end in
  match e with
  | EVal _ | EVar _ | EBreak | EContinue | EPanic => false
  | EMeth0 _ m r => (by_mut m && negb (match m with MAsMut => true | _ => false end) && hit r) || mutated l r
  | EMeth1 _ m r a => (by_mut m && hit r) || mutated l r || mutated l a
  | EBorrow r => hit r || mutated l r
  | ERefMut r => match place_of r with Some (x, fs) => potentially l (x, fs ++ [0]) | None => false end || mutated l r
  | EAssign r a => hit r || mutated l r || mutated l a
  | EField a _ | ECall _ a | ENot a | EBlock a | ELoop a | EReturn a => mutated l a
  | EPair a b | EBin _ a b | EIf a b | ELet _ a b | ESeq a b => mutated l a || mutated l b
  | EIfElse a b c => mutated l a || mutated l b || mutated l c
  end.

Section lint.
Variable T : place -> kind.

(* unwrap.rs:242-250 option_or_result_call: whether the check says that unwrap works *)
Definition option_or_result_call (k : kind) (m : meth) : option bool :=
  match k, m with
  | KOpt, MIsSome => Some true
  | KOpt, MIsNone => Some false
  | KRes, MIsOk => Some true
  | KRes, MIsErr => Some false
  | _, _ => None
  end.

(* unwrap.rs:210-230 UnwrapInfo: of it, local and safe_to_unwrap *)
Definition info := (local * bool)%type.

(* unwrap.rs:232-296 collect_unwrap_info *)
Fixpoint collect (invert : bool) (e : ex) : list info :=
  match e with
  | EBin o a b =>
      if match invert, o with false, (BAnd | BBitAnd) | true, (BOr | BBitOr) => true | _, _ => false end
      then collect invert a ++ collect invert b else []
  | ENot a => collect (negb invert) a
  | EMeth0 _ m r =>
      match extract_local r with
      | Some l => match option_or_result_call (T (fst l, rev (snd l))) m with
                  | Some u => [(l, negb (eqb u invert))]
                  | None => []
                  end
      | None => []
      end
  | _ => []
  end.

(* unwrap.rs:377-405 visit_branch: the infos in force in the branch *)
Definition kept (c branch : ex) (invert : bool) : list info :=
  filter (fun i => negb (mutated (fst i) c || mutated (fst i) branch)) (collect invert c).

Inductive verdict := Unnecessary | Panicking.

(* unwrap.rs:413-425 consume_option_as_ref *)
Definition consume_option_as_ref (e : ex) : ex :=
  match e with EMeth0 _ (MAsRef | MAsMut) r => r | _ => e end.

(* unwrap.rs:442-511, the report about one method call *)
Definition report (us : list info) (id : nat) (m : meth) (r : ex) : list (nat * verdict) :=
  if unwraps m then
    match extract_local (consume_option_as_ref r) with
    | Some l =>
        match find (fun u => local_eq (fst u) l) us with
        | Some u => [(id, if eqb (match m with MUnwrapErr => false | _ => true end) (snd u) then Unnecessary else Panicking)]
        | None => []
        end
    | None => []
    end
  else [].

(* unwrap.rs:430-514 visit_expr (top = true) and walk_expr (top = false), which visits the children only.  Macro
   checks (spans, expansions) and closures are left out. *)
Fixpoint visit (top : bool) (us : list info) (e : ex) : list (nat * verdict) :=
  match e with
  | EVal _ | EVar _ | EBreak | EContinue | EPanic => []
  | EIf c t =>
      if top then visit false us c ++ visit false (us ++ kept c t false) t
      else visit true us c ++ visit true us t
  | EIfElse c t f =>
      if top then visit false us c ++ visit false (us ++ kept c t false) t ++ visit false (us ++ kept c f true) f
      else visit true us c ++ visit true us t ++ visit true us f
  | EMeth0 id m r => (if top then report us id m r else []) ++ visit true us r
  | EMeth1 id m r a => (if top then report us id m r else []) ++ visit true us r ++ visit true us a
  | EField a _ | ECall _ a | EBorrow a | ERefMut a | ENot a | EBlock a | ELoop a | EReturn a => visit true us a
  | EPair a b | EBin _ a b | EAssign a b | ELet _ a b | ESeq a b => visit true us a ++ visit true us b
  end.

(* unwrap.rs:522-543 check_fn *)
Definition check_fn (body : ex) : list (nat * verdict) := visit true [] body.
End lint.
