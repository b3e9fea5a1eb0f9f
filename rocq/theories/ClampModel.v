(** Model of /repo/clippy_lints/src/manual_clamp.rs. *)
From Verif Require Export RustStmt ConstModel ArithModel CmpModel.
Open Scope Z_scope.

(** manual_clamp.rs:134-139 [InputMinMax] (the [is_float] flag only selects notes). *)
Record imm := { i_input : expr; i_min : expr; i_max : expr }.

(** manual_clamp.rs:115-130 [ClampSuggestion::min_less_than_max]. *)
Definition min_less_than_max (p : ptrw) (s : imm) : bool :=
  match ty_of (i_max s), ty_of (i_min s) with
  | Some tx, Some tn =>
      ty_eqb tx tn &&
      match ceval p p (i_max s), ceval p p (i_min s) with
      | Some cx, Some cn => match const_partial_cmp p tx cn cx with Some Gt => false | Some _ => true | None => false end
      | _, _ => false
      end
  | _, _ => false
  end.

(** manual_clamp.rs:606-637 [BinaryOp] (only comparisons: the others are rejected by [is_ord_op]). *)
Definition bin3 := (cop * expr * expr)%type.
Definition new_bin (e : expr) : option bin3 := match e with EBin (BC c) l r => Some (c, l, r) | _ => None end.
Definition flip_bin (b : bin3) : bin3 := let '(c, l, r) := b in (ord_reverse c, r, l).
(** manual_clamp.rs:784-816 [try_normalize_unsigned_eq_to_ord]. *)
Definition normalize_eq (b : bin3) (result : expr) : bin3 :=
  let '(c, l, r) := b in
  match c, ty_of l with
  | CEq, Some (TI t) =>
      if ity_signed t then b
      else
        match (if is_int_lit r 0 then Some l else if is_int_lit l 0 then Some r else None) with
        | Some input => if is_int_lit result 1 then (CLt, input, result) else b
        | None => b
        end
  | _, _ => b
  end.
(** [res_local_id() == Some(h)]. *)
Definition is_var_id (e : expr) (h : nat) : bool := match e with EVar _ x => Nat.eqb x h | _ => false end.
(** manual_clamp.rs:674-709, inner [check].  [ids]: the arm bindings of the match form. *)
Definition meta_check (ids : option (nat * nat)) (f s : bin3) (fe se : expr) : option imm :=
  let '(cf, fl, fr) := f in let '(cs, sl, sr) := s in
  match cf, cs with
  | (CGe | CGt), (CLe | CLt) =>
      let refers := match ids with
        | Some (h1, h2) => is_var_id fl h1 && is_var_id sl h2
        | None => expr_eqb fl sl
        end in
      if refers && expr_eqb fr fe && expr_eqb sr se
      then Some {| i_input := fl; i_min := se; i_max := fe |} else None
  | _, _ => None
  end.
Definition swap_ids (ids : option (nat * nat)) : option (nat * nat) := option_map (fun '(a, b) => (b, a)) ids.
Definition meta_both ids (f s : bin3) (fe se : expr) : option imm :=
  match meta_check ids f s fe se with
  | Some r => Some r
  | None => meta_check (swap_ids ids) s f se fe
  end.
(** manual_clamp.rs:659-758 [is_clamp_meta_pattern].  The side-effect filter and the `Ord`/float
    test on the type are dropped (they only silence the lint). *)
Definition clamp_meta (ids : option (nat * nat)) (f s : bin3) (fe se : expr) : option imm :=
  let f := normalize_eq f fe in let s := normalize_eq s se in
  if is_ord (fst (fst f)) && is_ord (fst (fst s)) then
    match meta_both ids f s fe se with
    | Some r => Some r
    | None =>
        match meta_both ids (flip_bin f) (flip_bin s) fe se with
        | Some r => Some r
        | None =>
            match meta_both ids (flip_bin f) s fe se with
            | Some r => Some r
            | None => meta_both ids f (flip_bin s) fe se
            end
        end
    end
  else None.

(** manual_clamp.rs:265-299 [is_if_elseif_else_pattern] (blocks are peeled: the expression
    language has none). *)
Definition clamp_if_else (e : expr) : option imm :=
  match e with
  | EIf c1 e1 (EIf c2 e2 e3) =>
      match new_bin c1, new_bin c2 with
      | Some b1, Some b2 =>
          match clamp_meta None b1 b2 e1 e2 with
          | Some r => if expr_eqb (i_input r) e3 then Some r else None
          | None => None
          end
      | _, _ => None
      end
  | _ => None
  end.
(** manual_clamp.rs:309-338 [is_max_min_pattern]. *)
Definition clamp_methods (e : expr) : option imm :=
  match e with
  | EM1 k2 (EM1 k1 input a1) a2 =>
      match k1, k2 with
      | MMin, MMax => Some {| i_input := input; i_min := a2; i_max := a1 |}
      | MMax, MMin => Some {| i_input := input; i_min := a1; i_max := a2 |}
      | _, _ => None
      end
  | _ => None
  end.
(** manual_clamp.rs:348-429 [is_call_max_min_pattern].  `min(a, b)` and `a.min(b)` are the same node
    of the expression language; here the node is read as a call.  [ce] stands for
    [is_const_evaluatable] and is arbitrary. *)
Definition call_check (ce : expr -> bool) (k2 : meth1) (inner outer_arg : expr) : option imm :=
  match inner with
  | EM1 k1 first second =>
      match (match ce first, ce second with
             | true, false => Some (second, first)
             | false, true => Some (first, second)
             | _, _ => None
             end) with
      | Some (input, inner_arg) =>
          match k1, k2 with
          | MMin, MMax => Some {| i_input := input; i_min := outer_arg; i_max := inner_arg |}
          | MMax, MMin => Some {| i_input := input; i_min := inner_arg; i_max := outer_arg |}
          | _, _ => None
          end
      | None => None
      end
  | _ => None
  end.
Definition clamp_calls (ce : expr -> bool) (e : expr) : option imm :=
  match e with
  | EM1 k2 first second =>
      match call_check ce k2 first second with
      | Some r => Some r
      | None => call_check ce k2 second first
      end
  | _ => None
  end.

(** manual_clamp.rs:142-161 [check_expr] and 182-223 [maybe_emit_suggestion], expression forms.
    [ce = None] reads min/max nodes as method calls, [Some _] as function calls. *)
Definition clamp_sugg (s : imm) : expr := EM2 MClamp (i_input s) (i_min s) (i_max s).
Definition clamp_expr (p : ptrw) (ce : option (expr -> bool)) (e : expr) : option expr :=
  match (match clamp_if_else e with
         | Some r => Some r
         | None => match ce with None => clamp_methods e | Some ce => clamp_calls ce e end
         end) with
  | Some r => if min_less_than_max p r then Some (clamp_sugg r) else None
  | None => None
  end.

(** The match form (manual_clamp.rs:443-490 [is_match_pattern]):
    `match value { b1 if g1 => e1, b2 if g2 => e2, b3 => b3 }`; every binding has the type [mt]
    of the scrutinee. *)
Record clamp_match := { m_value : expr; m_ty : ty; m_b1 : nat; m_g1 : expr; m_e1 : expr;
                        m_b2 : nat; m_g2 : expr; m_e2 : expr; m_b3 : nat }.
(** Reference semantics of that match. *)
Definition eval_match (m : mode) (p : ptrw) (rho : env) (q : clamp_match) : res val :=
  do v <- eval m p rho (m_value q);
  if ty_eqb (val_ty v) (m_ty q) then
    do g1 <- eval m p (upd rho (m_b1 q) v) (m_g1 q);
    match g1 with
    | VB true => eval m p (upd rho (m_b1 q) v) (m_e1 q)
    | VB false =>
        do g2 <- eval m p (upd rho (m_b2 q) v) (m_g2 q);
        match g2 with
        | VB true => eval m p (upd rho (m_b2 q) v) (m_e2 q)
        | VB false => eval m p (upd rho (m_b3 q) v) (EVar (m_ty q) (m_b3 q))
        | _ => Stuck
        end
    | _ => Stuck
    end
  else Stuck.
Definition clamp_match_sugg (p : ptrw) (q : clamp_match) : option expr :=
  match new_bin (m_g1 q), new_bin (m_g2 q) with
  | Some b1, Some b2 =>
      match clamp_meta (Some (m_b1 q, m_b2 q)) b1 b2 (m_e1 q) (m_e2 q) with
      | Some r =>
          let r := {| i_input := m_value q; i_min := i_min r; i_max := i_max r |} in
          if min_less_than_max p r then Some (clamp_sugg r) else None
      | None => None
      end
  | _, _ => None
  end.

(** manual_clamp.rs:501-552 [is_two_if_pattern], one pair of adjacent statements. *)
Definition clamp_two_if (p : ptrw) (s : stmt) : option stmt :=
  match s with
  | SSeq (SIf c1 (SAssign t1 x1 e1) SSkip) (SIf c2 (SAssign t2 x2 e2) SSkip) =>
      match new_bin c1, new_bin c2 with
      | Some b1, Some b2 =>
          if expr_eqb (EVar t1 x1) (EVar t2 x2) then
            match clamp_meta None b1 b2 e1 e2 with
            | Some r =>
                let r := {| i_input := EVar t1 x1; i_min := i_min r; i_max := i_max r |} in
                if min_less_than_max p r then Some (SAssign t1 x1 (clamp_sugg r)) else None
            | None => None
            end
          else None
      | _, _ => None
      end
  | _ => None
  end.
(** manual_clamp.rs:565-602 [is_if_elseif_pattern]. *)
Definition clamp_else_if (p : ptrw) (s : stmt) : option stmt :=
  match s with
  | SIf c1 (SAssign t1 x1 e1) (SIf c2 (SAssign t2 x2 e2) SSkip) =>
      match new_bin c1, new_bin c2 with
      | Some b1, Some b2 =>
          match clamp_meta None b1 b2 e1 e2 with
          | Some r =>
              if expr_eqb (EVar t1 x1) (EVar t2 x2) then
                if min_less_than_max p r then Some (SAssign t1 x1 (clamp_sugg r)) else None
              else None
          | None => None
          end
      | _, _ => None
      end
  | _ => None
  end.
