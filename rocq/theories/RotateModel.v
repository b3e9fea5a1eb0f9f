(** Model of the `manual_rotate` lint, /repo/clippy_lints/src/manual_rotate.rs. *)
From Verif Require Export ConstModel.
Open Scope Z_scope.

(** manual_rotate.rs:45-48 [ShiftDirection]. *)
Inductive dir := DLeft | DRight.
Definition dir_eqb (a b : dir) : bool :=
  match a, b with DLeft, DLeft | DRight, DRight => true | _, _ => false end.
(** manual_rotate.rs:50-57: the method named for a direction. *)
Definition dir_meth (d : dir) : meth1 := match d with DLeft => MRotl | DRight => MRotr end.

(** manual_rotate.rs:59-69 [parse_shift]. *)
Definition parse_shift (e : expr) : option (dir * expr * expr) :=
  match e with
  | EBin (BI OShl) l r => Some (DLeft, l, r)
  | EBin (BI OShr) l r => Some (DRight, l, r)
  | _ => None
  end.

(** rustc's [IntTy::bit_width]/[UintTy::bit_width]: [None] for pointer-sized types. *)
Definition fixed_bits (t : ity) : option Z :=
  match ity_size t with
  | W8 => Some 8 | W16 => Some 16 | W32 => Some 32 | W64 => Some 64 | W128 => Some 128 | WSize => None
  end.

(** manual_rotate.rs:99-103. *)
Definition pick_binary (ld rd : dir) (la ra : expr) : option (expr * binop * expr * expr * dir) :=
  match la, ra with
  | _, EBin o mi other => Some (la, o, mi, other, ld)
  | EBin o mi other, _ => Some (ra, o, mi, other, rd)
  | _, _ => None
  end.

(** manual_rotate.rs:88-117: the direction and amount of the suggestion.  The sum in line 91
    is host [u128] arithmetic with overflow checks off. *)
Definition pick (h p : ptrw) (w : Z) (ld rd : dir) (la ra : expr) : option (dir * expr) :=
  let other :=
    match pick_binary ld rd la ra with
    | Some (amount1, o, minuend, amount2, d) =>
        match eval_local h p minuend with
        | Some (CInt mv) =>
            if expr_eqb amount1 amount2 &&
               match o with
               | BI OSub => w =? mv
               | BI OXor => (mv <=? w) && (w - mv =? 1)
               | _ => false
               end
            then Some (d, amount1) else None
        | _ => None
        end
    | None => None
    end in
  match eval_local h p la with
  | Some (CInt lv) =>
      match eval_local h p ra with
      | Some (CInt rv) =>
          if u128w (lv + rv) =? w then (if lv <? rv then Some (ld, la) else Some (rd, ra)) else other
      | _ => other
      end
  | _ => other
  end.

(** The amount is copied as text into an argument position of type [u32]; an (unsuffixed)
    literal there is inferred to be a [u32]. *)
Definition as_u32_arg (e : expr) : expr := match e with ELit _ n => ELit u32 n | e => e end.

(** manual_rotate.rs:72-138 [check_expr].  [eq_expr_value] is syntactic equality (pure
    expressions).  Line 91 adds host [u128]s. *)
Definition manual_rotate (h p : ptrw) (e : expr) : option expr :=
  match e with
  | EBin (BI (OAdd | OOr)) l r =>
      match parse_shift l, parse_shift r with
      | Some (ld, lx, la), Some (rd, rx, ra) =>
          if negb (dir_eqb ld rd) && expr_eqb lx rx then
            match ty_of e with
            | Some (TI t) =>
                match fixed_bits t with
                | Some w => option_map (fun '(d, a) => EM1 (dir_meth d) lx (as_u32_arg a)) (pick h p w ld rd la ra)
                | None => None
                end
            | _ => None
            end
          else None
      | _, _ => None
      end
  | _ => None
  end.
