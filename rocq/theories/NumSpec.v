(** Numeric literals of the language: the reference's grammar, and the number denoted. *)
From Verif Require Export NumModel.

(** A literal in its parts.  The digits include underscores. *)
Record lit := {
  base : radix;
  ipart : text;
  fpart : option text;                          (* after the point *)
  epart : option (ascii * option ascii * text); (* e or E, sign, digits *)
  tsuf : option text
}.
Definition prefix_of (r : radix) : text :=
  match r with Binary => tx "0b" | Octal => tx "0o" | Decimal => [] | Hexadecimal => tx "0x" end.
Definition show_frac (f : option text) : text := match f with Some f => dot :: f | None => [] end.
Definition show_exp (e : option (ascii * option ascii * text)) : text :=
  match e with
  | Some (c, sg, x) => c :: (match sg with Some s => [s] | None => [] end) ++ x
  | None => []
  end.
Definition show (l : lit) : text :=
  prefix_of (base l) ++ ipart l ++ show_frac (fpart l) ++ show_exp (epart l) ++ match tsuf l with Some s => s | None => [] end.

Definition is_dig (r : radix) (c : ascii) : bool :=
  match r with
  | Binary => code_in 48 49 c
  | Octal => code_in 48 55 c
  | Decimal => is_digit c
  | Hexadecimal => is_digit c || code_in 97 102 c || code_in 65 70 c
  end.
Definition dig_us (r : radix) (c : ascii) : bool := is_dig r c || Ascii.eqb c us.
Definition int_types : list text :=
  map tx ["i8"; "i16"; "i32"; "i64"; "i128"; "isize"; "u8"; "u16"; "u32"; "u64"; "u128"; "usize"]%string.
Definition float_types : list text := map tx ["f16"; "f32"; "f64"; "f128"]%string.
Definition digits_ok (r : radix) (t : text) : Prop := Forall (fun c => dig_us r c = true) t.
Definition has_digit (r : radix) (t : text) : Prop := Exists (fun c => is_dig r c = true) t.
Definition starts_with_digit (t : text) : Prop := match t with c :: _ => is_digit c = true | [] => False end.
Record wf (l : lit) : Prop := {
  wf_i : digits_ok (base l) (ipart l) /\ has_digit (base l) (ipart l);
  wf_i_dec : base l = Decimal -> starts_with_digit (ipart l);
  wf_dec : base l <> Decimal -> fpart l = None /\ epart l = None;
  wf_f : forall f, fpart l = Some f -> digits_ok Decimal f /\ (starts_with_digit f \/ f = [] /\ epart l = None /\ tsuf l = None);
  wf_e : forall c sg x, epart l = Some (c, sg, x) ->
           (c = "e"%char \/ c = "E"%char) /\ (sg = None \/ sg = Some "+"%char \/ sg = Some dash) /\ digits_ok Decimal x /\ has_digit Decimal x;
  wf_s : forall s, tsuf l = Some s ->
           In s float_types /\ base l = Decimal \/ In s int_types /\ fpart l = None /\ epart l = None
}.
(** Float or integer literal. *)
Definition is_float (l : lit) : bool :=
  match fpart l, epart l with
  | None, None => match tsuf l with Some s => if in_dec text_eq_dec s float_types then true else false | None => false end
  | _, _ => true
  end.
Definition kind_of (l : lit) : lit_kind := {| kfloat := is_float l; ksuffix := tsuf l |}.

(** The number: mantissa times a power of ten. *)
Definition dval (c : ascii) : Z := match digit_value c with Some d => d | None => 0%Z end.
Definition horner (b : Z) (t : text) : Z := fold_left (fun acc c => (acc * b + dval c)%Z) t 0%Z.
Definition digits_of (t : text) : text := filter (fun c => negb (Ascii.eqb c us)) t.
Definition exponent_of (l : lit) : Z :=
  match epart l with
  | Some (_, sg, x) => ((match sg with Some s => if Ascii.eqb s dash then -1 else 1 | None => 1 end) * horner 10 (digits_of x))%Z
  | None => 0%Z
  end.
Definition frac_digits (l : lit) : text := match fpart l with Some f => digits_of f | None => [] end.
Definition number (l : lit) : Z * Z :=
  (horner (base_of (base l)) (digits_of (ipart l) ++ frac_digits l), (exponent_of l - Z.of_nat (List.length (frac_digits l)))%Z).
Definition same_number (a b : Z * Z) : Prop :=
  (fst a * 10 ^ (snd a - Z.min (snd a) (snd b)) = fst b * 10 ^ (snd b - Z.min (snd a) (snd b)))%Z.
(** Same number, same type. *)
Definition same_literal (l l' : lit) : Prop :=
  same_number (number l) (number l') /\ base l = base l' /\ tsuf l = tsuf l' /\ is_float l = is_float l'.

(** Groups separated by underscores. *)
Definition group_sizes (t : text) : list nat := map (@List.length ascii) (split_at us t).
Definition right_aligned (g : nat) (t : text) : Prop :=
  exists first others, group_sizes t = first :: others /\ 1 <= first <= g /\ Forall (fun n => n = g) others.
Definition left_aligned (g : nat) (t : text) : Prop :=
  exists others last, group_sizes t = others ++ [last] /\ 1 <= last <= g /\ Forall (fun n => n = g) others.

(** The compiler's reading of a literal, as in rustc_lexer: digits as far as they go. *)
Definition lex_exp (t : text) : option (ascii * option ascii * text) * text :=
  match t with
  | c :: r =>
      if Ascii.eqb c "e"%char || Ascii.eqb c "E"%char then
        let '(sg, r) := match r with s :: r' => if Ascii.eqb s "+"%char || Ascii.eqb s dash then (Some s, r') else (None, r) | [] => (None, r) end in
        (Some (c, sg, take_while (dig_us Decimal) r), drop_while (dig_us Decimal) r)
      else (None, t)
  | [] => (None, t)
  end.
Definition lex_suffix (t : text) : option text := match t with [] => None | _ => Some t end.
Definition lex (t : text) : lit :=
  let nondecimal r t := {| base := r; ipart := take_while (dig_us r) t; fpart := None; epart := None; tsuf := lex_suffix (drop_while (dig_us r) t) |} in
  match strip_pre (tx "0x") t, strip_pre (tx "0b") t, strip_pre (tx "0o") t with
  | Some t, _, _ => nondecimal Hexadecimal t
  | None, Some t, _ => nondecimal Binary t
  | None, None, Some t => nondecimal Octal t
  | None, None, None =>
      let i := take_while (dig_us Decimal) t in
      let t := drop_while (dig_us Decimal) t in
      let '(f, t) := match t with
                     | c :: r => if Ascii.eqb c dot then (Some (take_while (dig_us Decimal) r), drop_while (dig_us Decimal) r) else (None, t)
                     | [] => (None, t)
                     end in
      let '(e, t) := lex_exp t in
      {| base := Decimal; ipart := i; fpart := f; epart := e; tsuf := lex_suffix t |}
  end.
