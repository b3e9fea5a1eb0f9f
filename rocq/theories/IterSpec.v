(** Iterators: a source, adaptors with closures, and the methods that consume them.  Closures are those of CloSpec, so they
    may have effects, panic, or read and assign variables; a chain is evaluated lazily, one item at a time, from either
    end.  This is the meaning of programs against which the lints about iterators are judged; nothing in this file models
    clippy. *)
From Verif Require Export CloSpec.

(** ** Chains of adaptors.  The source is `e.into_iter()`, or `e.iter()` if [by_ref]. *)
Inductive chain :=
| ISrc (by_ref : bool) (e : expr)
| IMap (f : arg) (c : chain)
| IFilter (f : arg) (c : chain)
| IFilterMap (f : arg) (c : chain)
| IInspect (f : arg) (c : chain)
| IFlatMap (f : arg) (c : chain)
| IFlatten (c : chain)
| IRev (c : chain)
| ICloned (c : chain)
| ISkip (n : expr) (c : chain)
| ITake (n : expr) (c : chain)
| IEnumerate (c : chain).

(** A source holds its items, or is an unknown iterator: function [n] is called for each item, with `true` for the end. *)
Inductive source := SList (vs : list val) | SExt (n : nat).
(** What an iterator remembers between items. *)
Fixpoint D (c : chain) : Type :=
  match c with
  | ISrc _ _ => source
  | IMap _ c | IFilter _ c | IFilterMap _ c | IInspect _ c | IRev c | ICloned c => D c
  | IFlatMap _ c | IFlatten c => (list val * D c * list val)%type
  | ISkip _ c | ITake _ c | IEnumerate c => (nat * D c)%type
  end.

(** One item, no more items, or something other than a value. *)
Inductive pres := PVal (v : val) | PEnd | POut (o : out).

Definition pop (back : bool) (vs : list val) : option (val * list val) :=
  if back then match rev vs with [] => None | v :: r => Some (v, rev r) end
  else match vs with [] => None | v :: r => Some (v, r) end.

(** The items of a value: those of an array; Option and Result have one item or none.  References are iterated by
    reference. *)
Fixpoint items (v : val) : option (list val) :=
  match v with
  | VData KArr vs => Some vs
  | VData (KCtor c) [] => if Nat.eqb c c_none then Some [] else None
  | VData (KCtor c) [x] =>
      if Nat.eqb c c_some || Nat.eqb c c_ok then Some [x] else if Nat.eqb c c_err then Some [] else None
  | VRef v => option_map (map VRef) (items v)
  | _ => None
  end.

(** `into_iter()`: an integer stands for an unknown iterator. *)
Definition iterate (by_ref : bool) (v : val) : option source :=
  match v with
  | VInt z => Some (SExt (Z.to_nat z))
  | _ => option_map SList (items (if by_ref then VRef v else v))
  end.
Definition usize (v : val) : option nat := match v with VInt z => if Z.leb 0 z then Some (Z.to_nat z) else None | _ => None end.

(** The functions behind `+` and `*`. *)
Definition f_add : nat := 1.
Definition f_mul : nat := 2.

Section Iter.
  Variable w : world.
  Variable fuel : nat.
  Let st := state w.

  (** Continue with the value of a closure. *)
  Definition given_val {A} (r : out * st) (d : A) (k : val -> st -> pres * A * st) : pres * A * st :=
    match r with (OVal v, s) => k v s | (o, s) => (POut o, d, s) end.
  (** Continue with an item. *)
  Definition with_item {A B} (up : A -> B) (r : pres * A * st) (k : val -> A -> st -> pres * B * st) : pres * B * st :=
    match r with (PVal v, d, s) => k v d s | (p, d, s) => (p, up d, s) end.

  Definition pull_src (back : bool) (d : source) (s : st) : pres * source * st :=
    match d with
    | SList vs => match pop back vs with Some (v, r) => (PVal v, SList r, s) | None => (PEnd, SList [], s) end
    | SExt n =>
        given_val (calls w n [VBool back] s) d
          (fun v s => match view_of TOption v with
                      | Some (Good x) => (PVal x, d, s)
                      | Some (Bad _) => (PEnd, d, s)
                      | None => (POut OStuck, d, s)
                      end)
    end.

  (** Ask the iterator below again and again until [k] gives an answer. *)
  Definition until {A} (next : A -> st -> pres * A * st) (k : val -> A -> st -> option (pres * A * st) * st)
    : nat -> A -> st -> pres * A * st :=
    fix go (n : nat) (d : A) (s : st) :=
      match n with
      | O => (POut ODiverge, d, s)
      | S n => with_item (fun d => d) (next d s)
                 (fun v d s => match k v d s with (Some r, _) => r | (None, s) => go n d s end)
      end.

  Definition keep (f : arg) {A} (v : val) (d : A) (s : st) : option (pres * A * st) * st :=
    match apply w fuel f [VRef v] s with
    | (OVal (VBool true), s) => (Some (PVal v, d, s), s)
    | (OVal (VBool false), s) => (None, s)
    | (OVal _, s) => (Some (POut OStuck, d, s), s)
    | (o, s) => (Some (POut o, d, s), s)
    end.
  Definition keep_map (f : arg) {A} (v : val) (d : A) (s : st) : option (pres * A * st) * st :=
    match apply w fuel f [v] s with
    | (OVal u, s) =>
        match view_of TOption u with
        | Some (Good x) => (Some (PVal x, d, s), s)
        | Some (Bad _) => (None, s)
        | None => (Some (POut OStuck, d, s), s)
        end
    | (o, s) => (Some (POut o, d, s), s)
    end.

  (** `flatten` and `flat_map` keep the rest of the items opened at the front and of those opened at the back.  (That they
      do not ask again after the end is left out: no consumer asks again after the end.) *)
  Definition opened {A} (next : A -> st -> pres * A * st) (open : val -> st -> out * st) (back : bool)
    : nat -> list val * A * list val -> st -> pres * (list val * A * list val) * st :=
    fix go (n : nat) (x : list val * A * list val) (s : st) :=
      let '(fr, d, bk) := x in
      match pop back (if back then bk else fr) with
      | Some (v, r) => (PVal v, if back then (fr, d, r) else (r, d, bk), s)
      | None =>
          match n with
          | O => (POut ODiverge, x, s)
          | S n =>
              match next d s with
              | (PVal v, d, s) =>
                  match open v s with
                  | (OVal u, s) =>
                      match items u with
                      | Some vs => go n (if back then (fr, d, vs) else (vs, d, bk)) s
                      | None => (POut OStuck, (fr, d, bk), s)
                      end
                  | (o, s) => (POut o, (fr, d, bk), s)
                  end
              | (PEnd, d, s) =>
                  match pop back (if back then fr else bk) with
                  | Some (v, r) => (PVal v, if back then (r, d, bk) else (fr, d, r), s)
                  | None => (PEnd, (fr, d, bk), s)
                  end
              | (POut o, d, s) => (POut o, (fr, d, bk), s)
              end
          end
      end.

  (** Drop [k] items, then give the next one. *)
  Definition advance {A} (next : A -> st -> pres * A * st) : nat -> A -> st -> pres * A * st :=
    fix go (k : nat) (d : A) (s : st) :=
      match k with O => next d s | S k => with_item (fun d => d) (next d s) (fun _ d s => go k d s) end.

  (** [skip], [take] and [enumerate] can be asked from the front only: from the back they need to know the length. *)
  Fixpoint pull (back : bool) (c : chain) {struct c} : D c -> st -> pres * D c * st :=
    match c return D c -> st -> pres * D c * st with
    | ISrc _ _ => pull_src back
    | IMap f c => fun d s => with_item (fun d => d) (pull back c d s) (fun v d s => given_val (apply w fuel f [v] s) d (fun u s => (PVal u, d, s)))
    | IInspect f c =>
        fun d s => with_item (fun d => d) (pull back c d s) (fun v d s => given_val (apply w fuel f [VRef v] s) d (fun _ s => (PVal v, d, s)))
    | IFilter f c => until (pull back c) (keep f) fuel
    | IFilterMap f c => until (pull back c) (keep_map f) fuel
    | IFlatMap f c => opened (pull back c) (fun v s => apply w fuel f [v] s) back fuel
    | IFlatten c => opened (pull back c) (fun v s => (OVal v, s)) back fuel
    | IRev c => pull (negb back) c
    | ICloned c =>
        fun d s => with_item (fun d => d) (pull back c d s) (fun v d s => match v with VRef u => (PVal u, d, s) | _ => (POut OStuck, d, s) end)
    | ISkip _ c =>
        fun d s =>
          if back then (POut OStuck, d, s)
          else let '(p, d', s) := advance (pull false c) (fst d) (snd d) s in (p, (O, d'), s)
    | ITake _ c =>
        fun d s =>
          if back then (POut OStuck, d, s)
          else match fst d with
               | O => (PEnd, d, s)
               | S k => let '(p, d', s) := pull false c (snd d) s in (p, (k, d'), s)
               end
    | IEnumerate c =>
        fun d s =>
          if back then (POut OStuck, d, s)
          else with_item (fun d' => (fst d, d')) (pull false c (snd d) s)
                 (fun v d' s => (PVal (VData KTup [VInt (Z.of_nat (fst d)); v]), (S (fst d), d'), s))
    end.

  (** Creating the chain evaluates the source, then the arguments that are not closures, in order. *)
  Definition bind_d {A B} (r : (A + out) * st) (k : A -> st -> (B + out) * st) : (B + out) * st :=
    match r with (inl a, s) => k a s | (inr o, s) => (inr o, s) end.
  Definition number (n : expr) (s : st) : (nat + out) * st :=
    match eval w fuel n s with
    | (OVal v, s) => (match usize v with Some k => inl k | None => inr OStuck end, s)
    | (o, s) => (inr o, s)
    end.
  Fixpoint start (c : chain) (s : st) : (D c + out) * st :=
    match c return (D c + out) * st with
    | ISrc r e =>
        match eval w fuel e s with
        | (OVal v, s) => (match iterate r v with Some d => inl d | None => inr OStuck end, s)
        | (o, s) => (inr o, s)
        end
    | IMap _ c | IFilter _ c | IFilterMap _ c | IInspect _ c | IRev c | ICloned c => start c s
    | IFlatMap _ c | IFlatten c => bind_d (start c s) (fun d s => (inl ([], d, []), s))
    | ISkip n c | ITake n c => bind_d (start c s) (fun d s => bind_d (number n s) (fun k s => (inl (k, d), s)))
    | IEnumerate c => bind_d (start c s) (fun d s => (inl (O, d), s))
    end.

  (** ** Consumers: a state, what each item does to it (go on, or stop with an outcome), and the result at the end. *)
  Definition drive {A} (next : A -> st -> pres * A * st) (step : val -> val -> st -> (val + out) * st) (fin : val -> out)
    : nat -> A -> val -> st -> out * st :=
    fix go (n : nat) (d : A) (a : val) (s : st) :=
      match n with
      | O => (ODiverge, s)
      | S n =>
          match next d s with
          | (PVal v, d, s) => match step a v s with (inl a, s) => go n d a s | (inr o, s) => (o, s) end
          | (PEnd, d, s) => (fin a, s)
          | (POut o, d, s) => (o, s)
          end
      end.

  (** Decide on the answer of a closure. *)
  Definition asked (r : out * st) (k : val -> st -> (val + out) * st) : (val + out) * st :=
    match r with (OVal v, s) => k v s | (o, s) => (inr o, s) end.
  Definition test (r : out * st) (k : bool -> val + out) : (val + out) * st :=
    asked r (fun v s => (match v with VBool b => k b | _ => inr OStuck end, s)).
  Definition num (f : Z -> Z) (v : val) : val := match v with VInt z => VInt (f z) | _ => v end.

  Inductive consumer :=
  | CNext | CNextBack | CNth (n : expr)
  | CFind (f : arg) | CRFind (f : arg) | CFindMap (f : arg) | CPosition (f : arg)
  | CAny (f : arg) | CAll (f : arg)
  | CCount | CLast | CForEach (f : arg) | CFold (e : expr) (f : arg) | CSum | CProduct | CCollect.

  Definition from_back (k : consumer) : bool := match k with CNextBack | CRFind _ => true | _ => false end.
  Definition step (k : consumer) (a v : val) (s : st) : (val + out) * st :=
    match k with
    | CNext | CNextBack | CNth _ => (inr (OVal (some_v v)), s)
    | CFind f | CRFind f => test (apply w fuel f [VRef v] s) (fun b => if b then inr (OVal (some_v v)) else inl a)
    | CFindMap f =>
        asked (apply w fuel f [v] s)
          (fun u s => (match view_of TOption u with Some (Good _) => inr (OVal u) | Some (Bad _) => inl a | None => inr OStuck end, s))
    | CPosition f => test (apply w fuel f [v] s) (fun b => if b then inr (OVal (some_v a)) else inl (num Z.succ a))
    | CAny f => test (apply w fuel f [v] s) (fun b => if b then inr (OVal (VBool true)) else inl a)
    | CAll f => test (apply w fuel f [v] s) (fun b => if b then inl a else inr (OVal (VBool false)))
    | CCount => (inl (num Z.succ a), s)
    | CLast => (inl (some_v v), s)
    | CForEach f => asked (apply w fuel f [v] s) (fun _ s => (inl a, s))
    | CFold _ f => asked (apply w fuel f [a; v] s) (fun u s => (inl u, s))
    | CSum => asked (calls w f_add [a; v] s) (fun u s => (inl u, s))
    | CProduct => asked (calls w f_mul [a; v] s) (fun u s => (inl u, s))
    | CCollect => (inl (match a with VData k vs => VData k (vs ++ [v]) | _ => a end), s)
    end.
  Definition fin (k : consumer) (a : val) : out :=
    match k with
    | CNext | CNextBack | CNth _ | CFind _ | CRFind _ | CFindMap _ | CPosition _ => OVal none_v
    | CAny _ => OVal (VBool false)
    | CAll _ => OVal (VBool true)
    | CForEach _ => OVal unit_v
    | CCount | CLast | CFold _ _ | CSum | CProduct | CCollect => OVal a
    end.
  (** The first state, from the arguments that are not closures. *)
  Definition init (k : consumer) (s : st) : out * st :=
    match k with
    | CNth e | CFold e _ => eval w fuel e s
    | CLast => (OVal none_v, s)
    | CProduct => (OVal (VInt 1), s)
    | CCollect => (OVal (VData KArr []), s)
    | _ => (OVal (VInt 0), s)
    end.
  (** What `next` returns. *)
  Definition first {A} (r : pres * A * st) : out * st :=
    match r with
    | (PVal v, _, s) => (OVal (some_v v), s)
    | (PEnd, _, s) => (OVal none_v, s)
    | (POut o, _, s) => (o, s)
    end.
  Definition consume (k : consumer) {A} (next : bool -> A -> st -> pres * A * st) (d : A) (a : val) (s : st) : out * st :=
    match k with
    | CNext => first (next false d s)
    | CNextBack => first (next true d s)
    | CNth _ => match usize a with None => (OStuck, s) | Some n => first (advance (next false) n d s) end
    | _ => drive (next (from_back k)) (step k) (fin k) fuel d a s
    end.

  (** ** Expressions with an iterator: consume a chain, call a method without other arguments than closures on the Option
      obtained, clone what is in it, ask something of the vector collected, negate. *)
  Inductive vecq := QLen | QIsEmpty | QContains (a : expr) | QIndex (i : expr).
  Inductive iexpr :=
  | IRun (c : chain) (k : consumer)
  | IMeth (m : meth) (e : iexpr) (fs : list arg)
  | ICloneOpt (e : iexpr)
  | IVec (q : vecq) (e : iexpr)
  | INot (e : iexpr)
  | IPlain (e : expr).
  Definition clone_opt (v : val) : option val :=
    match view_of TOption v with
    | Some (Good (VRef u)) => Some (some_v u)
    | Some (Bad _) => Some v
    | _ => None
    end.
  Definition query (q : vecq) (vs : list val) (s : st) : out * st :=
    match q with
    | QLen => (OVal (VInt (Z.of_nat (length vs))), s)
    | QIsEmpty => (OVal (VBool (match vs with [] => true | _ => false end)), s)
    | QContains a => andthen w (eval w fuel a s) (fun u s => (OVal (VBool (existsb (fun v => value_eq w v u) vs)), s))
    | QIndex i =>
        andthen w (eval w fuel i s)
          (fun u s => match usize u with
                      | Some n => (match nth_error vs n with Some v => OVal v | None => OPanic end, s)
                      | None => (OStuck, s)
                      end)
    end.
  Fixpoint ieval (e : iexpr) (s : st) : out * st :=
    match e with
    | IRun c k =>
        match start c s with
        | (inl d, s) => andthen w (init k s) (fun a s => consume k (fun b => pull b c) d a s)
        | (inr o, s) => (o, s)
        end
    | IMeth m e fs => andthen w (ieval e s) (fun v s => method w TOption m v [] (map (apply w fuel) fs) s)
    | ICloneOpt e => andthen w (ieval e s) (fun v s => match clone_opt v with Some u => (OVal u, s) | None => (OStuck, s) end)
    | IVec q e => andthen w (ieval e s) (fun v s => match v with VData KArr vs => query q vs s | _ => (OStuck, s) end)
    | INot e => andthen w (ieval e s) (fun v s => match v with VBool b => (OVal (VBool (negb b)), s) | _ => (OStuck, s) end)
    | IPlain e => eval w fuel e s
    end.

  (** ** `for p in c { body }`: the body may leave the loop. *)
  Definition loop {A} (next : A -> st -> pres * A * st) (p : pat) (body : expr) : nat -> A -> st -> out * st :=
    fix go (n : nat) (d : A) (s : st) :=
      match n with
      | O => (ODiverge, s)
      | S n =>
          match next d s with
          | (PVal v, d, s) =>
              match match_pat p v with
              | None => (OStuck, s)
              | Some bs =>
                  let '(o, s') := eval w fuel body (enter bs s) in
                  let s' := leave (length (fst s)) s' in
                  match o with
                  | OVal _ => go n d s'
                  | OBrk None _ => (OVal unit_v, s')
                  | o => (o, s')
                  end
              end
          | (PEnd, _, s) => (OVal unit_v, s)
          | (POut o, _, s) => (o, s)
          end
      end.
  Definition for_loop (p : pat) (c : chain) (body : expr) (s : st) : out * st :=
    match start c s with
    | (inl d, s) => loop (pull false c) p body fuel d s
    | (inr o, s) => (o, s)
    end.
End Iter.
