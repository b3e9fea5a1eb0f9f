(** C35: suggestions built from parts read back as the tree that was meant. *)
From Coq Require Import ZArith Lia.
From Verif Require Import SuggModel SuggSpec SuggProofs.

(** The parser has one answer for a text. *)
Theorem sugg_parse_unique t e e' : parses t e -> parses t e' -> e = e'.
Proof. exact (parses_unique t e e'). Qed.
Print Assumptions sugg_parse_unique.
(** Whatever is assembled from binary operators, casts, `&`, `&mut`, `*` and added parentheses, in any depth, is printed so that it parses as
    the tree that was meant.  Missing: the combinations excluded by [sound_sides], each of which is refuted below, and tokens the model leaves out. *)
Theorem sugg_reparse_partial t : sound_term t -> exists e, meant t = Some e /\ parses (disp (build t)) e.
Proof. intros H. destruct (term_stands t H) as (e & M & S). exists e. split; auto. now apply stands_parses. Qed.
Print Assumptions sugg_reparse_partial.
(** With the operators that are taken to be associative and are alone at their precedence (`&&`, `||`, `&`, `|`, `^`) nested on the right too:
    the tree may be another one, but has the same meaning under every reading that makes those operators associative. *)
Theorem sugg_reparse_value V (I : reading V) t : (forall b, alone b = true -> associative (r_bin V I b)) -> sound_term_assoc t ->
  exists e e', parses (disp (build t)) e /\ meant t = Some e' /\ value I e = value I e'.
Proof. intros A H. destruct (term_reassoc I t A H) as (e & e' & S & M & E). exists e, e'. split; [now apply stands_parses|auto]. Qed.
Print Assumptions sugg_reparse_value.
(** Suggestions made from source text: for every source expression, however parenthesised, they stand for its tree, so can be the leaves above. *)
Theorem sugg_from_source st c : valid c ->
  stands_for (hir_from_snippet c) (erase c) /\ stands_for (hir_with_context st c) (erase c)
  /\ parses (snippet c) (erase c) /\ parses (disp (hir_from_snippet c)) (erase c) /\ parses (disp (hir_with_context st c)) (erase c).
Proof.
  intros V. assert (A : stands_for (hir_from_snippet c) (erase c)) by now apply hir_stands.
  assert (B : stands_for (hir_with_context st c) (erase c)) by (apply hir_ctx_stands; auto).
  repeat split; auto; try (now apply stands_parses). eapply gram_parses. now apply valid_gram.
Qed.
Print Assumptions sugg_from_source.
(** After [maybe_paren] a method call can be appended; [strip_paren] keeps the tree. *)
Theorem sugg_receiver s e n : stands_for s e -> parses (disp (maybe_paren s) ++ [TPost n]) (Post e n) /\ parses (disp (strip_paren s)) e.
Proof.
  intros S. split; [|destruct (strip_paren_gram s e S) as (p & G); eapply gram_parses; eauto].
  eapply gram_parses. apply g_post. now apply maybe_paren_operand.
Qed.
Print Assumptions sugg_receiver.
(** Parentheses are found exactly when the whole text is one parenthesised expression. *)
Theorem sugg_enclosing p t e : gram p t e -> (has_enclosing_paren t = true <-> exists q inner, t = parens inner /\ gram q inner e).
Proof. exact (enclosing_iff p t e). Qed.
Print Assumptions sugg_enclosing.
(** Negation has the meaning of negation, where negating twice is the identity. *)
Theorem sugg_neg_value V (I : reading V) s e : (forall v, r_un V I Neg (r_un V I Neg v) = v) -> stands_for s e ->
  exists e', parses (disp (neg s)) e' /\ value I e' = r_un V I Neg (value I e).
Proof.
  intros N S. destruct (neg_stands s e S) as (e' & S' & [-> | ->]); exists e' || eexists; (split; [apply stands_parses; eassumption|]); cbn; auto.
Qed.
Print Assumptions sugg_neg_value.
(** So has [Not], where besides comparisons are negated by the opposite comparison (not so for floats) and no type precedes the new `<`. *)
Theorem sugg_not_value V (I : reading V) s e : (forall v, r_un V I Not (r_un V I Not v) = v) ->
  (forall b b' x y, opposite b b' -> r_bin V I b' x y = r_un V I Not (r_bin V I b x y)) ->
  stands_for s e -> (forall l r, s = BinOp (OBin Ge) l r -> ~ ends_with_type l) ->
  exists e', parses (disp (not_ s)) e' /\ value I e' = r_un V I Not (value I e).
Proof.
  intros N F S T. destruct (not_stands s e S T) as (e' & S' & [-> | [-> | (b & b' & l & r & Fb & -> & ->)]]).
  - eexists. split; [apply stands_parses; eassumption|reflexivity].
  - eexists. split; [apply stands_parses; eassumption|]. cbn. auto.
  - eexists. split; [apply stands_parses; eassumption|]. cbn. now apply F.
Qed.
Print Assumptions sugg_not_value.
(** The precedences are those of the language reference. *)
Theorem sugg_precedence_reference a b : bop_prec b < bop_prec a <-> stronger a b.
Proof.
  split.
  - intros H. unfold stronger.
    assert (R : forall c, exists i r, nth_error reference_table i = Some r /\ In c r /\ bop_prec c + i = 11).
    { intros c. exists (11 - bop_prec c). destruct c; cbn; eexists; (split; [reflexivity|]); cbn; intuition auto. }
    destruct (R a) as (i & ra & A & IA & EA), (R b) as (j & rb & B & IB & EB). exists i, j, ra, rb. repeat split; auto; lia.
  - intros (i & j & ra & rb & A & B & IA & IB & L).
    assert (R : forall k r c, nth_error reference_table k = Some r -> In c r -> bop_prec c + k = 11).
    { intros k r c E I. do 9 (destruct k as [|k]; [cbn in E; injection E as <-; cbn in I; intuition (subst; reflexivity)|]). destruct k; discriminate. }
    pose proof (R _ _ _ A IA). pose proof (R _ _ _ B IB). lia.
Qed.
Print Assumptions sugg_precedence_reference.

(** ** What is excluded *)
Lemma unparseable t f : parse f (MAt 0) t = Error -> forall e, ~ parses t e.
Proof.
  intros H e (g & G). assert (E : Error = Done e []); [|discriminate].
  apply (runs_unique (MAt 0) t); [exists f|exists g]; split; auto; discriminate.
Qed.
Definition a := CAtom 0. Definition b := CAtom 1. Definition c := CAtom 2.
Definition bin (o : bop) (x y : cst) := CBin (OBin o) x y.
Lemma plain_end x n : ~ ends_with_type (x ++ [TAtom n]).
Proof. intros (t & m & E). apply app_inj_tail in E as [_ E]. discriminate. Qed.
(** A comparison of a comparison loses its parentheses: `(a < b) == c` is built as `a < b == c`, which is not Rust. *)
Theorem sugg_comparison_chain_refuted : exists l r, valid l /\ valid r /\
  forall e, ~ parses (disp (make_binop Eq (hir_from_snippet l) (hir_from_snippet r))) e.
Proof.
  exists (CParen (bin Lt a b)), c. repeat split; try discriminate; cbn; try lia.
  - intros _. apply (plain_end [] 0).
  - apply (unparseable _ 50). reflexivity.
Qed.
Print Assumptions sugg_comparison_chain_refuted.
(** A cast before `<` is not parenthesised: `a as T < b` is not Rust; so too when `<` comes from negating `>=`. *)
Theorem sugg_cast_less_refuted : exists l r, valid l /\ valid r /\ valid (bin Ge l r) /\
  (forall e, ~ parses (disp (make_binop Lt (hir_from_snippet l) (hir_from_snippet r))) e)
  /\ (forall e, ~ parses (disp (make_binop Shl (hir_from_snippet l) (hir_from_snippet r))) e)
  /\ (forall e, ~ parses (disp (not_ (hir_from_snippet (bin Ge l r)))) e).
Proof.
  exists (CCast a 7), b. repeat split; try discriminate; cbn; try lia; try (apply (unparseable _ 50); reflexivity).
  intros [E|E]; discriminate.
Qed.
Print Assumptions sugg_cast_less_refuted.
(** int_plus_one.rs:146-150 adds the parentheses when the left side is itself a cast, which does not help if it only ends in one:
    for `a + b as T + 1 <= c` the suggestion is `a + b as T < c`. *)
Definition int_plus_one_suggestion (l r : sugg) : sugg :=
  make_binop Lt (match l with BinOp OCast _ _ => maybe_paren l | _ => l end) r.
Theorem sugg_int_plus_one_refuted : exists l r one, valid (bin Le (bin Add l one) r) /\
  forall e, ~ parses (disp (int_plus_one_suggestion (hir_from_snippet l) (hir_from_snippet r))) e.
Proof.
  exists (bin Add a (CCast b 7)), c, (CAtom 3). split; [|apply (unparseable _ 50); reflexivity].
  cbn. repeat split; try lia; try discriminate; intros [E|E]; discriminate.
Qed.
Print Assumptions sugg_int_plus_one_refuted.
(** An assignment to a range is not parenthesised either (nor is it meaningful). *)
Theorem sugg_assign_range_refuted : exists l r, valid l /\ valid r /\
  forall e, ~ parses (disp (make_assoc OAssign (hir_from_snippet l) (hir_from_snippet r))) e.
Proof.
  exists (CBin (ORange HalfOpen) a b), c. repeat split; try discriminate; cbn; try lia.
  intros e (g & G). assert (E : Done (Range HalfOpen (Atom 0) (Atom 1)) [TAssign; TAtom 2] = Done e []); [|discriminate].
  apply (runs_unique (MAt 0) [TAtom 0; TRange HalfOpen; TAtom 1; TAssign; TAtom 2]); [exists 50|exists g]; (split; [|discriminate]); [reflexivity|exact G].
Qed.
Print Assumptions sugg_assign_range_refuted.
(** An addition on the right of an addition loses its parentheses, and where an operation overflows that shows: here for i8. *)
Definition z_reading (op : bop -> option Z -> option Z -> option Z) : reading (option Z) :=
  {| r_atom := fun n => match n with 0 => Some 127%Z | 1 => Some 1%Z | _ => Some (-1)%Z end; r_post := fun v _ => v; r_un := fun _ v => v; r_bin := op;
     r_cast := fun v _ => v; r_range := fun _ v _ => v; r_assign := fun _ v _ => v; r_return := fun v => v |}.
Definition i8_ops (o : bop) (x y : option Z) : option Z :=
  match x, y with
  | Some x, Some y =>
      let z := match o with Add => (x + y)%Z | Sub => (x - y)%Z | Mul => (x * y)%Z | Div => Z.quot x y | Rem => Z.rem x y | _ => 0%Z end in
      if (Z.leb (-128) z && Z.leb z 127)%bool then Some z else None
  | _, _ => None
  end.
Theorem sugg_add_right_refuted : exists l r e, valid l /\ valid r /\
  parses (disp (make_binop Add (hir_from_snippet l) (hir_from_snippet r))) e
  /\ value (z_reading i8_ops) (Bin Add (erase l) (erase r)) = Some 127%Z /\ value (z_reading i8_ops) e = None.
Proof.
  exists a, (CParen (bin Add b c)). eexists. split; [exact I|]. split; [|split; [exists 50; reflexivity|vm_compute; auto]].
  cbn. repeat split; try lia; try discriminate. intros [E|E]; discriminate.
Qed.
Print Assumptions sugg_add_right_refuted.
(** A multiplication on the right of a multiplication loses its parentheses, even if it contains a division, without any overflow:
    `a * (b / c * b)` is built as `a * b / c * b`. *)
Theorem sugg_mul_right_refuted : exists l r e v w, valid l /\ valid r /\
  parses (disp (make_binop Mul (hir_from_snippet l) (hir_from_snippet r))) e
  /\ value (z_reading i8_ops) (Bin Mul (erase l) (erase r)) = Some v /\ value (z_reading i8_ops) e = Some w /\ v <> w.
Proof.
  exists a, (CParen (bin Mul (bin Div b a) b)). do 3 eexists. split; [exact I|]. split; [|split; [exists 50; reflexivity|]].
  - cbn. repeat split; try lia; try discriminate; intros [E|E]; discriminate.
  - split; [vm_compute; reflexivity|]. split; [vm_compute; reflexivity|discriminate].
Qed.
Print Assumptions sugg_mul_right_refuted.
(** [make_return] claims that its text needs no parentheses. *)
Theorem sugg_return_refuted : exists s e e', stands_for s e /\
  parses (disp (make_binop Add (make_return s) s)) e' /\ e' = Return (Bin Add e e) /\ e' <> Bin Add (Return e) e.
Proof. exists (hir_from_snippet a). do 2 eexists. split; [now apply hir_stands|]. split; [exists 50; reflexivity|]. split; [reflexivity|discriminate]. Qed.
Print Assumptions sugg_return_refuted.
(** The opposite comparison is not the negation for values that do not compare: [None] is not a number. *)
Definition nan_reading : reading (option nat) :=
  {| r_atom := fun n => match n with 0 => None | S n => Some n end; r_post := fun v _ => v;
     r_un := fun u v => match u with Not => match v with Some 0 => Some 1 | Some _ => Some 0 | None => None end | _ => v end;
     r_bin := fun o x y => let cmp f := match x, y with Some x, Some y => Some (if f x y : bool then 1 else 0) | _, _ => Some 0 end in
       match o with Lt => cmp Nat.ltb | Le => cmp Nat.leb | Gt => cmp (fun x y => Nat.ltb y x) | Ge => cmp (fun x y => Nat.leb y x)
                  | Eq => cmp Nat.eqb | _ => None end;
     r_cast := fun v _ => v; r_range := fun _ v _ => v; r_assign := fun _ v _ => v; r_return := fun v => v |}.
Theorem sugg_not_unordered_refuted : exists x e', valid x /\ parses (disp (not_ (hir_from_snippet x))) e'
  /\ value nan_reading (Un Not (erase x)) = Some 1 /\ value nan_reading e' = Some 0.
Proof.
  exists (bin Lt a b). eexists. split; [|split; [exists 50; reflexivity|vm_compute; auto]].
  cbn. repeat split; try lia; try discriminate. intros _. apply (plain_end [] 0).
Qed.
Print Assumptions sugg_not_unordered_refuted.

(** `&((-a + b) as T * c)` from parts, with a source leaf. *)
Definition demo : term :=
  TAddr (TBinop (OBin Mul) (TAsTy (Leaf (hir_from_snippet (bin Add (CUn Neg a) b)) (erase (bin Add (CUn Neg a) b))) 7) (Leaf (hir_from_snippet c) (Atom 2))).
Example C35_nontrivial : sound_term demo /\ meant demo = Some (Un (AddrOf false) (Bin Mul (Cast (Bin Add (Un Neg (Atom 0)) (Atom 1)) 7) (Atom 2)))
  /\ disp (build demo) = [TBin BitAnd; TLParen; TLParen; TBin Sub; TAtom 0; TBin Add; TAtom 1; TRParen; TAs; TType 7; TBin Mul; TAtom 2; TRParen].
Proof.
  split; [|now vm_compute]. split; [apply (hir_stands (bin Add (CUn Neg a) b)); cbn; repeat split; try lia; try discriminate; intros [E|E]; discriminate|].
  split; [now apply (hir_stands c)|]. repeat split; try discriminate.
  - intros [E _]. discriminate.
  - intros [_ E]. discriminate.
  - intros [E|E]; discriminate.
  - intros [E _]. discriminate.
Qed.
Example C35_assoc_nontrivial : sound_term_assoc (TBinop (OBin And) (Leaf (hir_from_snippet a) (Atom 0)) (Leaf (hir_from_snippet (bin And b c)) (Bin And (Atom 1) (Atom 2))))
  /\ disp (build (TBinop (OBin And) (Leaf (hir_from_snippet a) (Atom 0)) (Leaf (hir_from_snippet (bin And b c)) (Bin And (Atom 1) (Atom 2)))))
     = [TAtom 0; TBin And; TAtom 1; TBin And; TAtom 2]
  /\ (forall x, alone x = true -> associative (r_bin bool {| r_atom := fun _ => true; r_post := fun v _ => v; r_un := fun _ => negb;
       r_bin := fun o => match o with And | BitAnd => andb | Or | BitOr => orb | _ => xorb end; r_cast := fun v _ => v; r_range := fun _ v _ => v;
       r_assign := fun _ v _ => v; r_return := fun v => v |} x)).
Proof.
  split; [|split; [now vm_compute|]].
  - split; [now apply (hir_stands a)|]. split; [apply (hir_stands (bin And b c)); cbn; repeat split; try lia; try discriminate; intros [E|E]; discriminate|].
    repeat split; try discriminate.
    + intros [E _]. discriminate.
    + intros _ _. now exists And.
    + intros [E|E]; discriminate.
    + intros [E _]. discriminate.
  - intros x X p q r. destruct x; try discriminate; destruct p, q, r; reflexivity.
Qed.
