(** Expressions found equal: behaviour, effects, hashes, and repeated conditions. *)
From Verif Require Import SameSpec SameFinal SameQuiet SameHash SameRefl SameSearch SameIfs.
From Coq Require Import Sorted Lia.

(** ** A small world for the examples *)
Definition prim0 (op : bop) (a b : lit) : option lit :=
  match a, b with
  | LInt x, LInt y =>
      match op with
      | Add => Some (LInt (x + y)) | Sub => Some (LInt (x - y)) | Mul => Some (LInt (x * y)) | Div => if (y =? 0)%Z then None else Some (LInt (x / y))
      | BitXor => Some (LInt (Z.lxor x y)) | BitAnd => Some (LInt (Z.land x y)) | BitOr => Some (LInt (Z.lor x y))
      | Eq => Some (LBool (x =? y)%Z) | Ne => Some (LBool (negb (x =? y)%Z)) | Lt => Some (LBool (x <? y)%Z) | Gt => Some (LBool (y <? x)%Z)
      | Le => Some (LBool (x <=? y)%Z) | Ge => Some (LBool (y <=? x)%Z)
      | Rem | Shl | Shr => None
      | And | Or => Some (LBool false)
      end
  | _, _ => Some (LBool false)
  end.
Definition world0 : world := {|
  w_item := VFn;
  w_call := fun f _ t => match f with VFn 0 => Some (VLit (LInt 7)) | VFn 1 => Some (VLit (LInt (Z.of_nat (length t)))) | _ => None end;
  w_method := fun _ _ t => Some (VLit (LBool (Nat.even (length t))));
  w_user := fun _ _ _ _ => Some (VLit (LBool true));
  w_un := fun u l => match u, l with Not, LBool b => Some (LBool (negb b)) | _, _ => Some l end;
  w_prim := prim0;
  w_cast := fun _ v => v |}.
Lemma sensible0 : sensible world0.
Proof.
  constructor.
  - intros op op' a b M. unfold world0, w_prim, prim0. destruct a, b, op; cbn in M; try discriminate; injection M as <-; try reflexivity; do 2 f_equal;
      first [apply Z.add_comm|apply Z.mul_comm|apply Z.lxor_comm|apply Z.land_comm|apply Z.lor_comm|apply Z.eqb_sym|f_equal; apply Z.eqb_sym].
  - intros op a b A. destruct op; try discriminate A; destruct a, b; cbn; discriminate.
  - intros []; cbn; discriminate.
Qed.
Definition konst0 (e : expr) : option (nat * lit) :=
  match e with ELit (LInt z) => Some (0, LInt z) | ELit (LBool b) => Some (1, LBool b) | ELit (LStr s) => Some (2, LStr s) | _ => None end.
Lemma konst0_sound w : konst_sound w konst0.
Proof.
  intros e k c H. destruct e as [l| | | | | | | | | | | |]; try discriminate H. split; [reflexivity|]. intros [|n] s t; [left; cbn; auto|right]. destruct l; injection H as <- <-; reflexivity.
Qed.
(** All parts of an expression. *)
Fixpoint subs (n : nat) (e : expr) : list expr := match n with 0 => [] | S n => e :: flat_map (subs n) (parts e) end.
Lemma within_subs e d : within e d -> forall n, size e <= n -> In d (subs n e).
Proof.
  induction 1 as [e|e c d J W IH]; intros [|n] L; try (pose proof (size_pos e); lia); [left; reflexivity|]. right. apply in_flat_map. exists c. split; [exact J|]. apply IH. apply part_size in J. lia.
Qed.
Lemma within_check (f : expr -> bool) e : forallb f (subs (size e) e) = true -> forall d, within e d -> f d = true.
Proof. intros H d W. rewrite forallb_forall in H. apply H, (within_subs e d W _ (Nat.le_refl _)). Qed.
Definition no_label (d : expr) : bool := match d with EBlock (Some _) _ _ _ => false | _ => true end.
Definition flagged (d : expr) : bool := match d with EBinary _ lp rp _ _ => lp && rp | _ => true end.
Definition calmb (d : expr) : bool :=
  match d with
  | EBinary (And | Or) _ _ l r => computes false l && computes false r
  | EBinary _ lp rp l r => lp && rp && computes true l && computes true r
  | _ => true
  end.
Lemma calmb_calm d : calmb d = true -> calm d.
Proof. destruct d; cbn; auto. destruct op; intros H; repeat (apply andb_prop in H; destruct H as [H ?]); auto. Qed.
Lemma no_label_spec e : forallb no_label (subs (size e) e) = true -> no_block_labels e.
Proof. intros H l u ss t W. discriminate (within_check no_label e H _ W). Qed.
Lemma flagged_spec e : forallb flagged (subs (size e) e) = true -> marked (fun _ => true) e.
Proof. intros H op lp rp a b W. apply andb_prop. exact (within_check flagged e H _ W). Qed.
Lemma comparable0 w allow l r : apart l r -> forallb no_label (subs (size l) l) = true -> forallb no_label (subs (size r) r) = true ->
  forallb flagged (subs (size l) l) = true -> forallb flagged (subs (size r) r) = true -> comparable w konst0 allow (fun _ => true) l r.
Proof. intros A B C D E. constructor; auto using konst0_sound, no_label_spec, flagged_spec. intros n a b m _ _ _. reflexivity. Qed.
Ltac distinct := repeat constructor; cbn; intuition discriminate.
Definition num (z : Z) : expr := ELit (LInt z).
Definition plus (a b : expr) : expr := EBinary Add true true a b.
Definition call (f : nat) (es : list expr) : expr := ENode KCall (EItem f [] :: es).
(** `{ let a = x + 1; if a < y { f(a) } else { a } }` and `{ let b = 1 + x; if y > b { f(b) } else { b } }` *)
Definition left0 : expr := EBlock None false [SLet (PBind 0 10 None) 0 None (Some (plus (ELocal 1) (num 1))) None]
  (Some (EIf (EBinary Lt true true (ELocal 10) (ELocal 2)) (call 0 [ELocal 10]) (Some (ELocal 10)))).
Definition right0 : expr := EBlock None false [SLet (PBind 0 20 None) 0 None (Some (plus (num 1) (ELocal 1))) None]
  (Some (EIf (EBinary Gt true true (ELocal 2) (ELocal 20)) (call 0 [ELocal 20]) (Some (ELocal 20)))).
Lemma apart0 : apart left0 right0.
Proof. split; cbn; [distinct|]. intros x. cbn. intuition (subst; discriminate). Qed.
Definition store0 : store := fun x => if Nat.eqb x 1 then Some (VLit (LInt 4)) else if Nat.eqb x 2 then Some (VLit (LInt 9)) else None.
Lemma fresh0 : fresh left0 right0 store0.
Proof. intros x [<-|[<-|[]]]; reflexivity. Qed.

(** ** C72: expressions found equal do the same *)
(** The right expression, with the operands of some operators exchanged, behaves like the left one: the same outcome, the same events in the same order,
    the same values of the locals outside.  Missing: labelled blocks; closures, items, macros and the other expressions that are not modelled. *)
Theorem spanless_eq_behaviour_partial w konst allow prim l r : comparable w konst allow prim l r -> spanless_eq konst allow l r = true ->
  exists r' k, reordered (fun _ => True) r r' /\ forall s t, fresh l r s -> forall n,
    follows false (binds l ++ binds r) (eval w n l s t) (eval w (n + k) r' s t) /\ follows false (binds l ++ binds r) (eval w n r' s t) (eval w (n + k) l s t).
Proof.
  intros CM E. destruct (behaves w konst allow prim l r CM (fun _ => True) (fun _ _ => I) (fun x => ~ In x (binds l ++ binds r)) (fun x H => H) (proj2 (c_apart _ _ _ _ _ _ CM)) E) as (r' & k & R & H).
  exists r', k. split; [exact R|]. intros s t F n. apply (H s s t). repeat split; [|]; intros x J; apply F, in_or_app; auto.
Qed.
Print Assumptions spanless_eq_behaviour_partial.
Example spanless_eq_behaviour_ex : comparable world0 konst0 true (fun _ => true) left0 right0 /\ spanless_eq konst0 true left0 right0 = true /\ fresh left0 right0 store0
  /\ exists s, eval world0 20 left0 store0 [] = Fine (Val (VLit (LInt 7))) s [Called (VFn 0) [VLit (LInt 5)]].
Proof.
  split; [apply comparable0; [exact apart0| | | |]; reflexivity|]. split; [reflexivity|]. split; [exact fresh0|]. eexists. reflexivity.
Qed.
(** If the operands of every operator of the right expression do nothing but compute, it behaves like the left one as it stands (or one of them is ill-typed). *)
Theorem spanless_eq_same_behaviour_partial w konst allow prim l r : comparable w konst allow prim l r -> sensible w -> (forall d, within r d -> calm d) ->
  spanless_eq konst allow l r = true ->
  exists k, forall s t, fresh l r s -> forall n, follows true (binds l ++ binds r) (eval w n l s t) (eval w (n + k) r s t).
Proof.
  intros CM OK CA E. destruct (behaves_calm w konst allow prim l r (fun x => ~ In x (binds l ++ binds r)) CM OK CA (fun x H => H) (proj2 (c_apart _ _ _ _ _ _ CM)) E) as [k H].
  exists k. intros s t F n. apply (H s s t). repeat split; [|]; intros x J; apply F, in_or_app; auto.
Qed.
Print Assumptions spanless_eq_same_behaviour_partial.
Example spanless_eq_same_behaviour_ex : (forall d, within right0 d -> calm d) /\ sensible world0 /\
  exists s, eval world0 20 right0 store0 [] = Fine (Val (VLit (LInt 7))) s [Called (VFn 0) [VLit (LInt 5)]].
Proof.
  split; [intros d W; apply calmb_calm, (within_check calmb right0 eq_refl d W)|]. split; [exact sensible0|]. eexists. reflexivity.
Qed.
(** Every expression without closures, items, or-patterns and the type `!` is equal to itself. *)
Theorem spanless_eq_reflexive_partial konst allow e : regular allow e -> spanless_eq konst allow e e = true.
Proof. intros R. apply (refl konst allow (3 * size e)); [lia|exact R]. Qed.
Print Assumptions spanless_eq_reflexive_partial.
Example spanless_eq_reflexive_ex : regular true left0 /\ spanless_eq konst0 false left0 left0 = false.
Proof. split; [exact (within_check (regular_here true) left0 eq_refl)|reflexivity]. Qed.
(** Calls are exchanged too: `f(1) < f(2)` and `f(2) > f(1)` are equal, whatever `f` does. *)
Theorem spanless_eq_order_refuted : exists w l r, comparable w konst0 true (fun _ => true) l r /\ spanless_eq konst0 true l r = true /\
  exists o s t o' s' t', eval w 9 l store0 [] = Fine o s t /\ eval w 9 r store0 [] = Fine o' s' t' /\ t <> t' /\ o <> o'.
Proof.
  exists world0, (EBinary Lt true true (call 1 [num 1]) (call 1 [num 2])), (EBinary Gt true true (call 1 [num 2]) (call 1 [num 1])).
  split; [apply comparable0; try reflexivity; split; cbn; [constructor|tauto]|]. split; [reflexivity|].
  do 6 eexists. split; [reflexivity|]. split; [reflexivity|]. split; discriminate.
Qed.
Print Assumptions spanless_eq_order_refuted.
(** `x && y / 0 == 1` and `y / 0 == 1 && x`: one is false, the other panics; [eq_expr_value] takes them for equal. *)
Theorem spanless_eq_panic_refuted : exists w l r s, sensible w /\ comparable w konst0 false (fun _ => true) l r /\ eq_expr_value konst0 l r = true /\ fresh l r s /\
  exists v, eval w 9 l s [] = Fine (Val v) s [] /\ eval w 9 r s [] = Fine Panic s [].
Proof.
  pose (d := EBinary Eq true true (EBinary Div true true (ELocal 1) (num 0)) (num 1)).
  exists world0, (EBinary And true true (ELocal 3) d), (EBinary And true true d (ELocal 3)), (set store0 3 (VLit (LBool false))).
  split; [exact sensible0|]. split; [apply comparable0; try reflexivity; split; cbn; [constructor|tauto]|]. split; [reflexivity|]. split; [intros x []|].
  eexists. split; reflexivity.
Qed.
Print Assumptions spanless_eq_panic_refuted.
(** The labels of blocks are not compared: `'a: { break 'a 1 }` and `'b: { break 'a 1 }` are equal. *)
Theorem spanless_eq_block_label_refuted : exists w l r, spanless_eq konst0 false l r = true /\ exists v a, eval w 9 l store0 [] = Fine (Val v) store0 [] /\ eval w 9 r store0 [] = Fine (Brk a v) store0 [].
Proof.
  exists world0, (EBlock (Some 0) false [] (Some (EExit (XBreak (Some 0)) (Some (num 1))))), (EBlock (Some 1) false [] (Some (EExit (XBreak (Some 0)) (Some (num 1))))).
  split; [reflexivity|]. do 2 eexists. split; reflexivity.
Qed.
Print Assumptions spanless_eq_block_label_refuted.
(** Only the type of the left operand decides whether the operands of `+` may be exchanged: `2 + v` and `v + 2` are equal, and one calls another `add` than the other. *)
Theorem spanless_eq_operator_refuted : exists w l r s, sensible w /\ eq_expr_value konst0 l r = true /\
  exists v v' t t', eval w 9 l s [] = Fine (Val v) s t /\ eval w 9 r s [] = Fine (Val v') s t' /\ t <> t'.
Proof.
  exists world0, (EBinary Add true false (num 2) (ELocal 5)), (EBinary Add false true (ELocal 5) (num 2)), (fun _ => Some (VTup [])).
  split; [exact sensible0|]. split; [reflexivity|]. do 4 eexists. split; [reflexivity|]. split; [reflexivity|]. discriminate.
Qed.
Print Assumptions spanless_eq_operator_refuted.

(** ** C73: expressions found to have equal values have no effects *)
(** Nothing is called and no local outside is changed.  Missing: overloaded operators, see below; what is not modelled. *)
Theorem eq_expr_value_harmless_partial w konst l r : konst_sound w konst -> eq_expr_value konst l r = true -> primitive_operators l ->
  forall n s t, harmless (binds l) (eval w n l s t) s t.
Proof. intros K E P n s t. apply (quiet_run w konst K n); [|exact P]. apply (proj1 (eq_quiet konst (3 * size l)) l r). exists []. exact E. Qed.
Print Assumptions eq_expr_value_harmless_partial.
Theorem eq_expr_value_harmless_right_partial w konst l r : konst_sound w konst -> eq_expr_value konst l r = true -> primitive_operators r ->
  forall n s t, harmless (binds r) (eval w n r s t) s t.
Proof. intros K E P n s t. apply (quiet_run w konst K n); [|exact P]. apply (proj1 (eq_quiet konst (3 * size l)) l r). exists []. exact E. Qed.
Print Assumptions eq_expr_value_harmless_right_partial.
(** `{ let a = x + 1; a < y }` and `{ let b = 1 + x; y > b }` *)
Definition left1 : expr := EBlock None false [SLet (PBind 0 10 None) 0 None (Some (plus (ELocal 1) (num 1))) None] (Some (EBinary Lt true true (ELocal 10) (ELocal 2))).
Definition right1 : expr := EBlock None false [SLet (PBind 0 20 None) 0 None (Some (plus (num 1) (ELocal 1))) None] (Some (EBinary Gt true true (ELocal 2) (ELocal 20))).
Lemma primitive0 e : forallb flagged (subs (size e) e) = true -> primitive_operators e.
Proof. intros H op lp rp a b W. apply andb_prop. exact (within_check flagged e H _ W). Qed.
Example eq_expr_value_harmless_ex : konst_sound world0 konst0 /\ eq_expr_value konst0 left1 right1 = true /\ primitive_operators left1 /\ primitive_operators right1 /\
  exists s, eval world0 20 left1 store0 [] = Fine (Val (VLit (LBool true))) s [] /\ s 10 = Some (VLit (LInt 5)).
Proof. split; [apply konst0_sound|]. split; [reflexivity|]. split; [apply primitive0; reflexivity|]. split; [apply primitive0; reflexivity|]. eexists. split; reflexivity. Qed.
(** `v == v` is found equal to itself though `==` may do anything on a type that is not primitive. *)
Theorem eq_expr_value_operator_refuted : exists w e s, eq_expr_value konst0 e e = true /\ ~ harmless (binds e) (eval w 9 e s []) s [].
Proof. exists world0, (EBinary Eq false false (ELocal 5) (ELocal 5)), (fun _ => Some (VTup [])). split; [reflexivity|]. intros [H _]. discriminate H. Qed.
Print Assumptions eq_expr_value_operator_refuted.

(** ** C74: equal expressions hash alike, and duplicates are found *)
(** Missing: operators whose operands may be exchanged, empty blocks, blocks around a `return`, `unsafe` blocks, lifetimes and `..` in struct patterns; each refuted below. *)
Theorem spanless_hash_partial konst allow l r : constants_agree konst allow l r -> rigid l -> rigid r -> spanless_eq konst allow l r = true -> hash_expr konst l = hash_expr konst r.
Proof.
  intros A L R E. apply (proj1 (eq_hash konst allow l r A (3 * size l)) l r); [exists []; exact E|split; [constructor|exact L]|split; [constructor|exact R]].
Qed.
Print Assumptions spanless_hash_partial.
(** `{ let a = x - 1; f(a) }` and `{ let b = x - 1; f(b) }` (nothing is evaluated to a constant). *)
Definition left2 : expr := EBlock None false [SLet (PBind 0 10 None) 0 None (Some (EBinary Sub true true (ELocal 1) (num 1))) None] (Some (call 0 [ELocal 10])).
Definition right2 : expr := EBlock None false [SLet (PBind 0 20 None) 0 None (Some (EBinary Sub true true (ELocal 1) (num 1))) None] (Some (call 0 [ELocal 20])).
Example spanless_hash_ex : constants_agree (fun _ => None) true left2 right2 /\ rigid left2 /\ rigid right2 /\ spanless_eq (fun _ => None) true left2 right2 = true /\ left2 <> right2.
Proof.
  split; [intros n a b m _ _ _; reflexivity|]. split; [exact (within_check rigid_here left2 eq_refl)|]. split; [exact (within_check rigid_here right2 eq_refl)|]. split; [reflexivity|discriminate].
Qed.
(** `x < y` and `y > x`; `{}` and `()`; `unsafe { x }` and `{ x }`; `x as &'a T` and `x as &'b T`; `let S { .. } = x` and `let S {} = x`. *)
Theorem spanless_hash_refuted :
  Forall (fun lr => spanless_eq konst0 false (fst lr) (snd lr) = true /\ hash_expr konst0 (fst lr) <> hash_expr konst0 (snd lr))
    [(EBinary Lt true true (ELocal 1) (ELit (LInt 2)), EBinary Gt true true (ELit (LInt 2)) (ELocal 1));
     (EBlock None false [] None, ENode KTup []);
     (EBlock None false [SSemi (EExit XReturn None)] None, EExit XReturn None);
     (EBlock None true [] (Some (ELocal 1)), EBlock None false [] (Some (ELocal 1)));
     (ENode (KCast (TyRef 0 false (TyPath [0]))) [ELocal 1], ENode (KCast (TyRef 1 false (TyPath [0]))) [ELocal 1]);
     (ELet (PStruct 0 [] true) None (ELocal 1), ELet (PStruct 0 [] false) None (ELocal 1))].
Proof. repeat constructor; cbn; discriminate. Qed.
Print Assumptions spanless_hash_refuted.

(** A group has at least two members, all among the expressions and in their order, and each of the others is equal to the first. *)
Theorem search_same_sound T (hash : T -> list Z) (eq : T -> T -> bool) (pos : T -> nat) xs g :
  StronglySorted (fun a b => pos a < pos b) xs -> In g (search_same hash eq xs) ->
  2 <= length g /\ incl g xs /\ StronglySorted (fun a b => pos a < pos b) g /\ exists x rest, g = x :: rest /\ forall y, In y rest -> eq x y = true \/ eq y x = true.
Proof. exact (groups_sound hash eq pos xs g). Qed.
Print Assumptions search_same_sound.
(** No expression is in two groups or twice in one. *)
Theorem search_same_disjoint T (hash : T -> list Z) (eq : T -> T -> bool) (pos : T -> nat) xs :
  StronglySorted (fun a b => pos a < pos b) xs -> NoDup (concat (search_same hash eq xs)).
Proof. exact (groups_disjoint hash eq pos xs). Qed.
Print Assumptions search_same_disjoint.
(** If being equal is an equivalence and equals hash alike, any two equals are in one group. *)
Theorem search_same_complete T (hash : T -> list Z) (eq : T -> T -> bool) (pos : T -> nat) xs x y :
  (forall a, eq a a = true) -> (forall a b, eq a b = true -> eq b a = true) -> (forall a b c, eq a b = true -> eq b c = true -> eq a c = true) ->
  (forall a b, eq a b = true -> hash a = hash b) ->
  StronglySorted (fun a b => pos a < pos b) xs -> In x xs -> In y xs -> x <> y -> eq x y = true -> exists g, In g (search_same hash eq xs) /\ In x g /\ In y g.
Proof. exact (groups_complete hash eq pos xs x y). Qed.
Print Assumptions search_same_complete.
(** The groups come in the order of their first members, as documented, if expressions that hash alike are equal.  Missing: other hashes, see below. *)
Theorem search_same_sorted_partial T (hash : T -> list Z) (eq : T -> T -> bool) (pos : T -> nat) xs :
  (forall a b, hash a = hash b -> eq a b = true) -> StronglySorted (fun a b => pos a < pos b) xs ->
  StronglySorted (fun g h => exists x y, nth_error g 0 = Some x /\ nth_error h 0 = Some y /\ pos x < pos y) (search_same hash eq xs).
Proof.
  intros H S. pose proof (groups_sorted hash eq pos xs H S) as G. assert (N : forall g, In g (search_same hash eq xs) -> 2 <= length g) by (intros g J; apply (groups_sound hash eq pos xs g S J)).
  revert N G. generalize (search_same hash eq xs). intros gs N G. induction G as [|g gs G IH F]; constructor.
  - apply IH. intros h J. apply N. right. exact J.
  - rewrite Forall_forall in *. intros h J. specialize (F h J). pose proof (N g (or_introl eq_refl)) as Lg. pose proof (N h (or_intror J)) as Lh.
    destruct g as [|x g]; [cbn in Lg; lia|]. destruct h as [|y h]; [cbn in Lh; lia|]. exists x, y. repeat split. exact (F x g y h eq_refl eq_refl).
Qed.
Print Assumptions search_same_sorted_partial.
(** Pairs of a place and a number: duplicates are those with the same number. *)
Example search_same_ex : let xs := [(0, 5); (1, 6); (2, 5); (3, 7); (4, 6); (5, 5)] in
  StronglySorted (fun a b => fst a < fst b) xs /\ search_same (fun p => [Z.of_nat (snd p)]) (fun a b => Nat.eqb (snd a) (snd b)) xs = [[(0, 5); (2, 5); (5, 5)]; [(1, 6); (4, 6)]].
Proof. split; [repeat constructor; lia|reflexivity]. Qed.
(** All locals hash alike: in `x, 1, 1, y, y` the pair of `y` comes before the pair of `1`. *)
Theorem search_same_order_refuted : exists xs gs, search_same (fun p : nat * expr => hash_expr konst0 (snd p)) (fun a b => eq_expr_value konst0 (snd a) (snd b)) xs = gs /\
  StronglySorted (fun a b => fst a < fst b) xs /\ exists i j a b g h, gs = [(i, a) :: g; (j, b) :: h] /\ j < i.
Proof.
  exists [(0, ELocal 1); (1, num 1); (2, num 1); (3, ELocal 2); (4, ELocal 2)]. eexists. split; [reflexivity|]. split; [repeat constructor; cbn; lia|].
  do 6 eexists. split; [reflexivity|cbn; lia].
Qed.
Print Assumptions search_same_order_refuted.
(** `x < 2` and `2 > x` are found when there are two expressions, and not when there are three. *)
Theorem search_same_pair_refuted : exists a b c, let find := search_same (hash_expr konst0) (eq_expr_value konst0) in find [a; b] = [[a; b]] /\ find [a; b; c] = [].
Proof. exists (EBinary Lt true true (ELocal 1) (num 2)), (EBinary Gt true true (num 2) (ELocal 1)), (ELocal 1). split; reflexivity. Qed.
Print Assumptions search_same_pair_refuted.

(** ** C75: ifs_same_cond *)
Definition numbered (cs : list expr) : list (nat * expr) := combine (seq 0 (length cs)) cs.
Definition between (i j : nat) (cs : list expr) : list expr := firstn (j - S i) (skipn (S i) cs).
Lemma numbered_from (cs : list expr) : forall k i c, In (i, c) (combine (seq k (length cs)) cs) -> k <= i /\ nth_error cs (i - k) = Some c.
Proof.
  induction cs as [|d cs IH]; intros k i c J; [destruct J|]. destruct J as [E|J]; [injection E as <- <-; rewrite Nat.sub_diag; auto|].
  destruct (IH (S k) i c J) as [L N]. split; [lia|]. replace (i - k) with (S (i - S k)) by lia. exact N.
Qed.
Lemma numbered_nth (cs : list expr) i c : In (i, c) (numbered cs) -> nth_error cs i = Some c.
Proof. intros J. destruct (numbered_from cs 0 i c J) as [_ N]. rewrite Nat.sub_0_r in N. exact N. Qed.
Lemma numbered_sorted (cs : list expr) : StronglySorted (before fst) (numbered cs).
Proof.
  unfold numbered. generalize 0. induction cs as [|c cs IH]; intros k; cbn; constructor; [apply IH|]. apply Forall_forall. intros [i d] J.
  destruct (numbered_from cs (S k) i d J). unfold before. cbn. lia.
Qed.
(** In a chain `if c0 {} else if c1 {} ...`, a condition [cj] is reported with an earlier [ci]: if [ci] was found false and the conditions in between are without effects and found false,
    [cj] is not found true.  Missing: conditions that are method calls (refuted below); conditions with operands that call, which may be exchanged; labelled blocks. *)
Theorem ifs_same_cond_unreachable_partial w konst mutable prim cs i ci rest j cj :
  sensible w ->
  In ((i, ci) :: rest) (ifs_same_cond konst mutable (numbered cs)) -> In (j, cj) rest ->
  (forall m es, ~ In (ENode (KMethod m) es) cs) ->
  comparable w konst false prim ci cj -> comparable w konst false prim cj ci ->
  (forall d, within ci d \/ within cj d -> calm d) -> primitive_operators ci ->
  (forall c, In c (between i j cs) -> without_effects w c /\ forall x, In x (binds c) -> ~ In x (free ci ++ free cj ++ binds cj)) ->
  i < j /\ nth_error cs i = Some ci /\ nth_error cs j = Some cj /\
  forall s t n s1 t1 s2 t2, fresh ci cj s -> eval w n ci s t = Fine (Val (VLit (LBool false))) s1 t1 -> all_false w (between i j cs) s1 t1 s2 t2 ->
    forall m s3 t3, eval w m cj s2 t2 <> Fine (Val (VLit (LBool true))) s3 t3.
Proof.
  intros SE J Jr NM CM CM' CA PO BT.
  destruct (ifs_head konst mutable (numbered cs) i ci rest j cj) as (L & Ji & Jj & EQ); auto using numbered_sorted.
  { intros k c Jc m es ->. apply numbered_nth, nth_error_In in Jc. exact (NM m es Jc). }
  split; [exact L|]. split; [apply numbered_nth, Ji|]. split; [apply numbered_nth, Jj|]. intros s t n s1 t1 s2 t2 FR EI AF m s3 t3.
  assert (Q : forall n s t, harmless (binds ci) (eval w n ci s t) s t).
  { destruct EQ as [E|E]; [exact (eq_expr_value_harmless_partial w konst ci cj (c_konst _ _ _ _ _ _ CM) E PO)|exact (eq_expr_value_harmless_right_partial w konst cj ci (c_konst _ _ _ _ _ _ CM) E PO)]. }
  pose proof (Q n s t) as H1. rewrite EI in H1. destruct H1 as [-> H1].
  assert (H2 : t2 = t /\ forall x, ~ In x (flat_map binds (between i j cs)) -> s2 x = s1 x).
  { eapply chain_harmless; try exact AF; eauto. apply Forall_forall. intros c Jc. apply BT, Jc. }
  destruct H2 as [-> H2].
  destruct (c_apart _ _ _ _ _ _ CM) as [ND AP].
  assert (KEEP : forall x, In x (free ci) \/ In x (free cj) \/ In x (binds cj) -> s x = s2 x).
  { intros x Jx. rewrite H2, H1; [reflexivity| |].
    - destruct Jx as [Jx|[Jx|Jx]]; intros Jb; [apply (AP x (or_introl Jx)), in_or_app; auto|apply (AP x (or_intror Jx)), in_or_app; auto|].
      revert ND Jx Jb. clear. intros ND J1 J2. apply in_split in J2. destruct J2 as (a & b & E). rewrite E, <- app_assoc in ND. apply NoDup_remove_2 in ND. apply ND. rewrite !in_app_iff. auto.
    - intros Jb. apply in_flat_map in Jb. destruct Jb as (c & Jc & Jb). apply (proj2 (BT c Jc) x Jb). rewrite !in_app_iff. tauto. }
  destruct EQ as [E|E].
  - apply (same_false w konst prim SE ci cj s s2 t t n m s1 t s3 t3 CM); auto.
    + intros x Jx. apply KEEP. tauto.
    + intros x Jx. apply FR, in_or_app. auto.
    + intros x Jx. rewrite <- KEEP by auto. apply FR, in_or_app. auto.
  - apply (same_true w konst prim SE cj ci s2 s t t n m s1 t s3 t3 CM'); auto.
    + intros x Jx. symmetry. apply KEEP. tauto.
    + intros x Jx. rewrite <- KEEP by auto. apply FR, in_or_app. auto.
    + intros x Jx. apply FR, in_or_app. auto.
Qed.
Print Assumptions ifs_same_cond_unreachable_partial.
(** `if { let a = x + 1; a < y } {} else if x == 2 {} else if { let b = x + 1; b < y } {}` *)
Definition third1 : expr := EBlock None false [SLet (PBind 0 20 None) 0 None (Some (plus (ELocal 1) (num 1))) None] (Some (EBinary Lt true true (ELocal 20) (ELocal 2))).
Definition chain1 : list expr := [left1; EBinary Eq true true (ELocal 1) (num 2); third1].
Example ifs_same_cond_ex : ifs_same_cond konst0 (fun _ => false) (numbered chain1) = [[(0, left1); (2, third1)]] /\
  comparable world0 konst0 false (fun _ => true) left1 third1 /\ comparable world0 konst0 false (fun _ => true) third1 left1 /\
  (forall d, within left1 d \/ within third1 d -> calm d) /\ primitive_operators left1 /\
  (forall c, In c (between 0 2 chain1) -> without_effects world0 c /\ forall x, In x (binds c) -> ~ In x (free left1 ++ free third1 ++ binds third1)) /\
  exists s s1 s2, fresh left1 third1 s /\ eval world0 20 left1 s [] = Fine (Val (VLit (LBool false))) s1 [] /\ all_false world0 (between 0 2 chain1) s1 [] s2 [].
Proof.
  split; [reflexivity|].
  split; [apply comparable0; try reflexivity; split; cbn; [distinct|]; intros x; cbn; intuition (subst; discriminate)|].
  split; [apply comparable0; try reflexivity; split; cbn; [distinct|]; intros x; cbn; intuition (subst; discriminate)|].
  split; [intros d [W|W]; apply calmb_calm; [exact (within_check calmb left1 eq_refl d W)|exact (within_check calmb third1 eq_refl d W)]|].
  split; [apply primitive0; reflexivity|]. split.
  { intros c [<-|[]]. split; [|intros x []]. intros n s t. apply (eq_expr_value_harmless_partial world0 konst0 (EBinary Eq true true (ELocal 1) (num 2)) (EBinary Eq true true (ELocal 1) (num 2)) (konst0_sound _) eq_refl). apply primitive0. reflexivity. }
  exists (set store0 1 (VLit (LInt 40))). do 2 eexists. split; [intros x [<-|[<-|[]]]; reflexivity|]. split; [reflexivity|].
  eapply (af_cons _ _ _ _ _ 9); [reflexivity|constructor].
Qed.
(** `if x == 1 {} else if { x = 1; false } {} else if x == 1 {}`: the conditions in between are not looked at. *)
Theorem ifs_same_cond_assignment_refuted : exists w cs ci cj s s2 t2 s3 t3, sensible w /\ ifs_same_cond konst0 (fun _ => false) (numbered cs) = [[(0, ci); (2, cj)]] /\
  all_false w (firstn 2 cs) s [] s2 t2 /\ eval w 9 cj s2 t2 = Fine (Val (VLit (LBool true))) s3 t3.
Proof.
  pose (c := EBinary Eq true true (ELocal 1) (num 1)). pose (d := EBlock None false [SSemi (EAssign None (ELocal 1) (num 1))] (Some (ELit (LBool false)))).
  exists world0, [c; d; c], c, c, store0. do 4 eexists. split; [exact sensible0|]. split; [reflexivity|]. split.
  - eapply (af_cons _ _ _ _ _ 9); [reflexivity|]. eapply (af_cons _ _ _ _ _ 9); [reflexivity|constructor].
  - reflexivity.
Qed.
Print Assumptions ifs_same_cond_assignment_refuted.
(** `if x.m() {} else if x.m() {}` where the method changes something behind a shared reference. *)
Theorem ifs_same_cond_method_refuted : exists w cs ci cj s s2 t t2 s3 t3, sensible w /\ ifs_same_cond konst0 (fun _ => false) (numbered cs) = [[(0, ci); (1, cj)]] /\
  all_false w (firstn 1 cs) s t s2 t2 /\ eval w 9 cj s2 t2 = Fine (Val (VLit (LBool true))) s3 t3.
Proof.
  pose (c := ENode (KMethod 0) [ELocal 1]).
  exists world0, [c; c], c, c, store0. eexists. exists [Called (VFn 0) []]. do 3 eexists. split; [exact sensible0|]. split; [reflexivity|]. split.
  - eapply (af_cons _ _ _ _ _ 9); [reflexivity|constructor].
  - reflexivity.
Qed.
Print Assumptions ifs_same_cond_method_refuted.
