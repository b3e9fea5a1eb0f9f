(** C102-C108: iterators. *)
From Verif Require Import P_Mat.
From Verif Require Import IterSpec IterModel IterSim IterProofs IterEnds IterFold IterLoops IterFind IterFilter.

(** A world for the witnesses: calls are logged; 1 and 2 add and multiply, 7 tells even numbers, 8 is `true`, 9 gives `None`,
    the others their number.  [adj] is what the adjustment of a variable does. *)
Definition wi (adj : val -> val) : world := {|
  W := list nat;
  call := fun f vs l =>
    (CVal (match f, vs with
           | 1, [VInt a; VInt b] => VInt (a + b)
           | 2, [VInt a; VInt b] => VInt (a * b)
           | 7, [VInt a] => VBool (Z.even a)
           | 8, _ => VBool true
           | 9, _ => none_v
           | _, _ => VInt (Z.of_nat f)
           end), f :: l);
  adjust := adj;
  eq_other := fun a b => match a, b with VInt x, VInt y => Z.eqb x y | _, _ => false end |}.
Definition wp : world := wi (fun v => v).
Fixpoint deref (v : val) : val := match v with VRef u => deref u | _ => v end.
Definition wd : world := wi deref.
Definition wg : world := wi (fun v => match deref v with VData k vs => match v with VRef _ => VData k (map VRef vs) | _ => v end | u => u end).
Definition go (e : iexpr) : out * list nat := let '(o, s) := ieval wp 9 e ([], []) in (o, snd s).
Definition god (e : iexpr) : out * list nat := let '(o, s) := ieval wd 9 e ([], []) in (o, snd s).
Definition nums (l : list Z) : expr := EData KArr (map EInt l).
Definition src (l : list Z) : chain := ISrc false (nums l).
Definition fn (x : nat) (b : expr) : arg := AC [pv x] b.
Definition arr (l : list Z) : val := VData KArr (map VInt l).
Definition use (f x : nat) : expr := ECall f [v x].

(** ** C102: lints that change adaptors inside a chain *)
(** What the closures and the types have to be for the lint to be right. *)
Definition adaptor_lint (w : world) (fuel : nat) (t : types) (c c' : chain) : Prop :=
  (iter_map_identity c = Some c' /\ forall f d, c = IMap f d -> plain_closure f) \/
  (flat_map_identity c = Some c' /\ forall f d, c = IFlatMap f d -> plain_closure f) \/
  (filter_map_identity c = Some c' /\ forall f d, c = IFilterMap f d -> plain_closure f) \/
  (map_flatten t c = Some c' /\ forall f d, c = IFlatten (IMap f d) -> to_option t f = true -> returns_option w fuel f) \/
  (flat_map_option t c = Some c' /\ forall f d, c = IFlatMap f d -> to_option t f = true -> returns_option w fuel f) \/
  overeager_cloned c = Some c' \/
  unused_enumerate_chain c = Some c'.
Lemma adaptor_lint_alike : forall w fuel t c c', adaptor_lint w fuel t c c' -> alike w fuel c c'.
Proof.
  intros w fuel t c c' [[H P]|[[H P]|[[H P]|[[H P]|[[H P]|[H|H]]]]]].
  - apply iter_map_identity_alike; auto.
  - apply flat_map_identity_alike; auto.
  - apply filter_map_identity_alike; auto.
  - eapply map_flatten_alike; eauto.
  - eapply flat_map_option_alike; eauto.
  - apply overeager_cloned_alike; auto.
  - apply unused_enumerate_chain_alike; auto.
Qed.
(** Changed anywhere in a chain, whatever the closures do: every consumer gives the same result with the same effects in the
    same order, and so does every `for` loop over the chain. *)
Theorem iter_adaptors_partial : forall w fuel t c c', inside (adaptor_lint w fuel t) c c' ->
  (forall k s, fst (ieval w fuel (IRun c k) s) <> OStuck -> ieval w fuel (IRun c' k) s = ieval w fuel (IRun c k) s) /\
  (forall p b s, fst (for_loop w fuel p c b s) <> OStuck -> for_loop w fuel p c' b s = for_loop w fuel p c b s).
Proof.
  intros w fuel t c c' I. assert (A : alike w fuel c c') by (eapply inside_alike; [apply adaptor_lint_alike|exact I]).
  split; [exact (alike_run w fuel c c' A)|exact (alike_for w fuel c c' A)].
Qed.
Print Assumptions iter_adaptors_partial.
(** `[1, 2, 3].into_iter().map(|x| x).filter(|x| f7(..))`, an identity and a `cloned()` below other adaptors. *)
Example C102_nontrivial :
  let t := {| to_option := fun _ => false; option_typed := fun _ => false |} in
  let f := AC [PRef (pv 0)] (use 7 0) in
  let c := IFilter f (IMap (fn 0 (v 0)) (src [1; 2; 4]%Z)) in
  let d := IMap (fn 0 (use 5 0)) (IFilter f (ICloned (ISrc true (nums [1; 2; 4]%Z)))) in
  inside (adaptor_lint wp 9 t) c (IFilter f (src [1; 2; 4]%Z)) /\
  inside (adaptor_lint wp 9 t) d (IMap (fn 0 (use 5 0)) (ICloned (IFilter (AC [PRef (PRef (pv 0))] (use 7 0)) (ISrc true (nums [1; 2; 4]%Z))))) /\
  go (IRun c CCollect) = (OVal (arr [2; 4]%Z), [7; 7; 7]) /\ go (IRun d CCollect) = (OVal (arr [5; 5]%Z), [5; 7; 5; 7; 7]).
Proof.
  cbn zeta. repeat split; try (vm_compute; reflexivity).
  - apply In_filter, In_here. left. split; [reflexivity|]. intros f d E. injection E as <- <-. split; [|split; [constructor|exact I]]. intros x bs E. cbn in E. injection E as <-. repeat constructor. intros [].
  - apply In_map, In_here. do 5 right. left. reflexivity.
Qed.

(** ** C103: lints about the consumer *)
Theorem iter_consumers_exact : forall w fuel e e',
  filter_next e = Some e' \/ filter_map_next e = Some e' \/ iter_nth_zero e = Some e' \/ iter_skip_next e = Some e' \/
  manual_next_back e = Some e' \/ unused_enumerate_end e = Some e' ->
  forall s, ieval w fuel e' s = ieval w fuel e s.
Proof.
  intros w fuel e e' [H|[H|[H|[H|[H|H]]]]] s.
  - apply filter_next_sound; auto.
  - apply filter_map_next_sound; auto.
  - apply iter_nth_zero_sound; auto.
  - apply iter_skip_next_sound; auto.
  - apply manual_next_back_sound; auto.
  - apply unused_enumerate_end_sound; auto.
Qed.
Print Assumptions iter_consumers_exact.
Theorem iter_cloned_end_partial : forall w fuel e e', overeager_cloned_end e = Some e' ->
  forall s, fst (ieval w fuel e s) <> OStuck -> ieval w fuel e' s = ieval w fuel e s.
Proof. exact overeager_cloned_end_sound. Qed.
Print Assumptions iter_cloned_end_partial.
Theorem map_all_any_identity_partial : forall w fuel e e', map_all_any_identity e = Some e' ->
  (forall c f, e = IRun c (CAny f) \/ e = IRun c (CAll f) -> plain_closure f) ->
  forall s, fst (ieval w fuel e s) <> OStuck -> ieval w fuel e' s = ieval w fuel e s.
Proof. exact map_all_any_identity_sound. Qed.
Print Assumptions map_all_any_identity_partial.
(** `last()` of an iterator without effects is `next_back()`. *)
Theorem double_ended_last_partial : forall w fuel e e', double_ended_last e = Some e' ->
  forall s, (forall c, e = IRun c CLast -> effectless w fuel c s) -> ieval w fuel e' s = ieval w fuel e s.
Proof. exact double_ended_last_sound. Qed.
Print Assumptions double_ended_last_partial.
(** Of one with effects it is not: `[1, 2].into_iter().map(|x| f5(x)).last()` calls `f5` twice, `next_back()` once. *)
Theorem double_ended_last_effects_refuted : exists e e', double_ended_last e = Some e' /\
  go e = (OVal (some_v (VInt 5)), [5; 5]) /\ go e' = (OVal (some_v (VInt 5)), [5]).
Proof. exists (IRun (IMap (fn 0 (use 5 0)) (src [1; 2]%Z)) CLast). eexists. repeat split; vm_compute; reflexivity. Qed.
Print Assumptions double_ended_last_effects_refuted.
(** One of each. *)
Example C103_nontrivial :
  let ev := AC [PRef (pv 0)] (use 7 0) in let c := src [1; 2; 4]%Z in
  filter_next (IRun (IFilter ev c) CNextBack) = Some (IRun c (CRFind ev)) /\
  go (IRun (IFilter ev c) CNextBack) = (OVal (some_v (VInt 4)), [7]) /\
  iter_skip_next (IRun (ISkip (EInt 1) c) CNext) = Some (IRun c (CNth (EInt 1))) /\
  unused_enumerate_end (IRun (IEnumerate c) (CAny (AC [PData KTup [PWild; pv 0] None] (use 7 0)))) = Some (IRun c (CAny (fn 0 (use 7 0)))) /\
  overeager_cloned_end (IRun (ICloned (ISrc true (nums [1; 2]%Z))) (CFind ev)) =
    Some (ICloneOpt (IRun (ISrc true (nums [1; 2]%Z)) (CFind (AC [PRef (PRef (pv 0))] (use 7 0))))) /\
  fst (go (IRun (ICloned (ISrc true (nums [1; 2]%Z))) (CFind ev))) = OVal (some_v (VInt 2)) /\
  map_all_any_identity (IRun (IMap (fn 0 (use 7 0)) c) (CAny (fn 1 (v 1)))) = Some (IRun c (CAny (fn 0 (use 7 0)))) /\
  go (IRun (IMap (fn 0 (use 7 0)) c) (CAny (fn 1 (v 1)))) = (OVal (VBool true), [7; 7]) /\
  effectless wp 9 (IRev c) ([], []) /\ go (IRun (IRev c) CLast) = (OVal (some_v (VInt 1)), []).
Proof.
  cbn zeta. repeat split; try (vm_compute; reflexivity).
  intros d s' E. cbn in E. injection E as <- <-. eexists. split; [apply rev_yields, src_yields|]. cbn. lia.
Qed.

(** ** C104: `find(..).is_some()` *)
Theorem search_is_some_partial : forall w fuel e e', search_is_some e = Some e' ->
  (forall c f m, e = IMeth m (IRun c (CFind f)) [] -> searchable f) ->
  forall s, ieval w fuel e' s = ieval w fuel e s.
Proof. exact search_is_some_sound. Qed.
Print Assumptions search_is_some_partial.
Example C104_nontrivial :
  let e := IMeth MIsBad (IRun (IMap (fn 1 (use 5 1)) (src [1; 2]%Z)) (CFind (AC [PRef (pv 0)] (use 7 0)))) [] in
  search_is_some e = Some (INot (IRun (IMap (fn 1 (use 5 1)) (src [1; 2]%Z)) (CAny (fn 0 (use 7 0))))) /\
  go e = (OVal (VBool true), [7; 5; 7; 5]).
Proof. repeat split; vm_compute; reflexivity. Qed.

(** ** C105: `fold` *)
(** `fold(false, |acc, x| acc || e)` is `any(|x| e)`, `fold(true, |acc, x| acc && e)` is `all(|x| e)`: on an iterator without
    effects, where [e] does not use the accumulator. *)
Theorem fold_bool_partial : forall w fuel c z f e', standard_fold (IRun c (CFold (EBool z) f)) = Some e' ->
  forall e, simple_fold (if z then FAnd else FOr) f e -> is_boolean w fuel e -> plain_bools w ->
  forall s, effectless w fuel c s -> ieval w fuel e' s = ieval w fuel (IRun c (CFold (EBool z) f)) s.
Proof. exact fold_bool_sound. Qed.
Print Assumptions fold_bool_partial.
(** `fold(0, |acc, x| acc + x)` is `sum()` and `fold(1, |acc, x| acc * x)` is `product()`. *)
Theorem fold_number_partial : forall w fuel c z f e', standard_fold (IRun c (CFold (EInt z) f)) = Some e' ->
  simple_sum (if Z.eqb z 0 then FAdd else FMul) f -> commutative w ->
  forall s, ieval w fuel e' s = ieval w fuel (IRun c (CFold (EInt z) f)) s.
Proof. exact fold_number_sound. Qed.
Print Assumptions fold_number_partial.
Definition fold2 (b : expr) : arg := AC [pv 0; pv 1] b.
(** `[1, 2, 3].into_iter().map(|x| f5(x)).fold(false, |acc, x| acc || f8())`: `any` stops at the first. *)
Theorem fold_any_effects_refuted : exists e e', standard_fold e = Some e' /\
  go e = (OVal (VBool true), [5; 5; 8; 5]) /\ go e' = (OVal (VBool true), [8; 5]).
Proof.
  exists (IRun (IMap (fn 2 (use 5 2)) (src [1; 2; 3]%Z)) (CFold (EBool false) (fold2 (EOr (v 0) (ECall 8 []))))). eexists. repeat split; vm_compute; reflexivity.
Qed.
Print Assumptions fold_any_effects_refuted.
(** `fold(false, |acc, x| f8() || acc)` calls `f8` for every item, `any(|x| f8())` only once. *)
Theorem fold_any_swapped_refuted : exists e e', standard_fold e = Some e' /\
  go e = (OVal (VBool true), [8; 8; 8]) /\ go e' = (OVal (VBool true), [8]).
Proof. exists (IRun (src [1; 2; 3]%Z) (CFold (EBool false) (fold2 (EOr (ECall 8 []) (v 0))))). eexists. repeat split; vm_compute; reflexivity. Qed.
Print Assumptions fold_any_swapped_refuted.
(** `fold(false, |acc, x| acc || f8(acc))` becomes `any(|x| f8(acc))`: nothing is called `acc` there. *)
Theorem fold_any_accumulator_refuted : exists e e', standard_fold e = Some e' /\
  fst (go e) = OVal (VBool true) /\ fst (go e') = OStuck.
Proof. exists (IRun (src [1; 2; 3]%Z) (CFold (EBool false) (fold2 (EOr (v 0) (use 8 0))))). eexists. repeat split; vm_compute; reflexivity. Qed.
Print Assumptions fold_any_accumulator_refuted.
Example C105_nontrivial :
  let f := fold2 (EBlock None [] (Some (EOr (v 0) (use 7 1)))) in
  standard_fold (IRun (src [1; 2; 3]%Z) (CFold (EBool false) f)) = Some (IRun (src [1; 2; 3]%Z) (CAny (fn 1 (use 7 1)))) /\
  simple_fold FOr f (use 7 1) /\ plain_bools wp /\ effectless wp 9 (src [1; 2; 3]%Z) ([], []) /\
  go (IRun (src [1; 2; 3]%Z) (CFold (EBool false) f)) = (OVal (VBool true), [7; 7]) /\
  standard_fold (IRun (src [2; 3]%Z) (CFold (EInt 0) (fold2 (ECall f_add [v 1; v 0])))) = Some (IRun (src [2; 3]%Z) CSum) /\
  simple_sum FAdd (fold2 (ECall f_add [v 1; v 0])) /\ commutative wp /\
  fst (go (IRun (src [2; 3]%Z) (CFold (EInt 0) (fold2 (ECall f_add [v 1; v 0]))))) = OVal (VInt 5).
Proof.
  cbn zeta. split; [vm_compute; reflexivity|]. split; [exists 0, 1, (EBlock None [] (Some (EOr (v 0) (use 7 1)))), false; repeat split; auto; discriminate|]. split; [intros []; reflexivity|].
  split; [intros d s' E; cbn in E; injection E as <- <-; eexists; split; [apply src_yields|cbn; lia]|]. split; [vm_compute; reflexivity|]. split; [vm_compute; reflexivity|].
  split; [right; exists 0, 1, (ECall f_add [v 1; v 0]); repeat split; auto|]. split; [|vm_compute; reflexivity].
  intros f a b x [-> | ->]; cbn; destruct a, b; cbn; auto; f_equal; f_equal; f_equal; lia.
Qed.

(** ** C106: `filter` followed by `map` *)
Theorem manual_filter_map_method_partial : forall w fuel fp fx a1 r mx my t t0 m a a2 args c c',
  let e := IMap (AC [PBind r mx None] (EMeth t0 m a args)) (IFilter (AC [fp] (EMeth t MIsGood (EVar fx a1) [])) c) in
  manual_filter_map e = Some c' -> autoderef w -> receiver_of t my a2 a -> gives w fuel c (item_type t a2) -> quiet_args w fuel args ->
  forall k s, fst (ieval w fuel (IRun e k) s) <> OStuck -> ieval w fuel (IRun c' k) s = ieval w fuel (IRun e k) s.
Proof. intros. eapply alike_run; eauto. eapply manual_filter_map_method_alike; eauto. Qed.
Print Assumptions manual_filter_map_method_partial.
Theorem manual_find_map_method_partial : forall w fuel fp fx a1 r mx my t t0 m a a2 args c e',
  let e := IMeth MMap (IRun c (CFind (AC [fp] (EMeth t MIsGood (EVar fx a1) [])))) [AC [PBind r mx None] (EMeth t0 m a args)] in
  manual_find_map e = Some e' -> autoderef w -> receiver_of t my a2 a -> gives w fuel c (item_type t a2) -> quiet_args w fuel args ->
  forall s, fst (ieval w fuel e s) <> OStuck -> ieval w fuel e' s = ieval w fuel e s.
Proof. intros. eapply manual_find_map_method_sound; eauto. Qed.
Print Assumptions manual_find_map_method_partial.
Theorem manual_filter_map_pattern_partial : forall w fuel fp fx fz a1 a2 c ps dots mx my b c2 rb y y2 dots' th c0 c',
  let e := IMap (AC [PBind false mx None] b) (IFilter (only_variant fp fx a1 c ps dots) c0) in
  manual_filter_map e = Some c' -> ergonomic w -> adjusted fp fz a1 a2 -> Forall (fun p => p = PWild) ps ->
  picks b my a2 (PData (KCtor c2) [PBind rb y None] dots') th -> clean th -> peel_blocks th = EVar y2 false ->
  gives w fuel c0 (variant_item c (length ps) dots dots' a2) ->
  forall k s, fst (ieval w fuel (IRun e k) s) <> OStuck -> ieval w fuel (IRun c' k) s = ieval w fuel (IRun e k) s.
Proof. intros. eapply alike_run; eauto. eapply manual_filter_map_pattern_alike; eauto. Qed.
Print Assumptions manual_filter_map_pattern_partial.
Theorem manual_find_map_pattern_partial : forall w fuel fp fx fz a1 a2 c ps dots mx my b c2 rb y y2 dots' th c0 e',
  let e := IMeth MMap (IRun c0 (CFind (only_variant fp fx a1 c ps dots))) [AC [PBind false mx None] b] in
  manual_find_map e = Some e' -> ergonomic w -> adjusted fp fz a1 a2 -> Forall (fun p => p = PWild) ps ->
  picks b my a2 (PData (KCtor c2) [PBind rb y None] dots') th -> clean th -> peel_blocks th = EVar y2 false ->
  gives w fuel c0 (variant_item c (length ps) dots dots' a2) ->
  forall s, fst (ieval w fuel e s) <> OStuck -> ieval w fuel e' s = ieval w fuel e s.
Proof. intros. eapply manual_find_map_pattern_sound; eauto. Qed.
Print Assumptions manual_find_map_pattern_partial.
Theorem option_filter_map_partial : forall w fuel nm t f g c c', option_filter_map nm (IMap g (IFilter f c)) = Some c' ->
  t <> TBool -> autoderef w -> library w nm t -> tests t f -> unwraps t g -> gives w fuel c (fun v => view_of t v <> None) ->
  forall k s, fst (ieval w fuel (IRun (IMap g (IFilter f c)) k) s) <> OStuck -> ieval w fuel (IRun c' k) s = ieval w fuel (IRun (IMap g (IFilter f c)) k) s.
Proof. intros. eapply alike_run; eauto. eapply option_filter_map_alike; eauto. Qed.
Print Assumptions option_filter_map_partial.
(** `filter_map(|p| c.then(|| b))` is `filter(|&p| c).map(|p| b)` where [c] assigns no variable of [p]. *)
Theorem filter_map_bool_then_partial : forall w fuel p b r th c c', filter_map_bool_then (IFilterMap (AC [p] b) c) = Some c' ->
  peel_blocks b = EMeth TBool MThen r [AC [] th] -> clean b -> clean th -> (forall x, In x (pat_vars p) -> assigned x r = false) ->
  forall k s, fst (ieval w fuel (IRun (IFilterMap (AC [p] b) c) k) s) <> OStuck ->
    ieval w fuel (IRun c' k) s = ieval w fuel (IRun (IFilterMap (AC [p] b) c) k) s.
Proof. intros. eapply alike_run; eauto. eapply filter_map_bool_then_alike; eauto. Qed.
Print Assumptions filter_map_bool_then_partial.

Definition opts (l : list (option Z)) : expr := EData KArr (map (fun o => match o with Some z => some (EInt z) | None => none end) l).
Definition osrc (l : list (option Z)) : chain := ISrc false (opts l).
Definition is_good (x : nat) : expr := EMeth TOption MIsGood (EVar x true) [].
(** `[Some(3), Some(4)].into_iter().filter(|x| matches!(x, Some(3))).map(|x| match x { Some(y) => y, _ => panic!() })`: the
    `3` is lost. *)
Theorem manual_filter_map_subpattern_refuted : exists c c', manual_filter_map c = Some c' /\
  fst (god (IRun c CCollect)) = OVal (arr [3]%Z) /\ fst (god (IRun c' CCollect)) = OVal (arr [3; 4]%Z).
Proof.
  exists (IMap (fn 1 (EMatch false (v 1) [(psome (pv 2), None, v 2); (PWild, None, EPanic [])]))
    (IFilter (fn 0 (EMatch false (EVar 0 true) [(psome (PLit 3), None, EBool true); (PWild, None, EBool false)])) (osrc [Some 3; Some 4]%Z))).
  eexists. repeat split; vm_compute; reflexivity.
Qed.
Print Assumptions manual_filter_map_subpattern_refuted.
(** A guard of `matches!` is lost as well: `matches!(x, Some(_) if f7(0) == false)`. *)
Theorem manual_filter_map_guard_refuted : exists c c', manual_filter_map c = Some c' /\
  god (IRun c CCollect) = (OVal (arr []%Z), [7]) /\ god (IRun c' CCollect) = (OVal (arr [3]%Z), []).
Proof.
  exists (IMap (fn 1 (EMatch false (v 1) [(psome (pv 2), None, v 2); (PWild, None, EPanic [])]))
    (IFilter (fn 0 (EMatch false (EVar 0 true) [(psome PWild, Some (ENot (ECall 7 [EInt 0])), EBool true); (PWild, None, EBool false)])) (osrc [Some 3]%Z))).
  eexists. repeat split; vm_compute; reflexivity.
Qed.
Print Assumptions manual_filter_map_guard_refuted.
(** `filter(|x| x.is_some()).map(|x| x.unwrap_or(f5()))`: `f5` is not called any more. *)
Theorem manual_filter_map_argument_refuted : exists c c', manual_filter_map c = Some c' /\
  god (IRun c CCollect) = (OVal (arr [3]%Z), [5]) /\ god (IRun c' CCollect) = (OVal (arr [3]%Z), []).
Proof.
  exists (IMap (fn 1 (EMeth TOption MUnwrapOr (v 1) [AE (ECall 5 [])])) (IFilter (fn 0 (is_good 0)) (osrc [Some 3; None]%Z))).
  eexists. repeat split; vm_compute; reflexivity.
Qed.
Print Assumptions manual_filter_map_argument_refuted.
(** `filter(Option::is_some).map(unwrap)` with a function of this name that the user wrote. *)
Theorem option_filter_map_name_refuted : exists nm c c', option_filter_map nm c = Some c' /\
  god (IRun c CCollect) = (OVal (arr [6]%Z), [6]) /\ god (IRun c' CCollect) = (OVal (arr [3]%Z), []).
Proof.
  exists (fun m g => match m with MUnwrap => Nat.eqb g 6 | _ => false end), (IMap (AP (PFn 6)) (IFilter (fn 0 (is_good 0)) (osrc [Some 3; None]%Z))).
  eexists. repeat split; vm_compute; reflexivity.
Qed.
Print Assumptions option_filter_map_name_refuted.
(** `filter_map(|(mut x, y)| { x = f6(); true }.then(|| x))`: the item loses what the condition assigned. *)
Theorem filter_map_bool_then_assigns_refuted : exists c c', filter_map_bool_then c = Some c' /\
  fst (go (IRun c CCollect)) = OVal (arr [6]%Z) /\ fst (go (IRun c' CCollect)) = OVal (arr [1]%Z).
Proof.
  exists (IFilterMap (AC [PData KTup [pv 0; PWild] None] (EMeth TBool MThen (EBlock None [SSemi (EAssign 0 (ECall 6 []))] (Some (EBool true))) [AC [] (v 0)]))
    (ISrc false (EData KArr [EData KTup [EInt 1; EInt 2]]))).
  eexists. repeat split; vm_compute; reflexivity.
Qed.
Print Assumptions filter_map_bool_then_assigns_refuted.

Lemma wd_autoderef : autoderef wd. Proof. split; reflexivity. Qed.
Lemma wg_ergonomic : ergonomic wg.
Proof. split; [reflexivity|]. intros x. cbn. destruct (deref x); reflexivity. Qed.
(** A source that holds its items. *)
Lemma src_gives : forall w fuel r e vs P, (forall s d s', start w fuel (ISrc r e) s = (inl d, s') -> d = SList vs) -> Forall P vs -> gives w fuel (ISrc r e) P.
Proof.
  intros w fuel r e vs P S F. exists (fun d => exists us, d = SList us /\ Forall P us). split; [intros s d s' E; exists vs; split; eauto|].
  intros b d s (us & -> & H). cbn [pull pull_src]. destruct (pop b us) as [[u q]|] eqn:E.
  - destruct b; cbn in E.
    + destruct (rev us) as [|u0 q0] eqn:R; [discriminate|]. injection E as -> <-. assert (us = rev q0 ++ [u]) by (rewrite <- (rev_involutive us), R; reflexivity). subst us.
      apply Forall_app in H. destruct H as [H1 H2]. inversion H2; subst. split; eauto.
    + destruct us as [|u0 us]; [discriminate|]. injection E as -> ->. inversion H; subst. split; eauto.
  - eauto.
Qed.
Example C106_nontrivial :
  let c := osrc [Some 3; None; Some 4]%Z in
  let f := fn 0 (is_good 0) in let g := fn 1 (EMeth TOption MUnwrap (v 1) []) in
  let f2 := only_variant (pv 0) 0 true c_some [PWild] None in
  let g2 := fn 1 (EMatch false (v 1) [(psome (pv 2), None, v 2); (PWild, None, EPanic [])]) in
  manual_filter_map (IMap g (IFilter f c)) = Some (IFilterMap (fn 1 (v 1)) c) /\
  receiver_of TOption 1 false (v 1) /\ gives wd 9 c (item_type TOption false) /\ quiet_args wd 9 [] /\
  fst (god (IRun (IMap g (IFilter f c)) CCollect)) = OVal (arr [3; 4]%Z) /\
  option_filter_map (fun _ _ => false) (IMap g (IFilter f c)) = Some (IFlatten c) /\ tests TOption f /\ unwraps TOption g /\
  gives wd 9 c (fun v => view_of TOption v <> None) /\ library wd (fun _ _ => false) TOption /\
  manual_filter_map (IMap g2 (IFilter f2 c)) = Some (IFilterMap (fn 1 (variant_match 1 false (psome (pv 2)) 2)) c) /\
  adjusted (pv 0) 0 true false /\ gives wg 9 c (variant_item c_some 1 None None false) /\
  fst (let '(o, s) := ieval wg 9 (IRun (IMap g2 (IFilter f2 c)) CCollect) ([], []) in (o, snd s)) = OVal (arr [3; 4]%Z) /\
  manual_find_map (IMeth MMap (IRun c (CFind f)) [g]) = Some (IRun c (CFindMap (fn 1 (v 1)))) /\
  filter_map_bool_then (IFilterMap (fn 0 (EMeth TBool MThen (use 7 0) [AC [] (use 5 0)])) (src [1; 2; 4]%Z)) =
    Some (IMap (fn 0 (use 5 0)) (IFilter (AC [PRef (pv 0)] (use 7 0)) (src [1; 2; 4]%Z))) /\
  go (IRun (IFilterMap (fn 0 (EMeth TBool MThen (use 7 0) [AC [] (use 5 0)])) (src [1; 2; 4]%Z)) CCollect) = (OVal (arr [5; 5]%Z), [5; 7; 5; 7; 7]).
Proof.
  cbn zeta.
  assert (S : forall w s d s', start w 9 (osrc [Some 3; None; Some 4]%Z) s = (inl d, s') -> d = SList [some_v (VInt 3); none_v; some_v (VInt 4)]).
  { intros w s d s' E. cbn in E. injection E as <- _. reflexivity. }
  split; [vm_compute; reflexivity|]. split; [left; reflexivity|].
  split; [apply (src_gives _ _ _ _ _ _ (S wd)); repeat constructor; intros _; discriminate|]. split; [intros e []|]. split; [vm_compute; reflexivity|].
  split; [vm_compute; reflexivity|]. split; [right; exists false, 0, 0, true, (is_good 0); repeat split; reflexivity|].
  split; [right; exists false, 1, 1, false, (EMeth TOption MUnwrap (v 1) []), MUnwrap; repeat split; reflexivity|].
  split; [apply (src_gives _ _ _ _ _ _ (S wd)); repeat constructor; discriminate|]. split; [split; discriminate|]. split; [vm_compute; reflexivity|].
  split; [left; auto|]. split; [apply (src_gives _ _ _ _ _ _ (S wg)); repeat constructor; eexists _, _; (split; [reflexivity|]); cbn; intros; try discriminate; auto|].
  repeat split; vm_compute; reflexivity.
Qed.

(** ** C107: `for` loops *)
Theorem unused_enumerate_for_exact : forall w fuel l l', unused_enumerate_for l = Some l' ->
  forall s, for_loop w fuel (for_pat l') (for_iter l') (for_body l') s = for_loop w fuel (for_pat l) (for_iter l) (for_body l) s.
Proof. exact unused_enumerate_for_sound. Qed.
Print Assumptions unused_enumerate_for_exact.
(** `for x in c { if let Some(q) = x { body } }` is `for q in c.flatten() { body }`. *)
Theorem manual_flatten_partial : forall w fuel refutable copied l l' t (adj : bool) x th c q dots, manual_flatten refutable copied l = Some l' ->
  ergonomic w -> for_pat l = PBind false x None -> clean (for_body l) ->
  peel_blocks_with_stmt (for_body l) = EIfLet (PData (KCtor c) [q] dots) (EVar x adj) th None ->
  (c = c_some /\ t = TOption) \/ (c = c_ok /\ t = TResult) ->
  gives w fuel (for_iter l) (fun v => holder t copied adj v /\ (forall u, inside_of w c adj v = Some u -> match_pat q u <> None)) ->
  forall s, fst (for_loop w fuel (for_pat l) (for_iter l) (for_body l) s) <> ODiverge ->
  for_loop w fuel (for_pat l') (for_iter l') (for_body l') s = for_loop w fuel (for_pat l) (for_iter l) (for_body l) s.
Proof. exact manual_flatten_sound. Qed.
Print Assumptions manual_flatten_partial.
(** `for p in c { if cond { return Some(x); } } None` at the end of a function is `c.find(|x| cond)`, with `map` or `copied`
    around it as the pattern asks. *)
Theorem manual_find_partial : forall w fuel l tail e', manual_find true l tail = Some e' -> clean (for_body l) ->
  (forall cond th, peel_blocks_with_stmt (for_body l) = EIf cond th None -> forall x, one_binding (for_pat l) = Some x -> assigned x cond = false) ->
  (forall cond lb r x adj, peel_blocks_with_stmt (for_body l) = EIf cond (EBlock lb [SSemi (ERet (Some r))] None) None -> as_ctor c_some r = Some (EVar x adj) -> adj = false) ->
  (forall x sub, for_pat l = PBind false x (Some sub) -> False) -> (forall x r sub, for_pat l = PRef (PBind r x (Some sub)) -> False) ->
  forall s, fst (loop_fn w fuel l tail s) <> OStuck -> caught w (ieval w fuel e' s) = loop_fn w fuel l tail s.
Proof. exact manual_find_sound. Qed.
Print Assumptions manual_find_partial.
(** `for mut x in c { if { x = f6(); true } { return Some(x); } } None` returns what was assigned, `find` the item. *)
Theorem manual_find_assigns_refuted : exists l tail e', manual_find true l tail = Some e' /\
  fst (loop_fn wp 9 l tail ([], [])) = OVal (some_v (VInt 6)) /\ fst (ieval wp 9 e' ([], [])) = OVal (some_v (VInt 1)).
Proof.
  exists {| for_pat := pv 0; for_iter := src [1; 2]%Z;
            for_body := EBlock None [] (Some (EIf (EBlock None [SSemi (EAssign 0 (ECall 6 []))] (Some (EBool true))) (EBlock None [SSemi (ERet (Some (some (v 0))))] None) None)) |}, none.
  eexists. repeat split; vm_compute; reflexivity.
Qed.
Print Assumptions manual_find_assigns_refuted.
Example C107_nontrivial :
  let l := {| for_pat := PData KTup [PWild; pv 0] None; for_iter := IEnumerate (src [1; 2]%Z); for_body := EBlock None [SSemi (use 5 0)] None |} in
  let m := {| for_pat := pv 0; for_iter := osrc [Some 3; None; Some 4]%Z; for_body := EBlock None [] (Some (EIfLet (psome (pv 1)) (v 0) (EBlock None [SSemi (use 5 1)] None) None)) |} in
  let n := {| for_pat := PRef (pv 0); for_iter := ISrc true (nums [1; 2; 3]%Z);
              for_body := EBlock None [] (Some (EIf (use 7 0) (EBlock None [SSemi (ERet (Some (some (v 0))))] None) None)) |} in
  unused_enumerate_for l = Some {| for_pat := pv 0; for_iter := src [1; 2]%Z; for_body := EBlock None [SSemi (use 5 0)] None |} /\
  manual_flatten (fun _ => false) false m = Some {| for_pat := pv 1; for_iter := IFlatten (osrc [Some 3; None; Some 4]%Z); for_body := EBlock None [SSemi (use 5 1)] None |} /\
  gives wg 9 (for_iter m) (fun v => holder TOption false false v /\ (forall u, inside_of wg c_some false v = Some u -> match_pat (pv 1) u <> None)) /\
  for_loop wg 9 (for_pat m) (for_iter m) (for_body m) ([], []) = (OVal unit_v, ([], [5; 5])) /\
  manual_find true n none = Some (ICloneOpt (IRun (ISrc true (nums [1; 2; 3]%Z)) (CFind (AC [PRef (PRef (pv 0))] (use 7 0))))) /\
  clean (for_body n) /\ loop_fn wp 9 n none ([], []) = (OVal (some_v (VInt 2)), ([], [7; 7])).
Proof.
  cbn zeta. cbn [for_pat for_iter for_body]. split; [vm_compute; reflexivity|]. split; [vm_compute; reflexivity|].
  split; [|repeat split; vm_compute; reflexivity].
  apply (src_gives _ _ _ _ [some_v (VInt 3); none_v; some_v (VInt 4)]).
  - intros s d s' E. cbn in E. injection E as <- _. reflexivity.
  - repeat constructor; try (cbn; discriminate); intros u E; discriminate.
Qed.

(** ** C108: vectors collected to be asked once *)
Theorem needless_collect_len_exact : forall w fuel x c e', needless_collect x (IVec QLen (IRun c CCollect)) = Some e' ->
  forall s, ieval w fuel e' s = ieval w fuel (IVec QLen (IRun c CCollect)) s.
Proof. exact needless_collect_len_sound. Qed.
Print Assumptions needless_collect_len_exact.
Theorem needless_collect_partial : forall w fuel x e e', needless_collect x e = Some e' ->
  forall s, (forall q c, e = IVec q (IRun c CCollect) -> effectless w fuel c s) ->
  (forall a c, e = IVec (QContains a) (IRun c CCollect) -> local_used x a = false /\ just_value w fuel a) ->
  ieval w fuel e' s = ieval w fuel e s.
Proof. exact needless_collect_sound. Qed.
Print Assumptions needless_collect_partial.
(** `c.collect::<Vec<_>>().contains(&x)` with a variable called `x` becomes `c.any(|x| x == x)`. *)
Theorem needless_collect_capture_refuted : exists x e e', needless_collect x e = Some e' /\
  fst (ieval wp 9 e ([(x, VInt 5)], [])) = OVal (VBool false) /\ fst (ieval wp 9 e' ([(x, VInt 5)], [])) = OVal (VBool true).
Proof. exists 0, (IVec (QContains (v 0)) (IRun (src [1; 2]%Z) CCollect)). eexists. repeat split; vm_compute; reflexivity. Qed.
Print Assumptions needless_collect_capture_refuted.
(** `c.map(|x| f5(x)).collect::<Vec<_>>().is_empty()` calls `f5` for every item, `c.map(..).next().is_none()` for one. *)
Theorem needless_collect_effects_refuted : exists x e e', needless_collect x e = Some e' /\
  go e = (OVal (VBool false), [5; 5]) /\ go e' = (OVal (VBool false), [5]).
Proof. exists 0, (IVec QIsEmpty (IRun (IMap (fn 1 (use 5 1)) (src [1; 2]%Z)) CCollect)). eexists. repeat split; vm_compute; reflexivity. Qed.
Print Assumptions needless_collect_effects_refuted.
(** `contains(&f6())` calls `f6` once, `any(|x| x == f6())` for every item. *)
Theorem needless_collect_argument_refuted : exists x e e', needless_collect x e = Some e' /\
  go e = (OVal (VBool false), [6]) /\ go e' = (OVal (VBool false), [6; 6]).
Proof. exists 0, (IVec (QContains (ECall 6 [])) (IRun (src [1; 2]%Z) CCollect)). eexists. repeat split; vm_compute; reflexivity. Qed.
Print Assumptions needless_collect_argument_refuted.
Example C108_nontrivial :
  let e := IVec (QContains (EInt 2)) (IRun (IRev (src [1; 2]%Z)) CCollect) in
  needless_collect 0 e = Some (IRun (IRev (src [1; 2]%Z)) (CAny (fn 0 (EEq false (v 0) (EInt 2))))) /\
  effectless wp 9 (IRev (src [1; 2]%Z)) ([], []) /\ just_value wp 9 (EInt 2) /\ fst (go e) = OVal (VBool true).
Proof.
  cbn zeta. split; [vm_compute; reflexivity|]. split.
  - intros d s' E. cbn in E. injection E as <- <-. eexists. split; [apply rev_yields, src_yields|]. cbn. lia.
  - split; [intros s; eexists; reflexivity|vm_compute; reflexivity].
Qed.
