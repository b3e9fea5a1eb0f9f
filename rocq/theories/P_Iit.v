(* C140: iterators that are detected as infinite *)
From Coq Require Import List Bool PeanoNat.
Import ListNotations.
From Verif Require Import IitSpec IitModel IitProofs.

(* What consumes the iterator does not end.  Partial: where cycle() is only called on iterators that have an item, and sum() and product()
   do not make an Option or a Result. *)
Theorem infinite_iter_partial : forall fn pred opt flat c e,
  complete_infinite_iter c e = Infinite -> cycles_ok fn pred opt flat e -> (forall p, c <> CSum (Some p)) ->
  forall fuel, consume fn pred opt flat (stops c) fuel (start e) = None.
Proof.
  intros fn pred opt flat c e H C N fuel. apply inf_consume.
  - intros x. destruct c as [|[p|]|p|d|[|] p]; cbn; try reflexivity; cbn in H.
    + destruct (N p eq_refl).
    + destruct (is_infinite e); discriminate.
    + discriminate.
  - apply infinite_inf; [|exact C]. destruct c as [|p|p|[|]|[|] p]; cbn in H; try exact H; try discriminate. destruct (is_infinite e); discriminate.
Qed.
Print Assumptions infinite_iter_partial.

Definition fn0 (f x : nat) : nat := f + x.
Definition pred0 (f x : nat) : bool := Nat.leb x f.
Definition opt0 (f x : nat) : option nat := if Nat.leb f x then Some x else None.
Definition flat0 (f x : nat) : iter := IList [x; f].
(* [1, 2].chain(0..).flat_map(f).filter(p).zip([3].cycle()).enumerate() *)
Definition pipeline : expr :=
  EMethod Enumerate (EMethod Zip (EMethod Filter (EMethod Flat_map (EMethod Chain (EOther [1; 2]) (Some (ERange 0 None)) 0) None 9) None 50)
                                 (Some (EMethod Cycle (EOther [3]) None 0)) 0) None 0.
Example C140_nontrivial :
  complete_infinite_iter CAll pipeline = Infinite /\ cycles_ok fn0 pred0 opt0 flat0 pipeline /\
  next fn0 pred0 opt0 flat0 20 (start pipeline) = Some_ 4 (IEnumerate 1 (IZip (IFilter 50 (IFlat 9 (Some (IList [9])) (IChain (Some (IList [2])) (IFrom 0)))) (ICycle (IList [3]) (IList [])))) /\
  complete_infinite_iter (CFind (fun _ => true)) pipeline = MaybeInfinite /\
  complete_infinite_iter CAll (EMethod Take_while pipeline None 1) = MaybeInfinite /\
  complete_infinite_iter CAll (EMethod Take pipeline None 1) = Finite /\
  complete_infinite_iter CAll (EMethod Zip pipeline (Some (EOther [1])) 1) = Finite /\
  consume fn0 pred0 opt0 flat0 (fun _ => false) 20 (start (EMethod Zip pipeline (Some (EOther [1; 2])) 1)) = Some tt.
Proof.
  split; [reflexivity|]. split.
  { cbn. repeat (split; [try discriminate; try exact Logic.I|]); try exact Logic.I; repeat split; try discriminate. intros _ [|fuel]; discriminate. }
  repeat split; vm_compute; reflexivity.
Qed.

(* [].iter().cycle().count() is reported, and ends *)
Theorem infinite_iter_cycle_refuted : exists fn pred opt flat e fuel,
  complete_infinite_iter CAll e = Infinite /\ consume fn pred opt flat (stops CAll) fuel (start e) = Some tt.
Proof. exists fn0, pred0, opt0, flat0, (EMethod Cycle (EOther []) None 0), 5. split; reflexivity. Qed.
Print Assumptions infinite_iter_cycle_refuted.
(* (0..).map(f).sum::<Option<_>>() is reported, and ends if f gives None *)
Theorem infinite_iter_sum_refuted : exists fn pred opt flat e c fuel,
  complete_infinite_iter c e = Infinite /\ cycles_ok fn pred opt flat e /\ consume fn pred opt flat (stops c) fuel (start e) = Some tt.
Proof.
  exists fn0, pred0, opt0, flat0, (EMethod Map (ERange 0 None) None 3), (CSum (Some (Nat.leb 5))), 9.
  split; [reflexivity|]. split; [repeat split; discriminate|]. vm_compute. reflexivity.
Qed.
Print Assumptions infinite_iter_sum_refuted.
(* Closures of flat_map that give infinite iterators are not found, though the code has a case for them (160-166) *)
Theorem infinite_iter_flat_map_refuted : exists fn pred opt flat e,
  complete_infinite_iter CAll e = Finite /\ forall fuel, consume fn pred opt flat (stops CAll) fuel (start e) = None.
Proof.
  exists fn0, pred0, opt0, (fun _ _ => IRepeat 1), (EMethod Flat_map (EOther [1]) None 0). split; [reflexivity|].
  assert (X : forall fuel, consume fn0 pred0 opt0 (fun _ _ => IRepeat 1) (stops CAll) fuel (IFlat 0 (Some (IRepeat 1)) (IList [])) = None).
  { intros fuel. induction fuel as [|[|[|fuel]] IH]; try reflexivity. cbn in *. exact IH. }
  intros [|[|[|[|fuel]]]]; try reflexivity. cbn [start]. cbn. destruct fuel; [reflexivity|]. apply (X (S (S (S fuel)))).
Qed.
Print Assumptions infinite_iter_flat_map_refuted.
