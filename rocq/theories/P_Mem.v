(* C127: the lint about loops that copy between slices (/repo/clippy_lints/src/loops/manual_memcpy.rs). *)
From Coq Require Import List ZArith Bool Lia.
Import ListNotations.
From Verif Require Import MemSpec MemModel MemProofs3.
Open Scope Z_scope.

(* A loop that the lint replaces, that goes round at least once and does not panic: the suggested copies do not
   panic either and leave every array as the loop does; and no variable, other than those the loop counts with, is
   changed by either.
   Partial: only for bodies of assignments and increments (the lint drops the other statements it accepts, see
   manual_memcpy_let_refuted and manual_memcpy_compound_refuted) that write to different arrays and do not read what
   they write (manual_memcpy_order_refuted), for ranges that are not empty (manual_memcpy_empty_refuted), do not end
   with the length of something inclusively (manual_memcpy_inclusive_refuted) or of something other than a variable
   (manual_memcpy_field_refuted), and if the sums in the suggestion do not overflow (manual_memcpy_counter_refuted). *)
Theorem manual_memcpy_partial :
  forall alen lo hi closed i inits body l s s' a b,
  check alen lo hi closed i inits body = Some l ->
  (forall q z, alen q = Some z -> size s q = z) ->
  (forall q, size s q < W) ->
  (forall x c, In (x, c) inits -> x <> i /\ ev s c = Some (var s x)) ->
  (forall c, In c body -> plain c = true) ->
  NoDup (dests body) -> (forall d, In d (dests body) -> ~ In d (sources body)) ->
  ev s lo = Some a -> ev s hi = Some b -> 0 < rounds closed a b ->
  (forall q, hi = ILen q -> closed = false /\ exists x, q = BLocal x) ->
  (forall e x z, In e (indices body) -> In x (vars e) -> In (SAdd x 1) body -> ev s e = Some z ->
     0 <= z - var s x + b /\ z + b < W) ->
  loop i lo hi closed body s = Some s' ->
  exists s'', run_copies s l = Some s'' /\ (forall q, arr s'' q = arr s' q) /\
    (forall x, var s'' x = var s x) /\
    (forall x, x <> i -> ~ In (SAdd x 1) body -> var s' x = var s x).
Proof. exact check_ok. Qed.
Print Assumptions manual_memcpy_partial.

Definition state (v : list (nat * Z)) (m : list (base * list Z)) : st :=
  {| var := fun x => match find (fun p => Nat.eqb (fst p) x) v with Some p => snd p | None => 0 end;
     arr := fun q => match find (fun p => base_eqb (fst p) q) m with Some p => snd p | None => [] end |}.

(* let mut n = 1; for i in 2..=4 { dst[i - 2] = src[i]; out[n + 1] = src[1 + i]; n += 1; } *)
Example C127_nontrivial :
  let dst := BLocal 0 in let src := BLocal 1 in let out := BLocal 2 in
  let body := [SCopy dst (ISub (IVar 9) (ILit 2)) src (IVar 9);
               SCopy out (IAdd (IVar 5) (ILit 1)) src (IAdd (ILit 1) (IVar 9)); SAdd 5 1] in
  let s := state [(5%nat, 1)] [(dst, [0; 0; 0]); (src, [10; 11; 12; 13; 14; 15]); (out, [1; 2; 3; 4; 5; 6; 7])] in
  let alen q := if base_eqb q dst then Some 3 else None in
  exists l, check alen (ILit 2) (ILit 4) true 9 [(5%nat, ILit 1)] body = Some l /\ length l = 2%nat /\
     (exists s', loop 9 (ILit 2) (ILit 4) true body s = Some s' /\
        arr s' dst = [12; 13; 14] /\ arr s' out = [1; 2; 13; 14; 15; 6; 7] /\
        exists s'', run_copies s l = Some s'' /\ arr s'' dst = arr s' dst /\ arr s'' out = arr s' out) /\
     NoDup (dests body) /\ (forall d, In d (dests body) -> ~ In d (sources body)).
Proof.
  intros dst src out body s alen.
  eexists; split; [vm_compute; reflexivity|]; split; [reflexivity|]; split; [|split].
  - eexists; split; [vm_compute; reflexivity|]; split; [reflexivity|]; split; [reflexivity|].
    eexists; split; [vm_compute; reflexivity|]; split; reflexivity.
  - cbn; constructor; [intros [Q|[]]; discriminate | constructor; [intros [] | constructor]].
  - intros d J K; cbn in J, K; destruct J as [<-|[<-|[]]], K as [K|[K|[]]]; discriminate.
Qed.

(* What the suggestion should be for any loop the lint accepts: if the loop ends, so do the copies, with the same
   arrays.  The lint's own conditions do not give this: *)
Definition faithful (alen : base -> option Z) (lo hi : ix) (closed : bool) (i : nat) (inits : list (nat * ix))
  (body : list stmt) (s : st) : Prop :=
  forall l s', check alen lo hi closed i inits body = Some l -> loop i lo hi closed body s = Some s' ->
    exists s'', run_copies s l = Some s'' /\ forall q, arr s'' q = arr s' q.
(* Nothing else is wrong with the state. *)
Definition proper (alen : base -> option Z) (i : nat) (inits : list (nat * ix)) (s : st) : Prop :=
  (forall q z, alen q = Some z -> size s q = z) /\ (forall q, size s q < W) /\
  (forall x c, In (x, c) inits -> x <> i /\ ev s c = Some (var s x)).

Lemma small : forall v m q, (forall p, In p m -> Z.of_nat (length (snd p)) < 100) -> size (state v m) q < W.
Proof.
  intros v m q H; unfold size; cbn [state arr]; destruct (find _ m) as [p|] eqn:F; [|reflexivity].
  apply find_some in F; specialize (H _ (proj1 F)); pose proof (eq_refl : 100 < W); lia.
Qed.
Ltac proper := split; [intros q z Q; discriminate Q|]; split;
  [intro q; apply small; intros p J; cbn [In] in J; repeat destruct J as [<-|J]; try contradiction; reflexivity
  |intros x c J; cbn [In] in J; repeat destruct J as [J|J]; try contradiction; try (injection J as <- <-; split; [discriminate | reflexivity])].
Ltac different := let F := fresh in let s := fresh in let R := fresh in let A := fresh in
  intro F; destruct (F _ _ eq_refl eq_refl) as [s [R A]]; vm_compute in R;
  first [discriminate R | injection R as <-; specialize (A (BLocal 0)); vm_compute in A; discriminate A
        |injection R as <-; specialize (A (BLocal 1)); vm_compute in A; discriminate A
        |injection R as <-; specialize (A (BPath 0)); vm_compute in A; discriminate A].

(* for i in 5..3 { a[i] = b[i]; } does nothing; a[5..3].copy_from_slice(&b[5..3]) panics. *)
Theorem manual_memcpy_empty_refuted : exists alen lo hi closed i inits body s,
  proper alen i inits s /\ (forall c, In c body -> plain c = true) /\
  check alen lo hi closed i inits body <> None /\ loop i lo hi closed body s <> None /\
  ~ faithful alen lo hi closed i inits body s.
Proof.
  exists (fun _ => None), (ILit 5), (ILit 3), false, 9%nat, [], [SCopy (BLocal 0) (IVar 9) (BLocal 1) (IVar 9)],
    (state [] [(BLocal 0, [1]); (BLocal 1, [2])]).
  split; [proper|]; split; [intros c [<-|[]]; reflexivity|]; split; [discriminate|]; split; [discriminate|].
  different.
Qed.
Print Assumptions manual_memcpy_empty_refuted.

(* for i in 0..2 { let k = 1; a[i + k] = b[i]; }: the declaration is dropped, the suggestion still mentions k. *)
Theorem manual_memcpy_let_refuted : exists alen lo hi closed i inits body s,
  proper alen i inits s /\ NoDup (dests body) /\
  check alen lo hi closed i inits body <> None /\ loop i lo hi closed body s <> None /\
  ~ faithful alen lo hi closed i inits body s.
Proof.
  exists (fun _ => None), (ILit 0), (ILit 2), false, 9%nat, [],
    [SLet 8 (ILit 1); SCopy (BLocal 0) (IAdd (IVar 9) (IVar 8)) (BLocal 1) (IVar 9)],
    (state [] [(BLocal 0, [1; 1; 1]); (BLocal 1, [2; 3; 4])]).
  split; [proper|]; split; [cbn; constructor; [intros [] | constructor]|]; split; [discriminate|]; split; [discriminate|].
  different.
Qed.
Print Assumptions manual_memcpy_let_refuted.

(* for i in 0..2 { a[i] = b[i]; n[0] += 1; }: the filter for increments of counters drops every compound assignment
   to something other than a variable. *)
Theorem manual_memcpy_compound_refuted : exists alen lo hi closed i inits body s,
  proper alen i inits s /\ NoDup (dests body) /\ inits = [] /\
  (exists b e k, In (SAddAt b e k) body) /\
  check alen lo hi closed i inits body <> None /\ loop i lo hi closed body s <> None /\
  ~ faithful alen lo hi closed i inits body s.
Proof.
  exists (fun _ => None), (ILit 0), (ILit 2), false, 9%nat, [],
    [SCopy (BLocal 2) (IVar 9) (BLocal 1) (IVar 9); SAddAt (BLocal 0) (ILit 0) 1],
    (state [] [(BLocal 0, [0]); (BLocal 1, [2; 3; 4]); (BLocal 2, [0; 0])]).
  split; [proper|]; split; [cbn; constructor; [intros [] | constructor]|]; split; [reflexivity|].
  split; [do 3 eexists; right; left; reflexivity|]; split; [discriminate|]; split; [discriminate|].
  different.
Qed.
Print Assumptions manual_memcpy_compound_refuted.

(* for i in 0..2 { c[i] = b[i]; b[i + 1] = a[i]; }: the copies run one after the other, the loop alternates. *)
Theorem manual_memcpy_order_refuted : exists alen lo hi closed i inits body s,
  proper alen i inits s /\ (forall c, In c body -> plain c = true) /\ NoDup (dests body) /\
  check alen lo hi closed i inits body <> None /\ loop i lo hi closed body s <> None /\
  ~ faithful alen lo hi closed i inits body s.
Proof.
  exists (fun _ => None), (ILit 0), (ILit 2), false, 9%nat, [],
    [SCopy (BLocal 0) (IVar 9) (BLocal 1) (IVar 9); SCopy (BLocal 1) (IAdd (IVar 9) (ILit 1)) (BLocal 2) (IVar 9)],
    (state [] [(BLocal 0, [0; 0]); (BLocal 1, [2; 3; 4]); (BLocal 2, [7; 8])]).
  split; [proper|]; split; [intros c [<-|[<-|[]]]; reflexivity|].
  split; [cbn; constructor; [intros [Q|[]]; discriminate | constructor; [intros [] | constructor]]|]; split; [discriminate|]; split; [discriminate|].
  different.
Qed.
Print Assumptions manual_memcpy_order_refuted.

(* for i in 1..=a.len() { a[i - 1] = b[i]; }: if the range ends with a length, that it is inclusive is forgotten. *)
Theorem manual_memcpy_inclusive_refuted : exists alen lo hi i inits body s,
  proper alen i inits s /\ (forall c, In c body -> plain c = true) /\ NoDup (dests body) /\
  check alen lo hi true i inits body <> None /\ loop i lo hi true body s <> None /\
  ~ faithful alen lo hi true i inits body s.
Proof.
  exists (fun _ => None), (ILit 1), (ILen (BLocal 0)), 9%nat, [],
    [SCopy (BLocal 0) (ISub (IVar 9) (ILit 1)) (BLocal 1) (IVar 9)],
    (state [] [(BLocal 0, [0; 0]); (BLocal 1, [2; 3; 4])]).
  split; [proper|]; split; [intros c [<-|[]]; reflexivity|].
  split; [cbn; constructor; [intros [] | constructor]|]; split; [discriminate|]; split; [discriminate|].
  different.
Qed.
Print Assumptions manual_memcpy_inclusive_refuted.

(* for i in 0..self.a.len() { self.b[i] = c[i]; }: neither self.a nor self.b is a variable, and so they are taken to
   be the same: self.b[..].copy_from_slice(&c[..self.a.len()]) *)
Theorem manual_memcpy_field_refuted : exists alen lo hi i inits body s,
  proper alen i inits s /\ (forall c, In c body -> plain c = true) /\ NoDup (dests body) /\
  check alen lo hi false i inits body <> None /\ loop i lo hi false body s <> None /\
  ~ faithful alen lo hi false i inits body s.
Proof.
  exists (fun _ => None), (ILit 0), (ILen (BPath 0)), 9%nat, [],
    [SCopy (BPath 1) (IVar 9) (BLocal 1) (IVar 9)],
    (state [] [(BPath 0, [0; 0]); (BPath 1, [0; 0; 0; 0]); (BLocal 1, [2; 3; 4])]).
  split; [proper|]; split; [intros c [<-|[]]; reflexivity|].
  split; [cbn; constructor; [intros [] | constructor]|]; split; [discriminate|]; split; [discriminate|].
  different.
Qed.
Print Assumptions manual_memcpy_field_refuted.

(* let mut n = 5; for i in 0..2 { a[n - 5] = b[i]; n += 1; }: the limit is 2 - 5 + 5, which overflows. *)
Theorem manual_memcpy_counter_refuted : exists alen lo hi i inits body s,
  proper alen i inits s /\ (forall c, In c body -> plain c = true) /\ NoDup (dests body) /\
  check alen lo hi false i inits body <> None /\ loop i lo hi false body s <> None /\
  ~ faithful alen lo hi false i inits body s.
Proof.
  exists (fun _ => None), (ILit 0), (ILit 2), 9%nat, [(5%nat, ILit 5)],
    [SCopy (BLocal 0) (ISub (IVar 5) (ILit 5)) (BLocal 1) (IVar 9); SAdd 5 1],
    (state [(5%nat, 5)] [(BLocal 0, [0; 0]); (BLocal 1, [2; 3; 4])]).
  split; [proper|]; split; [intros c [<-|[<-|[]]]; reflexivity|].
  split; [cbn; constructor; [intros [] | constructor]|]; split; [discriminate|]; split; [discriminate|].
  different.
Qed.
Print Assumptions manual_memcpy_counter_refuted.
