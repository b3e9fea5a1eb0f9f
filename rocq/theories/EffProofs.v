(* Lemmas for P_Eff.v. *)
From Coq Require Import List ZArith Bool Lia.
Import ListNotations.
From Verif Require Import EffSpec EffModel.
Open Scope Z_scope.

Scheme expr_mut := Induction for expr Sort Prop with exprs_mut := Induction for exprs Sort Prop.
Combined Scheme expr_both from expr_mut, exprs_mut.

Fixpoint drops_inert (v : value) : drops (inert v) = [].
Proof.
  destruct v as [z|b|v|l|d l]; cbn [inert drops]; try reflexivity.
  - induction l as [|v l IH]; cbn [map flat_map]; [reflexivity | rewrite drops_inert, IH; reflexivity].
  - cbn [app]; induction l as [|v l IH]; cbn [map flat_map]; [reflexivity | rewrite drops_inert, IH; reflexivity].
Qed.

Section Proofs.
Variable env : nat -> value.
Variable calls : nat -> list value -> list event -> option value.
Notation run := (run env calls).
Notation runs := (runs env calls).

Lemma run_list : forall place array l h, run place (EList array l) h =
  match runs l h with
  | (h, Some (vs, t)) => (h, Some (held place (if array then VSeq vs else VAgg None vs) t))
  | (h, None) => (h, None)
  end.
Proof. reflexivity. Qed.
Lemma run_ctor : forall place d l h, run place (ECtor d l) h =
  match runs l h with (h, Some (vs, t)) => (h, Some (held place (VAgg d vs) t)) | (h, None) => (h, None) end.
Proof. reflexivity. Qed.
Lemma run_call : forall place f l h, run place (ECall f l) h =
  match runs l h with (h, Some (vs, t)) => called calls place f vs t h | (h, None) => (h, None) end.
Proof. reflexivity. Qed.
Lemma runs_cons : forall e l h, runs (Econs e l) h =
  match run false e h with
  | (h, Some (v, t)) =>
      match runs l h with (h, Some (vs, u)) => (h, Some (v :: vs, u ++ t)) | (h, None) => (h, None) end
  | (h, None) => (h, None)
  end.
Proof. reflexivity. Qed.

Lemma held_quiet : forall place v t, drops v = [] -> flat_map drops t = [] ->
  drops (fst (held place v t)) = [] /\ flat_map drops (snd (held place v t)) = [].
Proof.
  intros place v t V T; destruct place; cbn [held fst snd flat_map]; [|auto].
  rewrite drops_inert, V, T; auto.
Qed.
Lemma flat_nil : forall s t, flat_map drops s = [] -> flat_map drops t = [] -> flat_map drops (t ++ s) = [].
Proof. intros s t S T; rewrite flat_map_app, S, T; reflexivity. Qed.
Lemma binary_quiet : forall o u v w, binary o u v = Some w -> drops w = [].
Proof.
  intros o u v w; unfold binary, fits; intro Q.
  destruct u, v, o; repeat match type of Q with (if ?c then _ else _) = _ => destruct c end; try discriminate; injection Q as <-; reflexivity.
Qed.
Lemma fits_quiet : forall z w, fits z = Some w -> drops w = [].
Proof. intros z w; unfold fits; destruct (_ && _); intro Q; [injection Q as <-; reflexivity | discriminate]. Qed.
Lemma repeat_quiet : forall v n, drops v = [] -> drops (VSeq (repeat v n)) = [].
Proof. intros v n V; cbn [drops]; induction n as [|n IH]; cbn [repeat flat_map]; [reflexivity | rewrite V, IH; reflexivity]. Qed.

(* What a result without destructors is *)
Definition clean (r : option (value * list value)) : Prop :=
  forall v t, r = Some (v, t) -> drops v = [] /\ flat_map drops t = [].
Definition cleans (r : option (list value * list value)) : Prop :=
  forall v t, r = Some (v, t) -> flat_map drops v = [] /\ flat_map drops t = [].
Lemma clean_some : forall v t, drops v = [] -> flat_map drops t = [] -> clean (Some (v, t)).
Proof. intros v t V T u s Q; injection Q as <- <-; auto. Qed.
Lemma clean_none : clean None.
Proof. intros u s Q; discriminate. Qed.
Lemma clean_held : forall place v t, drops v = [] -> flat_map drops t = [] -> clean (Some (held place v t)).
Proof.
  intros place v t V T u s Q; destruct (held_quiet place v t V T) as [A B]; injection Q as Q; rewrite Q in *; auto.
Qed.

(* no_effect *)
Section NoEffect.
Variable sig : expr -> bool.
Hypothesis Hsig : forall e h h' v t, sig e = false -> run false e h = (h', Some (v, t)) -> drops v = [].

Definition still (e : expr) : Prop :=
  has_no_effect sig e = true -> builtin e = true -> (forall x, In x (captures e) -> drops (env x) = []) ->
  forall place h, fst (run place e h) = h /\ clean (snd (run place e h)) /\ (total e = true -> snd (run place e h) <> None).
Definition stills (l : exprs) : Prop :=
  have_no_effect sig l = true -> builtins l = true -> (forall x, In x (capturess l) -> drops (env x) = []) ->
  forall h, fst (runs l h) = h /\ cleans (snd (runs l h)) /\ (totals l = true -> snd (runs l h) <> None).

Lemma path_quiet : forall x, sig (EPath x) = false -> drops (env x) = [].
Proof. intros x Q; exact (Hsig (EPath x) [] [] (env x) [] Q eq_refl). Qed.

Lemma no_effect_still : (forall e, still e) /\ (forall l, stills l).
Proof.
  apply expr_both; unfold still, stills; cbn [has_no_effect have_no_effect builtin builtins captures capturess total totals].
  - intros z _ _ _ place h; cbn [EffSpec.run fst snd]; split; [reflexivity|]; split; [|discriminate].
    apply clean_some; reflexivity.
  - intros x N _ _ place h; apply negb_true_iff, path_quiet in N; cbn [EffSpec.run fst snd].
    split; [reflexivity|]; split; [|discriminate].
    apply clean_some; [destruct place; [apply drops_inert | exact N] | reflexivity].
  - intros xs _ _ C place h; cbn [EffSpec.run fst snd]; split; [reflexivity|]; split; [|discriminate].
    apply clean_held; [|reflexivity]; cbn [drops app]; induction xs as [|x xs IH]; cbn [map flat_map]; [reflexivity|].
    rewrite (C x (or_introl eq_refl)), IH; [reflexivity|]; intros y J; apply C; right; exact J.
  - (* index *)
    intros a IHa b IHb [f|] N B C place h; [discriminate|].
    apply andb_prop in N; destruct N as [Na Nb]; apply andb_prop in B; destruct B as [Ba Bb].
    destruct (IHa Na Ba (fun x J => C x (in_or_app _ _ _ (or_introl J))) true h) as [A1 [A2 A3]].
    cbn [EffSpec.run]; destruct (run true a h) as [h1 [[u s]|]]; cbn [fst snd] in *; subst h1;
      [|split; [reflexivity|]; split; [apply clean_none | discriminate]].
    destruct (IHb Nb Bb (fun x J => C x (in_or_app _ _ _ (or_intror J))) false h) as [B1 [B2 B3]].
    destruct (run false b h) as [h1 [[v t]|]]; cbn [fst snd] in *; subst h1;
      [|split; [reflexivity|]; split; [apply clean_none | discriminate]].
    split; [reflexivity|]; split; [|discriminate].
    destruct (at_index u v); [|apply clean_none].
    apply clean_some; [apply drops_inert|]; apply flat_nil; [apply (A2 _ _ eq_refl) | apply (B2 _ _ eq_refl)].
  - (* binary *)
    intros o a IHa b IHb [f|] N B C place h; [discriminate|].
    apply andb_prop in N; destruct N as [Na Nb]; apply andb_prop in B; destruct B as [Ba Bb].
    destruct (IHa Na Ba (fun x J => C x (in_or_app _ _ _ (or_introl J))) false h) as [A1 [A2 A3]].
    cbn [EffSpec.run]; destruct (run false a h) as [h1 [[u s]|]]; cbn [fst snd] in *; subst h1;
      [|split; [reflexivity|]; split; [apply clean_none|]; intros T _; apply A3; [|reflexivity];
        destruct o; try discriminate; apply andb_prop in T; tauto].
    destruct (IHb Nb Bb (fun x J => C x (in_or_app _ _ _ (or_intror J))) false h) as [B1 [B2 B3]].
    assert (Sh : forall v', drops v' = [] -> clean (Some (v', s))) by (intros v' V; apply clean_some; [exact V | apply (A2 _ _ eq_refl)]).
    assert (G : forall (oo : bop), (match oo with Add | Sub | Div => false | _ => true end = true -> match o with Add | Sub | Div => false | _ => true end = true) ->
       (match o with Lt | And | Or => total a && total b | _ => false end = true -> total b = true)) by
      (intros _ _ T; destruct o; try discriminate; apply andb_prop in T; tauto).
    specialize (G o (fun x => x)).
    destruct (run false b h) as [h1 [[v t]|]]; cbn [fst snd] in *; subst h1.
    + assert (Fl : flat_map drops (t ++ s) = []) by (apply flat_nil; [apply (A2 _ _ eq_refl) | apply (B2 _ _ eq_refl)]).
      assert (Cv : clean (Some (v, t ++ s))) by (apply clean_some; [apply (B2 _ _ eq_refl) | exact Fl]).
      destruct o; try (destruct u as [z|[|]|r|l|d l]);
        try solve [cbn [fst snd]; split; [reflexivity|]; split; [first [exact Cv | apply Sh; reflexivity] | discriminate]];
        cbn [fst snd]; (split; [reflexivity|]; split;
          [match goal with |- clean (match ?x with _ => _ end) => destruct x eqn:Q end;
             [apply clean_some; [apply (binary_quiet _ _ _ _ Q) | exact Fl] | apply clean_none]
          |intro T; try discriminate T; try (destruct v; discriminate)]).
    + destruct o; try (destruct u as [z|[|]|r|l|d l]); cbn [fst snd];
        try solve [split; [reflexivity|]; split; [apply Sh; reflexivity | discriminate]];
        (split; [reflexivity|]; split; [apply clean_none|]; intros T _; first [discriminate T | exact (B3 (G T) eq_refl)]).
  - (* list *)
    intros array l IH N B C place h; destruct (IH N B C h) as [A1 [A2 A3]].
    rewrite run_list; destruct (runs l h) as [h1 [[vs t]|]]; cbn [fst snd] in *; subst h1.
    + split; [reflexivity|]; split; [|discriminate]; destruct (A2 _ _ eq_refl) as [V T].
      apply clean_held; [destruct array; exact V | exact T].
    + split; [reflexivity|]; split; [apply clean_none|]; intros T _; exact (A3 T eq_refl).
  - (* wrap *)
    intros w e IH [f|] N B C place h; [discriminate|].
    cbn [EffSpec.run].
    destruct (IH N B C (match w with Field _ | AddrOf | Deref => true | Cast | Ascribe => place | _ => false end) h) as [A1 [A2 A3]].
    destruct (run _ e h) as [h1 [[v t]|]]; cbn [fst snd] in *; subst h1.
    + destruct (A2 _ _ eq_refl) as [V T].
      destruct w as [[|n]| | | | | |k|]; cbn [fst snd]; (split; [reflexivity|]; split; [|try discriminate]).
      * apply clean_some; [reflexivity|]; cbn [flat_map]; rewrite V, T; reflexivity.
      * apply clean_held; [apply repeat_quiet; exact V | exact T].
      * apply clean_some; assumption.
      * apply clean_some; assumption.
      * apply clean_some; [apply drops_inert | exact T].
      * destruct v; try (apply clean_some; assumption).
        destruct (fits (- z)) eqn:F; [apply clean_some; [apply (fits_quiet _ _ F) | exact T] | apply clean_none].
      * apply clean_some; [destruct v; try exact V; reflexivity | exact T].
      * apply clean_some; [apply drops_inert | exact T].
      * apply clean_some; [reflexivity | exact T].
    + split; [reflexivity|]; split; [apply clean_none|]; intros T _; apply A3; [|reflexivity]; destruct w; try discriminate; exact T.
  - (* constructors *)
    intros d l IH N B C place h; apply andb_prop in N; destruct N as [N1 N2]; apply negb_true_iff in N1.
    destruct (IH N2 B C h) as [A1 [A2 A3]].
    pose proof (fun h' v t => Hsig _ h h' v t N1) as S; rewrite run_ctor in S |- *; cbn [held] in S.
    destruct (runs l h) as [h1 [[vs t]|]]; cbn [fst snd] in *; subst h1.
    + split; [reflexivity|]; split; [|discriminate].
      apply clean_held; [apply (S h _ t eq_refl) | apply (A2 _ _ eq_refl)].
    + split; [reflexivity|]; split; [apply clean_none|]; intros T _; exact (A3 T eq_refl).
  - discriminate.
  - discriminate.
  - intros _ _ _ h; cbn [EffSpec.runs fst snd]; split; [reflexivity|]; split; [|discriminate].
    intros v t Q; injection Q as <- <-; auto.
  - intros e IHe l IHl N B C h.
    apply andb_prop in N; destruct N as [Na Nb]; apply andb_prop in B; destruct B as [Ba Bb].
    destruct (IHe Na Ba (fun x J => C x (in_or_app _ _ _ (or_introl J))) false h) as [A1 [A2 A3]].
    rewrite runs_cons; destruct (run false e h) as [h1 [[u s]|]]; cbn [fst snd] in *; subst h1.
    + destruct (IHl Nb Bb (fun x J => C x (in_or_app _ _ _ (or_intror J))) h) as [B1 [B2 B3]].
      destruct (runs l h) as [h1 [[vs t]|]]; cbn [fst snd] in *; subst h1.
      * split; [reflexivity|]; split; [|discriminate].
        intros v' t' Q; injection Q as <- <-; destruct (A2 _ _ eq_refl), (B2 _ _ eq_refl).
        split; [cbn [flat_map]; rewrite H, H1; reflexivity | apply flat_nil; assumption].
      * split; [reflexivity|]; split; [intros v' t' Q; discriminate|]; intros T _; apply andb_prop in T; exact (B3 (proj2 T) eq_refl).
    + split; [reflexivity|]; split; [intros v' t' Q; discriminate|]; intros T _; apply andb_prop in T; exact (A3 (proj1 T) eq_refl).
Qed.
End NoEffect.

(* unnecessary_operation *)
Hypothesis Henv : forall x, drops (env x) = [].
Hypothesis Hcalls : forall f a h v, calls f a h = Some v -> drops v = [].

Lemma called_clean : forall place f args t h, flat_map drops t = [] -> clean (snd (called calls place f args t h)).
Proof.
  intros place f args t h T; unfold called, call; cbn [snd].
  destruct (calls f args h) eqn:Q; [apply clean_held; [apply (Hcalls _ _ _ _ Q) | exact T] | apply clean_none].
Qed.
Lemma dropless_clean :
  (forall e, dropless e = true -> forall place h, clean (snd (run place e h))) /\
  (forall l, droplesses l = true -> forall h, cleans (snd (runs l h))).
Proof.
  apply expr_both; cbn [dropless droplesses].
  - intros z _ place h; apply clean_some; reflexivity.
  - intros x _ place h; apply clean_some; [destruct place; [apply drops_inert | apply Henv] | reflexivity].
  - intros xs _ place h; apply clean_held; [|reflexivity]; cbn [drops app]; induction xs as [|x xs IH]; cbn [map flat_map]; [reflexivity|].
    rewrite (Henv x), IH; reflexivity.
  - intros a IHa b IHb ov D place h; apply andb_prop in D; destruct D as [Da Db].
    cbn [EffSpec.run]; pose proof (IHa Da true h) as A; destruct (run true a h) as [h1 [[u s]|]]; [|apply clean_none].
    pose proof (IHb Db false h1) as B; destruct (run false b h1) as [h2 [[v t]|]]; [|apply clean_none].
    cbn [snd] in A, B; assert (Fl : flat_map drops (t ++ s) = []) by (apply flat_nil; [apply (A _ _ eq_refl) | apply (B _ _ eq_refl)]).
    destruct ov as [f|]; [apply called_clean; exact Fl|]; cbn [snd].
    destruct (at_index u v); [apply clean_some; [apply drops_inert | exact Fl] | apply clean_none].
  - intros o a IHa b IHb ov D place h; apply andb_prop in D; destruct D as [Da Db].
    cbn [EffSpec.run]; pose proof (IHa Da false h) as A; destruct (run false a h) as [h1 [[u s]|]]; [|apply clean_none].
    pose proof (IHb Db false h1) as B; destruct (run false b h1) as [h2 [[v t]|]];
      cbn [snd] in A, B; pose proof (proj2 (A _ _ eq_refl)) as Fs.
    + assert (Fl : flat_map drops (t ++ s) = []) by (apply flat_nil; [exact Fs | apply (B _ _ eq_refl)]).
      destruct o, ov as [f|]; try (destruct u as [z|[|]|r|l|d l]); cbn [snd];
        first [apply called_clean; exact Fl
              |apply clean_some; [first [reflexivity | apply (B _ _ eq_refl)] | first [exact Fl | exact Fs]]
              |match goal with |- clean (match ?x with _ => _ end) => destruct x eqn:Q end;
               [apply clean_some; [apply (binary_quiet _ _ _ _ Q) | exact Fl] | apply clean_none]].
    + destruct o, ov as [f|]; try (destruct u as [z|[|]|r|l|d l]); cbn [snd];
        first [apply clean_none | apply clean_some; [reflexivity | exact Fs]].
  - intros array l IH D place h; rewrite run_list; pose proof (IH D h) as A.
    destruct (runs l h) as [h1 [[vs t]|]]; [|apply clean_none]; destruct (A _ _ eq_refl) as [V T]; cbn [snd].
    apply clean_held; [destruct array; exact V | exact T].
  - intros w e IH ov D place h; cbn [EffSpec.run].
    pose proof (IH D (match w with Field _ | AddrOf | Deref => true | Cast | Ascribe => place | _ => false end) h) as A.
    destruct (run _ e h) as [h1 [[v t]|]]; [|apply clean_none]; destruct (A _ _ eq_refl) as [V T]; cbn [snd].
    destruct ov as [f|]; [apply called_clean; exact T|].
    destruct w as [[|n]| | | | | |k|]; cbn [snd].
    + apply clean_some; [reflexivity|]; cbn [flat_map]; rewrite V, T; reflexivity.
    + apply clean_held; [apply repeat_quiet; exact V | exact T].
    + apply clean_some; assumption.
    + apply clean_some; assumption.
    + apply clean_some; [apply drops_inert | exact T].
    + destruct v; try (apply clean_some; assumption).
      destruct (fits (- z)) eqn:F; [apply clean_some; [apply (fits_quiet _ _ F) | exact T] | apply clean_none].
    + apply clean_some; [destruct v; try exact V; reflexivity | exact T].
    + apply clean_some; [apply drops_inert | exact T].
    + apply clean_some; [reflexivity | exact T].
  - intros [d|] l IH D place h; [discriminate|]; rewrite run_ctor; pose proof (IH D h) as A.
    destruct (runs l h) as [h1 [[vs t]|]]; [|apply clean_none]; destruct (A _ _ eq_refl) as [V T]; cbn [snd].
    apply clean_held; assumption.
  - intros f l IH D place h; rewrite run_call; pose proof (IH D h) as A.
    destruct (runs l h) as [h1 [[vs t]|]]; [|apply clean_none]; destruct (A _ _ eq_refl) as [V T].
    apply called_clean; exact T.
  - intros u e IH D place h; cbn [EffSpec.run]; apply IH; exact D.
  - intros _ h v t Q; injection Q as <- <-; auto.
  - intros e IHe l IHl D h; apply andb_prop in D; destruct D as [Da Db].
    rewrite runs_cons; pose proof (IHe Da false h) as A; destruct (run false e h) as [h1 [[u s]|]]; [|intros v' t' Q; discriminate].
    pose proof (IHl Db h1) as B; destruct (runs l h1) as [h2 [[vs t]|]]; [|intros v' t' Q; discriminate].
    intros v' t' Q; injection Q as <- <-; destruct (A _ _ eq_refl) as [A1 A2], (B _ _ eq_refl) as [B1 B2].
    split; [cbn [flat_map]; rewrite A1, B1; reflexivity | apply flat_nil; assumption].
Qed.

Definition ok {A} (r : trace * option A) : trace * bool := (fst r, match snd r with Some _ => true | None => false end).
Lemma stmt_ok : forall e h, dropless e = true -> stmt env calls e h = ok (run false e h).
Proof.
  intros e h D; unfold stmt, ok; pose proof (proj1 dropless_clean e D false h) as A.
  destruct (run false e h) as [h1 [[v t]|]]; [|reflexivity]; destruct (A _ _ eq_refl) as [V T].
  cbn [fst snd]; rewrite V, T; reflexivity.
Qed.
Lemma called_ok : forall p q f args t h, ok (called calls p f args t h) = ok (called calls q f args t h).
Proof. intros; unfold ok, called, call; cbn [fst snd]; destruct (calls f args h); reflexivity. Qed.

(* Looking at an expression does the same as moving it. *)
Lemma place_ok : forall e, builtin e = true -> forall p q h, ok (run p e h) = ok (run q e h).
Proof.
  induction e as [z|x|xs|a IHa b IHb ov|o a IHa b IHb ov|array l|w e IH ov|d l|f l|u e IH] using expr_ind;
    intros B p q h; rewrite ?run_list, ?run_ctor, ?run_call; try reflexivity.
  - cbn [builtin] in B; destruct ov; [discriminate|]; cbn [EffSpec.run].
    destruct (run false a h) as [h1 [[u s]|]]; [|reflexivity]; destruct o; reflexivity.
  - destruct (runs l h) as [h1 [[vs t]|]]; reflexivity.
  - cbn [builtin] in B; destruct ov; [discriminate|]; cbn [EffSpec.run].
    destruct w as [[|n]| | | | | |k|]; try reflexivity;
      try (destruct (run false e h) as [h1 [[v t]|]]; reflexivity).
    + specialize (IH B p q h); destruct (run p e h) as [h1 [[v t]|]], (run q e h) as [h2 [[v' t']|]]; exact IH.
    + specialize (IH B p q h); destruct (run p e h) as [h1 [[v t]|]], (run q e h) as [h2 [[v' t']|]]; exact IH.
  - destruct (runs l h) as [h1 [[vs t]|]]; reflexivity.
  - destruct (runs l h) as [h1 [[vs t]|]]; [apply called_ok | reflexivity].
  - apply IH; exact B.
Qed.
Lemma stmts_list : forall l h, droplesses l = true -> stmts env calls (to_list l) h = ok (runs l h).
Proof.
  induction l as [|e l IH]; intros h D; [reflexivity|]; cbn [droplesses] in D; apply andb_prop in D; destruct D as [De Dl].
  cbn [to_list stmts]; rewrite runs_cons; rewrite (stmt_ok _ _ De); unfold ok at 1.
  destruct (run false e h) as [h1 [[v t]|]]; cbn [fst snd]; [|reflexivity].
  rewrite (IH h1 Dl); destruct (runs l h1) as [h2 [[vs u]|]]; reflexivity.
Qed.

Lemma reduce_ok : forall e l, reduce_expression e = Some l -> builtin e = true -> dropless e = true -> forall h,
  fst (stmts env calls l h) = fst (run false e h) /\
  (snd (run false e h) <> None -> snd (stmts env calls l h) = true) /\
  (firm e = true -> snd (stmts env calls l h) = true -> snd (run false e h) <> None).
Proof.
  induction e as [z|x|xs|a IHa b IHb ov|o a IHa b IHb ov|array l'|w e IH ov|d l'|f l'|u e IH] using expr_ind;
    intros l R B D h; cbn [reduce_expression] in R; try discriminate.
  - (* index *)
    injection R as <-; cbn [builtin] in B; destruct ov; [discriminate|].
    apply andb_prop in B; destruct B as [Ba Bb]; cbn [dropless] in D; apply andb_prop in D; destruct D as [Da Db].
    cbn [stmts EffSpec.run firm]; rewrite (stmt_ok _ _ Da), (place_ok _ Ba false true); unfold ok.
    destruct (run true a h) as [h1 [[u s]|]]; cbn [fst snd]; [|split; [reflexivity|]; split; [congruence | discriminate]].
    rewrite (stmt_ok _ _ Db); unfold ok; destruct (run false b h1) as [h2 [[v t]|]]; cbn [fst snd];
      (split; [reflexivity|]; split; [congruence | discriminate]).
  - (* binary *)
    cbn [builtin] in B; destruct ov; [discriminate|].
    apply andb_prop in B; destruct B as [Ba Bb]; cbn [dropless] in D; apply andb_prop in D; destruct D as [Da Db].
    assert (l = [a; b]) by (destruct o; congruence); subst l.
    cbn [stmts EffSpec.run firm]; rewrite (stmt_ok _ _ Da); unfold ok.
    destruct (run false a h) as [h1 [[u s]|]]; cbn [fst snd]; [|split; [reflexivity|]; split; congruence].
    rewrite (stmt_ok _ _ Db); unfold ok; destruct o; try discriminate R;
      destruct (run false b h1) as [h2 [[v t]|]]; cbn [fst snd]; (split; [reflexivity|]; split; try congruence; try discriminate).
    intros _ _; destruct u, v; discriminate.
  - injection R as <-; cbn [dropless] in D; rewrite (stmts_list _ _ D), run_list.
    unfold ok; destruct (runs l' h) as [h1 [[vs t]|]]; cbn [fst snd]; (split; [reflexivity|]; split; congruence).
  - (* wrap *)
    cbn [builtin] in B; destruct ov; [discriminate|]; cbn [dropless] in D.
    assert (G : fst (stmts env calls l h) = fst (run false e h) /\
       (snd (run false e h) <> None -> snd (stmts env calls l h) = true) /\
       (firm e = true -> snd (stmts env calls l h) = true -> snd (run false e h) <> None)).
    { destruct (reduce_expression e) as [l'|] eqn:R'.
      - injection R as <-; exact (IH l' eq_refl B D h).
      - injection R as <-; cbn [stmts]; rewrite (stmt_ok _ _ D); unfold ok.
        destruct (run false e h) as [h1 [[v t]|]]; cbn [fst snd]; (split; [reflexivity|]; split; congruence). }
    cbn [EffSpec.run].
    set (p := match w with Field _ | AddrOf | Deref => true | Cast | Ascribe => false | _ => false end).
    pose proof (place_ok e B false p h) as P; unfold ok in P.
    destruct (run false e h) as [h1 r], (run p e h) as [h2 r']; cbn [fst snd] in P, G; injection P as <- P.
    destruct G as [G1 [G2 G3]]; destruct r' as [[v t]|], r as [[v' t']|]; try discriminate P;
      (split; [rewrite G1; destruct w as [[|n]| | | | | |k|]; reflexivity|]).
    + split; [intros _; apply G2; discriminate|]; intros F _.
      cbn [firm] in F; destruct w as [[|n]| | | | | |k|]; try discriminate F; cbn [snd]; discriminate.
    + cbn [snd]; split; [congruence|]; intros F; cbn [firm] in F; destruct w; try discriminate F; exact (G3 F).
  - destruct d; [discriminate|]; injection R as <-; cbn [dropless] in D; rewrite (stmts_list _ _ D), run_ctor.
    unfold ok; destruct (runs l' h) as [h1 [[vs t]|]]; cbn [fst snd]; (split; [reflexivity|]; split; congruence).
  - destruct u; [discriminate|]; injection R as <-; cbn [dropless] in D; cbn [stmts EffSpec.run]; rewrite (stmt_ok _ _ D).
    unfold ok; destruct (run false e h) as [h1 [[v t]|]]; cbn [fst snd]; (split; [reflexivity|]; split; congruence).
Qed.
End Proofs.

(* The assertion about an index *)
Lemma assert_ok : forall env calls a b h,
  (forall h h' v t, run env calls true a h = (h', Some (v, t)) -> exists l, v = VSeq l \/ v = VRef (VSeq l)) ->
  (forall h h' v t, run env calls false b h = (h', Some (v, t)) -> exists z, v = VInt z /\ 0 <= z) ->
  assert_len env calls a b h = stmt env calls (EIndex a b None) h.
Proof.
  intros env calls a b h Ha Hb; unfold assert_len, stmt; cbn [run].
  destruct (run env calls true a h) as [h1 [[u s]|]] eqn:Ea; [|reflexivity].
  destruct (run env calls false b h1) as [h2 [[v t]|]] eqn:Eb; [|reflexivity].
  destruct (Hb _ _ _ _ Eb) as [z [-> Z0]].
  destruct (Ha _ _ _ _ Ea) as [l U].
  assert (Q : at_index u (VInt z) = if (0 <=? z) && (z <? Z.of_nat (length l)) then nth_error l (Z.to_nat z) else None)
    by (destruct U as [-> | ->]; reflexivity).
  rewrite Q; replace (0 <=? z) with true by (symmetry; apply Z.leb_le; exact Z0); cbn [andb].
  assert (X : match u with VSeq l | VRef (VSeq l) => if z <? Z.of_nat (length l) then (rev (flat_map drops (t ++ s)) ++ h2, true) else (h2, false) | _ => (h2, false) end =
              if z <? Z.of_nat (length l) then (rev (flat_map drops (t ++ s)) ++ h2, true) else (h2, false))
    by (destruct U as [-> | ->]; reflexivity).
  rewrite X; destruct (Z.ltb_spec z (Z.of_nat (length l))) as [L|L]; [|reflexivity].
  destruct (nth_error l (Z.to_nat z)) as [w|] eqn:N; [|apply nth_error_None in N; lia].
  rewrite drops_inert; reflexivity.
Qed.
