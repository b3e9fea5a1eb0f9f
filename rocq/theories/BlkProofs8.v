(** What is kept of a part is kept of the whole. *)
From Verif Require Import BlkSpec BlkEnv BlkProofs.

Section Whole.
Variable R : ex -> ex -> Prop.
Hypothesis R_same : forall a b, R a b -> same a b.
Lemma same_at : forall a b, same a b -> forall w n s s', agree none_of s s' -> alike none_of (eval w n a s) (eval w n b s').
Proof. intros a b H w n s s' A. eapply alike_trans; [apply H|]. apply eval_ext; auto. Qed.
Lemma agree_minus : forall X s s', agree none_of s s' -> agree X s s'.
Proof. intros X s s' [A B]. split; [exact A|]. intros y _. apply B. reflexivity. Qed.
Lemma minus_none : forall xs s s', agree (minus none_of xs) s s' -> agree none_of s s'.
Proof. intros xs s s' [A B]. split; [exact A|]. intros y _. apply B. reflexivity. Qed.
Lemma alike_minus : forall xs r r', alike none_of r r' -> alike (minus none_of xs) r r'.
Proof. intros xs r r' [A B]. split; [exact A|]. apply agree_minus; auto. Qed.
Lemma bind_at : forall p v b b' w n d d' s s', same b b' -> agree none_of s s' -> alike none_of d d' ->
  alike none_of (match pbind p v (fst s) with Some f => leave (pvars p) s (eval w n b (f, snd s)) | None => d end)
    (match pbind p v (fst s') with Some f => leave (pvars p) s' (eval w n b' (f, snd s')) | None => d' end).
Proof.
  intros p v b b' w n d d' s s' H A D. apply (alike_bind none_of p v s s' (eval w n b) (eval w n b') d d'); auto.
  intros t t' T. apply alike_minus. apply same_at; auto.
Qed.
Ltac evals H A := let P := fresh "P" in pose proof (same_at _ _ H) as P;
  match goal with |- context [eval ?w ?n ?k ?s] => specialize (P w n s _ A) end;
  match type of P with alike none_of ?a ?b => let o := fresh "o" in let o' := fresh "o'" in let t := fresh "t" in let t' := fresh "t'" in
    destruct a as [o t], b as [o' t']; destruct P as [P1 P2]; cbn [fst snd] in P1, P2; subst o'; destruct o end.
Ltac sub := match goal with
  | |- alike none_of (match pbind _ _ _ with _ => _ end) (match pbind _ _ _ with _ => _ end) => apply bind_at; auto
  | |- alike none_of (next _ _) (next _ _) => apply alike_next; [apply same_at; auto|]; let v := fresh "v" in let t := fresh "t" in let t' := fresh "t'" in let T := fresh "T" in intros v t t' T
  | |- alike none_of (given _ _) (given _ _) => apply alike_given
  | A : agree none_of ?s ?s' |- context [fst ?s ?x] => rewrite (proj2 A x eq_refl)
  | A : agree none_of ?s ?s' |- context [snd ?s ++ _] => rewrite (proj1 A)
  | |- alike none_of (match ?u with _ => _ end) (match ?u with _ => _ end) => destruct u
  | A : agree none_of ?s ?s' |- alike none_of (?o, ?s) (?o, ?s') => split; [reflexivity|exact A]
  | A : agree none_of ?s ?s' |- alike none_of (eval _ _ _ ?s) (eval _ _ _ ?s') => apply same_at; auto
  | A : agree none_of ?s ?s' |- alike none_of (OVal VUnit, setv ?s _ _) (OVal VUnit, setv ?s' _ _) => split; [reflexivity|cbn [snd]; auto using agree_setv]
  | A : agree none_of ?s ?s' |- agree none_of (fst ?s, ?h) (fst ?s', ?h) => split; [reflexivity|intros y Y; apply A; auto]
  | A : agree none_of ?s ?s' |- alike none_of (?o, (fst ?s, ?h)) (?o, (fst ?s', ?h)) => split; [reflexivity|split; [reflexivity|intros y Y; apply A; auto]]
  | |- alike none_of (run_loop _ _ _ _) (run_loop _ _ _ _) => apply alike_loop; [|auto]; let A := fresh "A" in intros ? ? A
  | |- alike none_of (run_for _ _ _ _) (run_for _ _ _ _) => apply alike_for; [|auto]; let A := fresh "A" in intros ? ? ? A
  | H : same ?k ?k', A : agree none_of ?s ?s' |- alike none_of (let (_, _) := eval _ _ ?k ?s in _) (let (_, _) := eval _ _ ?k' ?s' in _) => evals H A
  end.
Lemma everywhere_ok : forall a b, everywhere R a b -> same a b.
Proof.
  intros a b H. induction H; try apply same_refl; try (apply R_same; auto; fail); intros w n s; cbn [eval]; pose proof (agree_refl none_of s) as A0.
  all: repeat sub; auto using alike_refl.
  apply alike_leave0. apply same_at; [auto|apply agree_refl].
Qed.
End Whole.

(** The same of programs the compiler accepts. *)
Definition fine (r r' : out * st) : Prop := fst r <> OStuck -> alike none_of r r'.
Section Ok.
Variable R : ex -> ex -> Prop.
Hypothesis R_same : forall a b, R a b -> same_ok a b.
Lemma ok_at : forall a b, same_ok a b -> forall w n s s', agree none_of s s' -> fine (eval w n a s) (eval w n b s').
Proof. intros a b H w n s s' A N. eapply alike_trans; [apply H; auto|]. apply eval_ext; auto. Qed.
Lemma fine_alike : forall r r', alike none_of r r' -> fine r r'.
Proof. intros r r' H _. auto. Qed.
Lemma fine_next : forall r r' k k', fine r r' -> (forall v s s', agree none_of s s' -> fine (k v s) (k' v s')) -> fine (next r k) (next r' k').
Proof.
  intros [o s] [o' s'] k k' A B N. rewrite next_pair in N. destruct A as [A1 A2]; [cbn; intros Q; subst; apply N; reflexivity|]. cbn [fst snd] in *. subst o'. rewrite !next_pair.
  destruct o; try (split; auto; fail). apply B; auto.
Qed.
Lemma fine_leave : forall xs s s' r r', agree none_of s s' -> fine r r' -> fine (leave xs s r) (leave xs s' r').
Proof. intros xs s s' r r' A F N. apply alike_leave; [auto|]. apply alike_minus. apply F. exact N. Qed.
Lemma fine_bind : forall p v b b' w n d d' s s', same_ok b b' -> agree none_of s s' -> fine d d' ->
  fine (match pbind p v (fst s) with Some f => leave (pvars p) s (eval w n b (f, snd s)) | None => d end)
    (match pbind p v (fst s') with Some f => leave (pvars p) s' (eval w n b' (f, snd s')) | None => d' end).
Proof.
  intros p v b b' w n d d' s s' H A D. pose proof (pbind_rel p v none_of (fst s) (fst s') (proj2 A)) as PR.
  destruct (pbind p v (fst s)) as [f|], (pbind p v (fst s')) as [f'|]; try tauto. apply fine_leave; [auto|]. apply ok_at; [auto|]. split; [apply A|]. intros y _. apply PR. reflexivity.
Qed.
Lemma fine_loop : forall l f f' m s s', (forall s s', agree none_of s s' -> fine (f s) (f' s')) -> agree none_of s s' -> fine (run_loop l f m s) (run_loop l f' m s').
Proof.
  intros l f f' m. induction m as [|m IH]; intros s s' F A N; cbn in *; [split; auto|].
  destruct (F s s' A) as [G1 G2]; [intros Q; rewrite Q in N; auto|]. destruct (f s) as [o t], (f' s') as [o' t']. cbn in *. subst o'.
  destruct o; try (split; auto; fail); try (apply IH; auto; fail); destruct (hits l l0); try (split; auto; fail). apply IH; auto.
Qed.
Lemma fine_for : forall l f f' vs s s', (forall v s s', agree none_of s s' -> fine (f v s) (f' v s')) -> agree none_of s s' -> fine (run_for l f vs s) (run_for l f' vs s').
Proof.
  intros l f f' vs. induction vs as [|v vs IH]; intros s s' F A N; cbn in *; [split; auto|].
  destruct (F v s s' A) as [G1 G2]; [intros Q; rewrite Q in N; auto|]. destruct (f v s) as [o t], (f' v s') as [o' t']. cbn in *. subst o'.
  destruct o; try (split; auto; fail); try (apply IH; auto; fail); destruct (hits l l0); try (split; auto; fail). apply IH; auto.
Qed.
Ltac evals H A := let P := fresh "P" in pose proof (ok_at _ _ H) as P;
  match goal with |- context [eval ?w ?n ?k ?s] => specialize (P w n s _ A) end;
  match type of P with fine ?a ?b => let o := fresh "o" in let o' := fresh "o'" in let t := fresh "t" in let t' := fresh "t'" in let N := fresh "N" in
    destruct a as [o t], b as [o' t']; intros N; destruct P as [P1 P2]; [cbn [fst]; intros ->; apply N; reflexivity|]; cbn [fst snd] in P1, P2; subst o'; revert N; destruct o end.
Ltac sub := match goal with
  | |- fst ?r <> OStuck -> alike none_of ?r ?r' => change (fine r r')
  | |- fine (match pbind _ _ _ with _ => _ end) (match pbind _ _ _ with _ => _ end) => apply fine_bind; auto
  | |- fine (next _ _) (next _ _) => apply fine_next; [apply ok_at; auto|]; let v := fresh "v" in let t := fresh "t" in let t' := fresh "t'" in let T := fresh "T" in intros v t t' T
  | |- fine (given _ _) (given _ _) => apply fine_alike; apply alike_given
  | A : agree none_of ?s ?s' |- context [fst ?s ?x] => rewrite (proj2 A x eq_refl)
  | A : agree none_of ?s ?s' |- context [snd ?s ++ _] => rewrite (proj1 A)
  | |- fine (match ?u with _ => _ end) (match ?u with _ => _ end) => destruct u
  | A : agree none_of ?s ?s' |- fine (?o, ?s) (?o, ?s') => apply fine_alike; split; [reflexivity|exact A]
  | A : agree none_of ?s ?s' |- fine (eval _ _ _ ?s) (eval _ _ _ ?s') => apply ok_at; auto
  | A : agree none_of ?s ?s' |- fine (OVal VUnit, setv ?s _ _) (OVal VUnit, setv ?s' _ _) => apply fine_alike; split; [reflexivity|cbn [snd]; auto using agree_setv]
  | A : agree none_of ?s ?s' |- agree none_of (fst ?s, ?h) (fst ?s', ?h) => split; [reflexivity|intros y Y; apply A; auto]
  | A : agree none_of ?s ?s' |- fine (?o, (fst ?s, ?h)) (?o, (fst ?s', ?h)) => apply fine_alike; split; [reflexivity|split; [reflexivity|intros y Y; apply A; auto]]
  | |- fine (run_loop _ _ _ _) (run_loop _ _ _ _) => apply fine_loop; [|auto]; let A := fresh "A" in intros ? ? A
  | |- fine (run_for _ _ _ _) (run_for _ _ _ _) => apply fine_for; [|auto]; let A := fresh "A" in intros ? ? ? A
  | H : same_ok ?k ?k', A : agree none_of ?s ?s' |- fine (let (_, _) := eval _ _ ?k ?s in _) (let (_, _) := eval _ _ ?k' ?s' in _) => evals H A
  end.
Lemma everywhere_same_ok : forall a b, everywhere R a b -> same_ok a b.
Proof.
  intros a b H. assert (F : forall w n s, fine (eval w n a s) (eval w n b s)); [|intros w n s; apply F].
  induction H; intros w n s; try (apply fine_alike; apply alike_refl); try (exact (R_same _ _ H w n s)); cbn [eval]; pose proof (agree_refl none_of s) as A0;
    repeat match goal with IH : forall w n s, fine (eval w n ?a s) (eval w n ?b s) |- _ => change (same_ok a b) in IH end.
  all: repeat sub; auto.
  apply fine_leave; [auto|]. apply ok_at; [auto|apply agree_refl].
Qed.
End Ok.
