(** C49: reindenting a snippet. *)
From Verif Require Import ReindentModel ReindentSpec ReindentProofs.

(** Line by line only the indentation changes, by the same amount for all lines with text; an ignored first line is
    untouched; lines without text stay so.  No slice panics.  At most two lines are lost at the end, none with text.
    Missing: all lines are kept (false), and texts with a carriage return inside a line end. *)
Theorem reindent_keeps_partial s ignore_first indent : no_stray_cr s ->
  exists r w p, reindent_multiline s ignore_first indent = Some r /\ blanks w /\ blanks p /\ lines_kept ignore_first w p (tlines s) (pieces r) /\
    List.length (pieces r) <= Nat.max 1 (List.length (tlines s)) /\ List.length (tlines s) <= List.length (pieces r) + 2.
Proof. exact (reindent_keeps s ignore_first indent). Qed.
Print Assumptions reindent_keeps_partial.
(** Every reindented line starts with the wanted number of spaces, and the shallowest has no more: provided an
    indentation is asked for, or there are no lines of blanks only. *)
Theorem reindent_indentation s ignore_first indent : no_stray_cr s ->
  exists r, let n := match indent with Some n => n | None => 0 end in reindent_multiline s ignore_first indent = Some r /\
    (forall l, active ignore_first (pieces r) l -> indented_at_least n l) /\
    (0 < n \/ no_blank_lines ignore_first (tlines s) -> (exists l, active ignore_first (pieces r) l) -> exists l, active ignore_first (pieces r) l /\ indented n l).
Proof. exact (reindent_indent s ignore_first indent). Qed.
Print Assumptions reindent_indentation.

Definition nl : text := [newline].
(** Blank lines at the end disappear: a three-line text ends as one line. *)
Theorem reindent_trailing_refuted : exists s r, reindent_multiline s false None = Some r /\ List.length (tlines s) = 3 /\ List.length (pieces r) = 1.
Proof. exists (tx "a" ++ nl ++ nl ++ nl), (tx "a"). vm_compute. auto. Qed.
Print Assumptions reindent_trailing_refuted.
(** Lines of blanks only are not ignored: the text may stay indented though no indentation is asked for. *)
Theorem reindent_blank_lines_refuted : exists s r, no_stray_cr s /\ reindent_multiline s false None = Some r /\
  (exists l, active false (pieces r) l) /\ forall l, active false (pieces r) l -> ~ indented 0 l.
Proof.
  exists (tx "  " ++ nl ++ tx "    " ++ nl ++ tx "      x" ++ nl ++ tx "      y"), (nl ++ nl ++ tx "  x" ++ nl ++ tx "  y"). split.
  - unfold no_stray_cr. vm_compute tlines. repeat constructor; intros x E; apply (f_equal (@rev _)) in E; rewrite rev_app_distr in E; discriminate.
  - split; [vm_compute; reflexivity|]. split; [exists (tx "  x"), 2; vm_compute; repeat split; discriminate|].
    intros l (i & E & _ & N) (t & -> & H). vm_compute in E. do 4 (destruct i as [|i]; [vm_compute in E; injection E as E; subst; now try apply H|]). destruct i; discriminate.
Qed.
Print Assumptions reindent_blank_lines_refuted.

Example C49_nontrivial : no_stray_cr (tx "{" ++ nl ++ tx "        a" ++ nl ++ nl ++ tx "            b" ++ nl ++ tx "        }") /\
  reindent_multiline (tx "{" ++ nl ++ tx "        a" ++ nl ++ nl ++ tx "            b" ++ nl ++ tx "        }") true (Some 4)
    = Some (tx "{" ++ nl ++ tx "    a" ++ nl ++ nl ++ tx "        b" ++ nl ++ tx "    }")
  /\ reindent_multiline (tab :: tab :: tx "a" ++ nl ++ tab :: tx "b") false None = Some (tab :: tx "a" ++ nl ++ tx "b")
  /\ reindent_multiline (tx "a" ++ nl ++ tx "  b") false (Some 2) = Some (tx "  a" ++ nl ++ tx "    b").
Proof.
  split; [|vm_compute; auto]. unfold no_stray_cr. vm_compute tlines. repeat constructor; intros x E; apply (f_equal (@rev _)) in E; rewrite rev_app_distr in E; discriminate.
Qed.
