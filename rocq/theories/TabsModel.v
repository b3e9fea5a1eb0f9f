(** Model of `tabs_in_doc_comments`, /repo/clippy_lints/src/tabs_in_doc_comments.rs. *)
From Verif Require Export Text.

Definition tab : ascii := ascii_of_nat 9.
(** [memchr::memchr(b'\t', haystack)]. *)
Fixpoint memchr (s : text) : option nat :=
  match s with
  | [] => None
  | c :: r => if Ascii.eqb c tab then Some 0 else option_map S (memchr r)
  end.
(** [get_chunks_of_tabs], tabs_in_doc_comments.rs:99-120: the closure is called until it gives [None]; after that the haystack is empty.  Simplified: offsets are unbounded, while the code panics above 2^32
    (a source file is shorter). *)
Fixpoint chunks_loop (fuel offset : nat) (haystack : text) : list (nat * nat) :=
  match fuel with
  | 0 => []
  | S fuel =>
      match memchr haystack with
      | Some i =>
          let len := 1 + List.length (take_while (fun x => Ascii.eqb x tab) (skipn (i + 1) haystack)) in
          let start := offset + i in
          let end_ := start + len in
          (start, end_) :: chunks_loop fuel end_ (skipn (i + len) haystack)
      | None => []
      end
  end.
Definition get_chunks_of_tabs (s : text) : list (nat * nat) := chunks_loop (S (List.length s)) 0 s.
(** [warn_if_tabs_in_doc], tabs_in_doc_comments.rs:63-85: the edits (start and end within the attribute, new text). *)
Definition warn_if_tabs_in_doc (comment : text) : list (nat * nat * text) :=
  map (fun '(lo, hi) => (3 + lo, 3 + hi, concat (repeat (tx "    ") (hi - lo)))) (get_chunks_of_tabs comment).
