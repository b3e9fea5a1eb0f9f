(** Model of `nonminimal_bool` and `overly_complex_bool_expr`, /repo/clippy_lints/src/booleans.rs. *)
From Coq Require Export List Bool Arith.
Export ListNotations.

(** ** Boolean expressions of the source *)

(** Comparison operators. *)
Inductive cop := Eq | Ne | Lt | Le | Gt | Ge.
Definition cop_eqb (a b : cop) : bool :=
  match a, b with Eq, Eq | Ne, Ne | Lt, Lt | Le, Le | Gt, Gt | Ge, Ge => true | _, _ => false end.
(** Methods of Option and Result with a negated counterpart. *)
Inductive mname := is_some | is_none | is_ok | is_err | is_some_and | is_none_or.
Definition mname_eqb (a b : mname) : bool :=
  match a, b with
  | is_some, is_some | is_none, is_none | is_ok, is_ok | is_err, is_err | is_some_and, is_some_and | is_none_or, is_none_or => true
  | _, _ => false
  end.
(** An operand of a comparison: which expression, its type, whether its type implements `Ord`, whether it
    is a cast, whether its text is in parentheses, whether its text ends in the type of a cast. *)
Record operand := { oid : nat; oty : nat; has_ord : bool; is_cast : bool; in_parens : bool; ends_in_type : bool }.
Definition operand_eqb (a b : operand) : bool := Nat.eqb (oid a) (oid b).
(** [par]: the expression is in parentheses (the compiler's spans include them).  [std]: the receiver is an
    Option or a Result.  [XAtom]: any other expression of type bool. *)
Inductive bx :=
| XNot (e : bx)
| XAnd (par : bool) (a b : bx)
| XOr (par : bool) (a b : bx)
| XLit (b : bool)
| XCmp (par : bool) (o : cop) (l r : operand)
| XMeth (std : bool) (m : mname) (recv : nat)                    (* without arguments *)
| XMethF (std : bool) (m : mname) (recv : nat) (body : bx)       (* with the closure `|x| body` *)
| XAtom (n : nat).

(** [eq_expr_value]: no side effects are in the language, so syntactic equality up to parentheses. *)
Fixpoint bx_eqb (a b : bx) : bool :=
  match a, b with
  | XNot a, XNot b => bx_eqb a b
  | XAnd _ a1 a2, XAnd _ b1 b2 | XOr _ a1 a2, XOr _ b1 b2 => bx_eqb a1 b1 && bx_eqb a2 b2
  | XLit a, XLit b => Bool.eqb a b
  | XCmp _ o l r, XCmp _ o' l' r' => cop_eqb o o' && operand_eqb l l' && operand_eqb r r'
  | XMeth s m r, XMeth s' m' r' => Bool.eqb s s' && mname_eqb m m' && Nat.eqb r r'
  | XMethF s m r b, XMethF s' m' r' b' => Bool.eqb s s' && mname_eqb m m' && Nat.eqb r r' && bx_eqb b b'
  | XAtom n, XAtom n' => Nat.eqb n n'
  | _, _ => false
  end.

(** ** Boolean functions *)

(** [quine_mc_cluskey::Bool]. *)
Inductive qbool := True_ | False_ | Term (n : nat) | Not (q : qbool) | And (l : list qbool) | Or (l : list qbool).

(** booleans.rs:255-265 [negate]. *)
Definition negate (o : cop) : cop :=
  match o with Eq => Ne | Ne => Eq | Gt => Le | Ge => Lt | Lt => Ge | Le => Gt end.
(** booleans.rs:296-319: the terminal for [e]; the search through the known terminals. *)
Fixpoint find_terminal (e : bx) (n : nat) (ts : list bx) : option qbool :=
  match ts with
  | [] => None
  | x :: ts =>
      if bx_eqb e x then Some (Term n)
      else match e, x with
           | XCmp _ o l r, XCmp _ o' l' r' =>
               if has_ord l && cop_eqb (negate o) o' && operand_eqb l l' && operand_eqb r r'
               then Some (Not (Term n)) else find_terminal e (S n) ts
           | _, _ => find_terminal e (S n) ts
           end
  end.
Definition terminal (e : bx) (ts : list bx) : option (qbool * list bx) :=
  match find_terminal e 0 ts with
  | Some q => Some (q, ts)
  | None => if length ts <? 32 then Some (Term (length ts), ts ++ [e]) else None
  end.
(** booleans.rs:240-327 [Hir2Qmm::extract] (with the operator whose operands are collected) and
    [Hir2Qmm::run] (without one: a list of one element), threading the list of terminals; [None] is an
    error.  Expressions of macros and of type `!` are not in the language. *)
Inductive bop := BAnd | BOr.
Fixpoint extract (op : option bop) (e : bx) (ts : list bx) : option (list qbool * list bx) :=
  match e with
  | XNot e => match extract None e ts with Some ([q], ts) => Some ([Not q], ts) | _ => None end
  | XOr _ a b =>
      match extract (Some BOr) a ts with
      | Some (v, ts) =>
          match extract (Some BOr) b ts with
          | Some (w, ts) => Some (match op with Some BOr => v ++ w | _ => [Or (v ++ w)] end, ts)
          | None => None
          end
      | None => None
      end
  | XAnd _ a b =>
      match extract (Some BAnd) a ts with
      | Some (v, ts) =>
          match extract (Some BAnd) b ts with
          | Some (w, ts) => Some (match op with Some BAnd => v ++ w | _ => [And (v ++ w)] end, ts)
          | None => None
          end
      | None => None
      end
  | XLit true => Some ([True_], ts)
  | XLit false => Some ([False_], ts)
  | _ => match terminal e ts with Some (q, ts) => Some ([q], ts) | None => None end
  end.
Definition run (e : bx) : option (qbool * list bx) :=
  match extract None e [] with Some ([q], ts) => Some (q, ts) | _ => None end.

(** booleans.rs:472-492 [simple_negate]. *)
Fixpoint simple_negate (b : qbool) : qbool :=
  match b with
  | True_ => False_
  | False_ => True_
  | Term n => Not (Term n)
  | And v => Or (map simple_negate v)
  | Or v => And (map simple_negate v)
  | Not inner => inner
  end.

(** booleans.rs:494-526 [Stats], [terminal_stats]. *)
Record stats := { terminals : nat -> nat; negations : nat; ops : nat }.
Definition stats0 : stats := {| terminals := fun _ => 0; negations := 0; ops := 0 |}.
Definition add_op (n : nat) (s : stats) : stats := {| terminals := terminals s; negations := negations s; ops := ops s + n |}.
Definition add_neg (s : stats) : stats := {| terminals := terminals s; negations := S (negations s); ops := ops s |}.
Definition add_term (n : nat) (s : stats) : stats :=
  {| terminals := fun i => if Nat.eqb i n then S (terminals s i) else terminals s i; negations := negations s; ops := ops s |}.
Fixpoint stats_rec (b : qbool) (s : stats) : stats :=
  match b with
  | True_ | False_ => add_op 1 s
  | Not inner => stats_rec inner (match inner with And _ | Or _ => add_op 1 s | _ => add_neg s end)
  | And v | Or v => fold_left (fun s b => stats_rec b s) v (add_op (length v - 1) s)
  | Term n => add_term n s
  end.
Definition terminal_stats (b : qbool) : stats := stats_rec b stats0.

(** ** Text *)
Inductive tok :=
| TNot | TLp | TRp | TAnd | TOr | TLit (b : bool) | TAtom (n : nat)
| TOperand (o : operand) | TCmp (o : cop)
| TMeth (std : bool) (m : mname) (recv : nat)         (* `recv.m()` *)
| TMethF (std : bool) (m : mname) (recv : nat).       (* `recv.m(|x| ` *)
Definition wrap (par : bool) (t : list tok) : list tok := if par then TLp :: t ++ [TRp] else t.
(** The text of a source expression ([get_text]). *)
Fixpoint text (e : bx) : list tok :=
  match e with
  | XNot e => TNot :: text e
  | XAnd par a b => wrap par (text a ++ TAnd :: text b)
  | XOr par a b => wrap par (text a ++ TOr :: text b)
  | XLit b => [TLit b]
  | XCmp par o l r => wrap par [TOperand l; TCmp o; TOperand r]
  | XMeth s m r => [TMeth s m r]
  | XMethF s m r body => TMethF s m r :: text body ++ [TRp]
  | XAtom n => [TAtom n]
  end.

(** booleans.rs:84-89 [METHODS_WITH_NEGATION], in both orders; [msrv]: `is_none_or` is available. *)
Definition negated_method (msrv : bool) (m : mname) : option mname :=
  match m with
  | is_some => Some is_none | is_none => Some is_some
  | is_err => Some is_ok | is_ok => Some is_err
  | is_some_and => if msrv then Some is_none_or else None
  | is_none_or => if msrv then Some is_some_and else None
  end.
(** booleans.rs:400-460 [simplify_not]: the text of the negation.  [is_some_and] and [is_none_or] have a
    closure, the others have no arguments. *)
Definition operand_in_parens (o : operand) : operand :=
  {| oid := oid o; oty := oty o; has_ord := has_ord o; is_cast := is_cast o; in_parens := true; ends_in_type := false |}.
Fixpoint simplify_not (msrv : bool) (e : bx) : option (list tok) :=
  match e with
  | XCmp _ o l r =>
      if has_ord l then
        Some (if negb (in_parens l) && is_cast l && cop_eqb o Ge
              then [TOperand (operand_in_parens l); TCmp (negate o); TOperand r]
              else [TOperand l; TCmp (negate o); TOperand r])
      else None
  | XMeth std m r =>
      if std then match negated_method msrv m with Some m => Some [TMeth std m r] | None => None end else None
  | XMethF std m r body =>
      if std then
        match negated_method msrv m, simplify_not msrv body with
        | Some m, Some t => Some (TMethF std m r :: t ++ [TRp])
        | _, _ => None
        end
      else None
  | XNot e => Some (text e)
  | _ => None
  end.
(** `!snip` for [Sugg::hir_with_context] of a terminal: a binary operation is put in parentheses. *)
Definition not_snippet (e : bx) : list tok :=
  match e with XCmp _ o l r => TNot :: wrap true [TOperand l; TCmp o; TOperand r] | _ => TNot :: text e end.

Definition term_at (ts : list bx) (n : nat) : bx := nth n ts (XLit false).
Fixpoint join (sep : tok) (l : list (list tok)) : list tok :=
  match l with [] => [] | [t] => t | t :: l => t ++ sep :: join sep l end.
(** booleans.rs:337-397 [SuggestContext::recurse]. *)
Fixpoint print (msrv : bool) (ts : list bx) (b : qbool) : list tok :=
  match b with
  | True_ => [TLit true]
  | False_ => [TLit false]
  | Not inner =>
      match inner with
      | And _ | Or _ => TNot :: wrap true (print msrv ts inner)
      | Term n => match simplify_not msrv (term_at ts n) with Some t => t | None => not_snippet (term_at ts n) end
      | True_ | False_ | Not _ => TNot :: print msrv ts inner
      end
  | And v => join TAnd (map (fun b => wrap (match b with Or _ => true | _ => false end) (print msrv ts b)) v)
  | Or v => join TOr (rev (map (print msrv ts) v))
  | Term n => text (term_at ts n)
  end.

(** ** The lint *)
Fixpoint qbool_eqb (a b : qbool) : bool :=
  let eqb_list := fix go (l l' : list qbool) : bool :=
    match l, l' with [], [] => true | x :: l, y :: l' => qbool_eqb x y && go l l' | _, _ => false end in
  match a, b with
  | True_, True_ | False_, False_ => true
  | Term n, Term m => Nat.eqb n m
  | Not a, Not b => qbool_eqb a b
  | And l, And l' | Or l, Or l' => eqb_list l l'
  | _, _ => false
  end.
(** booleans.rs:541-552: the candidates.  [simplify] is the function of the external crate. *)
Definition add_candidates (simplified : list qbool) (simple : qbool) : list qbool :=
  let simplified := match simple with Not _ | True_ | False_ => simplified | _ => simplified ++ [Not simple] end in
  let simple_negated := simple_negate simple in
  if existsb (qbool_eqb simple_negated) simplified then simplified else simplified ++ [simple_negated].
Definition candidates (simplify : qbool -> list qbool) (expr : qbool) : list qbool :=
  fold_left add_candidates (simplify (Not expr)) (simplify expr).

(** booleans.rs:556-598: what the loop over the 32 terminals says of one candidate. *)
Inductive verdict := Skip | LogicBug (i : nat) | Improvement | NoImprovement.
Fixpoint judge (s t : stats) (is : list nat) (improvement : bool) : verdict :=
  match is with
  | [] => if improvement then Improvement else NoImprovement
  | i :: is =>
      if terminals s i <? terminals t i then Skip
      else if negb (terminals s i =? 0) && (terminals t i =? 0) then LogicBug i
      else judge s t is
             (improvement || (terminals t i <? terminals s i)
              || ((negations t <? negations s) && (ops s =? ops t))
              || ((ops t <? ops s) && (negations s =? negations t)))
  end.
Fixpoint judge_all (s : stats) (l : list qbool) (improvements : list qbool) : (nat * qbool) + list qbool :=
  match l with
  | [] => inr improvements
  | q :: l =>
      match judge s (terminal_stats q) (seq 0 32) false with
      | LogicBug i => inl (i, q)
      | Improvement => judge_all s l (improvements ++ [q])
      | Skip | NoImprovement => judge_all s l improvements
      end
  end.
(** booleans.rs:198-237 [check_simplify_not]: [Sugg::hir_opt] of a comparison is a binary operation, of a
    negation a [MaybeParen] without parentheses around it, of a method call neither. *)
Definition check_simplify_not (msrv : bool) (e : bx) : option (list tok) :=
  match e with
  | XNot inner =>
      match simplify_not msrv inner with
      | Some t => Some (wrap (match inner with XCmp _ _ _ _ | XNot _ => true | _ => false end) t)
      | None => None
      end
  | _ => None
  end.
(** booleans.rs:529-632 [bool_expr]. *)
Inductive report :=
| OverlyComplex (unused : nat) (suggestion : list tok)
| Nonminimal (suggestions : list (list tok)).
Definition bool_expr (simplify : qbool -> list qbool) (msrv : bool) (e : bx) : option report :=
  match run e with
  | Some (expr, ts) =>
      let s := terminal_stats expr in
      if 7 <? ops s then None
      else match judge_all s (candidates simplify expr) [] with
           | inl (i, q) => Some (OverlyComplex i (print msrv ts q))
           | inr [] => match check_simplify_not msrv e with Some t => Some (Nonminimal [t]) | None => None end
           | inr improvements => Some (Nonminimal (map (print msrv ts) improvements))
           end
  | None => None
  end.

(** booleans.rs:128-196 [check_inverted_bool_in_condition]: `!a == b`, `a == !b`, `!a == !b` on booleans;
    [eq] is true for `==`.  The result is the new operator and operands. *)
Definition inverted_bool (eq : bool) (l r : bx) : option (bool * bx * bx) :=
  match l, r with
  | XNot l, XNot r => Some (eq, l, r)
  | XNot l, _ => Some (negb eq, l, r)
  | _, XNot r => Some (negb eq, l, r)
  | _, _ => None
  end.
