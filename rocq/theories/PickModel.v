(** Model of the lints about which form of branching to use: match_bool, match_like_matches_macro,
    redundant_pattern_matching, needless_match, single_match, collapsible_match, redundant_guards
    (/repo/clippy_lints/src/matches/), on the language of CloSpec.

    `a && b` is `if a { b } else { false }`; `matches!(e, p if g)` is the match it expands to; `p | q` at the top of an arm
    is two arms.  Not modelled: spans and texts, macros, attributes, comments, scrutinees that are references, the variants of
    Poll and IpAddr, and conditions that only make a lint quieter (types, drop order, minimal Rust versions). *)
From Verif Require Export TailModel.

Definition arm := (pat * option expr * expr)%type.
Definition and_e (a b : expr) : expr := EIf a b (Some (EBool false)).
Definition matches_e (r : expr) (arms : list arm) : expr := EMatch false r (arms ++ [(PWild, None, EBool false)]).
(** clippy_utils/src/lib.rs:333-345 [is_unit_expr]. *)
Definition is_unit (e : expr) : bool := match e with EBlock _ [] None | EData KTup [] => true | _ => false end.
(** clippy_utils/src/source.rs:367-388 [expr_block]; there are no unsafe blocks. *)
Definition in_braces (e : expr) : expr := match e with EBlock None _ _ => e | _ => EBlock None [] (Some e) end.
(** clippy_utils/src/hir_utils.rs [SpanlessEq]: only on values, variables, constructors, calls, `!`, `==` and `||`. *)
Fixpoint same_expr (a b : expr) {struct a} : bool :=
  let fix all (xs ys : list expr) {struct xs} : bool :=
    match xs, ys with
    | [], [] => true
    | x :: xs, y :: ys => same_expr x y && all xs ys
    | _, _ => false
    end in
  match a, b with
  | EVar x _, EVar y _ => Nat.eqb x y
  | EInt x, EInt y => Z.eqb x y
  | EBool x, EBool y => Bool.eqb x y
  | EData k xs, EData l ys => kind_eqb k l && all xs ys
  | ECall f xs, ECall g ys => Nat.eqb f g && all xs ys
  | ENot x, ENot y => same_expr x y
  | EEq n x1 x2, EEq m y1 y2 => Bool.eqb n m && same_expr x1 y1 && same_expr x2 y2
  | EOr x1 x2, EOr y1 y2 => same_expr x1 y1 && same_expr x2 y2
  | EBlock None [] (Some x), EBlock None [] (Some y) => same_expr x y
  | EBlock None [] None, EBlock None [] None => true
  | _, _ => false
  end.
(** [Expr::can_have_side_effects] of rustc is false: values, variables, constructors, and operators on such.  Overloaded
    operators are taken to have no effects. *)
Fixpoint no_effects (e : expr) : bool :=
  match e with
  | EVar _ _ | EInt _ | EBool _ => true
  | EData _ es => forallb no_effects es
  | ENot a => no_effects a
  | EEq _ a b | EOr a b => no_effects a && no_effects b
  | _ => false
  end.
(** clippy_utils/src/hir_utils.rs:1107-1114 [eq_expr_value]. *)
Definition same_value (a b : expr) : bool := same_expr a b && no_effects a.
Definition is_wild (p : pat) : bool := match p with PWild => true | _ => false end.

(** ** match_bool *)
(** match_bool.rs:13-84 [check]: the part with a suggestion. *)
Definition match_bool (e : expr) : option expr :=
  match e with
  | EMatch false c [(PBool b, g, x); (p, _, y)] =>
      match pat_vars p with
      | [] =>
          let test := if b then c else ENot c in
          let test := match g with Some g => and_e test g | None => test end in
          match is_unit x, is_unit y with
          | false, false => Some (EIf test (in_braces x) (Some (in_braces y)))
          | false, true => Some (EIf test (in_braces x) None)
          | true, false => Some (EIf (ENot test) (in_braces y) None)
          | true, true => None
          end
      | _ => None
      end
  | _ => None
  end.

(** ** match_like_matches_macro *)
(** match_like_matches.rs:202-226 [find_bool_lit]. *)
Definition bool_lit (e : expr) : option bool :=
  match e with EBool b | EBlock _ [] (Some (EBool b)) => Some b | _ => None end.
(** match_like_matches.rs:229-237 [is_some_wild]. *)
Definition some_wild (p : pat) : bool :=
  match p with PData (KCtor c) (q :: _) _ => is_wild q && Nat.eqb c c_some | _ => false end.
Definition signed (b : bool) (e : expr) : expr := if b then e else ENot e.
(** match_like_matches.rs:17-64 [check_if_let], 66-199 [check_match]. *)
Definition to_matches (e : expr) : option expr :=
  match e with
  | EIfLet p r a (Some b) =>
      match bool_lit a, bool_lit b with
      | Some b0, Some b1 =>
          if negb (Bool.eqb b0 b1) && negb (some_wild p) then Some (signed b0 (matches_e r [(p, None, EBool true)])) else None
      | _, _ => None
      end
  | EMatch false r ((p0, g0, x0) :: rest) =>
      match rev rest with
      | (p1, _, x1) :: mid =>
          let mid := rev mid in
          match bool_lit x0, bool_lit x1 with
          | Some b0, Some b1 =>
              let plain (a : arm) :=
                match a with
                | (_, None, x) => match bool_lit x with Some b => Bool.eqb b b0 | None => false end
                | _ => false
                end in
              if negb (Bool.eqb b0 b1) && (match mid with [] => true | _ => false end || forallb plain ((p0, g0, x0) :: mid)) &&
                 is_wild p1 && negb (existsb (fun a => match a with (p, _, _) => some_wild p end) ((p0, g0, x0) :: mid))
              then Some (signed b0 (matches_e r (map (fun a => match a with (p, g, _) => (p, g, EBool true) end) ((p0, g0, x0) :: mid))))
              else None
          | _, _ => None
          end
      | [] => None
      end
  | _ => None
  end.

(** ** redundant_pattern_matching *)
(** The method that tells a variant, and whether it is the good one. *)
Definition variant (c : nat) : option (rty * bool) :=
  if Nat.eqb c c_ok then Some (TResult, true)
  else if Nat.eqb c c_err then Some (TResult, false)
  else if Nat.eqb c c_some then Some (TOption, true)
  else if Nat.eqb c c_none then Some (TOption, false)
  else None.
Definition tells (good : bool) : meth := if good then MIsGood else MIsBad.
(** redundant_pattern_match.rs:118-174 [find_method_and_type]; these variants have at most one field. *)
Definition variant_pat (p : pat) : option (rty * bool) :=
  match p with
  | PData (KCtor c) [PWild] _ | PData (KCtor c) [] (Some 0) => given (negb (Nat.eqb c c_none)) (variant c)
  | PData (KCtor c) [] None => given (Nat.eqb c c_none) (variant c)
  | _ => None
  end.
(** redundant_pattern_match.rs:32-44 [check_if_let], 70-105 [find_match_true], 176-269 [find_method_sugg_for_if_let].  A
    `while let` is a loop around an `if let` with `break` for its `else`. *)
Definition if_let_variant (e : expr) : option expr :=
  match e with
  | EIfLet (PBool b) r x y => Some (EIf (signed b r) x y)
  | EIfLet p r x y =>
      match variant_pat p with Some (t, good) => Some (EIf (EMeth t (tells good) r []) x y) | None => None end
  | _ => None
  end.
(** redundant_pattern_match.rs:46-63 [check_matches_true]. *)
Definition matches_true (e : expr) : option expr :=
  match e with
  | EMatch false r [(PBool b, None, EBool true); (PWild, None, EBool false)] => Some (signed b r)
  | _ => None
  end.
(** The variant of an arm: `V(_)`, `V(..)` is not one, `V`. *)
Definition arm_variant (p : pat) : option (rty * bool) :=
  match p with
  | PData (KCtor c) [PWild] _ => given (negb (Nat.eqb c c_none)) (variant c)
  | PData (KCtor c) [] None => given (Nat.eqb c c_none) (variant c)
  | _ => None
  end.
Definition same_rty (a b : rty) : bool :=
  match a, b with TOption, TOption | TResult, TResult | TBool, TBool => true | _, _ => false end.
(** redundant_pattern_match.rs:340-430 [found_good_method], 498-531 [find_good_method_for_match], 533-557
    [find_good_method_for_matches_macro]. *)
Definition good_method (arms : list arm) : option (rty * bool * option expr) :=
  match arms with
  | [(p, g, EBool x); (q, h, EBool y)] =>
      match arm_variant p, q with
      | Some (t, good), PWild =>
          match x, y with
          | true, false => Some (t, good, g)
          | false, true => Some (t, negb good, h)
          | _, _ => None
          end
      | Some (t, good), _ =>
          match arm_variant q with
          | Some (t', good') =>
              if same_rty t t' && negb (Bool.eqb good good') then
                let '(l, r) := if good then (x, y) else (y, x) in
                match l, r with
                | true, false => Some (t, true, g)
                | false, true => Some (t, false, h)
                | _, _ => None
                end
              else None
          | None => None
          end
      | None, _ => None
      end
  | _ => None
  end.
(** redundant_pattern_match.rs:271-326 [check_match]. *)
Definition match_variant (e : expr) : option expr :=
  match e with
  | EMatch false r arms =>
      match good_method arms with
      | Some (t, good, g) =>
          let m := EMeth t (tells good) r [] in
          Some match g with Some g => and_e m g | None => m end
      | None => None
      end
  | _ => None
  end.

(** ** needless_match *)
(** needless_match.rs:157-206 [pat_same_as_expr], 208-220 [same_non_ref_symbols].  Variables and constructors are compared by
    name; a binding hides what else has its name. *)
Fixpoint pat_same (p : pat) (e : expr) {struct p} : bool :=
  let fix all (ps : list pat) (es : list expr) {struct ps} : bool :=
    match ps, es with
    | [], [] => true
    | p :: ps, e :: es => pat_same p e && all ps es
    | _, _ => false
    end in
  match p, e with
  | PData (KCtor c) ps _, EData (KCtor d) es => Nat.eqb c d && all ps es
  | PBind by_ref x _, EVar y _ => negb by_ref && Nat.eqb x y
  | PLit z, EInt y => (0 <=? z)%Z && Z.eqb z y
  | PBool a, EBool b => Bool.eqb a b
  | _, _ => false
  end.
(** needless_match.rs:69-89 [check_all_arms]. *)
Definition same_arm (r : expr) (a : arm) : bool :=
  match a with
  | (p, g, b) =>
      opt_all no_effects g &&
      match p with PWild => same_value r (peel_stmt b) | _ => pat_same p (peel_stmt b) end
  end.
(** needless_match.rs:17-49 [check_match]. *)
Definition needless_match (e : expr) : option expr :=
  match e with
  | EMatch false r arms => if (1 <? length arms) && forallb (same_arm r) arms then Some r else None
  | _ => None
  end.
(** needless_match.rs:91-120 [check_if_let_inner]; [opt]: the scrutinee is an Option. *)
Fixpoint same_if_let (opt : bool) (r : expr) (e : expr) {struct e} : bool :=
  match e with
  | EIfLet p r' a (Some b) =>
      same_expr r' r && pat_same p (peel_stmt a) &&
      match b with
      | EIfLet _ _ _ _ => same_if_let opt r b
      | EBlock _ _ _ =>
          match peel_stmt b with
          | EBlock _ _ _ => false
          | x => opt && is_none_expr x || same_value r x
          end
      | _ => false
      end
  | _ => false
  end.
(** needless_match.rs:51-67 [check_if_let]. *)
Definition needless_if_let (opt : bool) (e : expr) : option expr :=
  match e with EIfLet _ r _ _ => if same_if_let opt r e then Some r else None | _ => None end.

(** ** single_match *)
(** single_match.rs:28-81 [check]: what follows `else`. *)
Definition single_else (b : expr) : option (option expr) :=
  if is_unit (peel_blocks b) then Some None
  else match b with
       | EBlock _ [] (Some _) | EBlock _ [_] None => None
       | EBlock _ _ _ => Some (Some b)
       | _ => None
       end.
(** The constant a pattern stands for. *)
Definition const_of (p : pat) : option expr :=
  match p with
  | PLit z => Some (EInt z)
  | PData (KCtor c) [] None => Some (EData (KCtor c) [])
  | _ => None
  end.
(** single_match.rs:83-189 [report_single_pattern]; [eq]: the type derives PartialEq or is integral.  Of scrutinees with the
    text of the pattern only constants are modelled. *)
Definition single_match (eq : bool) (e : expr) : option expr :=
  match e with
  | EMatch false r [(p, None, a); (q, None, b)] =>
      match pat_vars q, single_else b with
      | [], Some els =>
          match const_of p with
          | Some k =>
              if same_expr k r then Some (if is_unit a then EBlock None [] None else a)
              else if eq then Some (EIf (EEq false r k) (in_braces a) (option_map in_braces els))
              else Some (EIfLet p r (in_braces a) (option_map in_braces els))
          | None => Some (EIfLet p r (in_braces a) (option_map in_braces els))
          end
      | _, _ => None
      end
  | _ => None
  end.

(** ** collapsible_match *)
(** collapsible_match.rs:216-221 [arm_is_wild_like]. *)
Definition wild_like (a : arm) : bool :=
  match a with
  | (PWild, None, _) | (PBind _ _ _, None, _) => true
  | (PData (KCtor c) [] None, None, _) => Nat.eqb c c_none
  | _ => false
  end.
Definition rfind {A} (f : A -> bool) (l : list A) : option A := find f (rev l).
(** collapsible_match.rs:147-151: the two `else` agree. *)
Definition same_else (a b : option expr) : bool :=
  match a, b with
  | None, None => true
  | None, Some e | Some e, None => is_unit e
  | Some a, Some b => same_expr a b
  end.
(** collapsible_match.rs:143-211 [check_arm]: an `if` in an arm becomes a guard. *)
Definition guard_arm (els : expr) (a : arm) : option arm :=
  match a with
  | (p, g, b) =>
      match peel_stmt b with
      | EIf c x y =>
          if same_else (Some els) y then Some (p, Some match g with Some g => and_e g c | None => c end, x) else None
      | _ => None
      end
  end.
(** Replacing one arm. *)
Fixpoint each_arm (f : arm -> list arm -> option arm) (arms : list arm) : list (list arm) :=
  match arms with
  | [] => []
  | a :: arms =>
      match f a arms with Some a' => [a' :: arms] | None => [] end ++ map (cons a) (each_arm f arms)
  end.
(** collapsible_match.rs:23-42 [check_match]. *)
Definition collapse_guard (e : expr) : list expr :=
  match e with
  | EMatch false r arms =>
      match rfind wild_like arms with
      | Some (_, _, els) =>
          map (EMatch false r) (each_arm (fun a after => if forallb wild_like after then guard_arm els a else None) arms)
      | None => []
      end
  | _ => []
  end.
(** The mode of the binding of a variable in a pattern. *)
Fixpoint mode_of (x : nat) (p : pat) : option bool :=
  let first (ps : list pat) : option bool :=
    fold_right (fun p o => match mode_of x p with Some b => Some b | None => o end) None ps in
  match p with
  | PBind r y sub => if Nat.eqb x y then Some r else match sub with Some q => mode_of x q | None => None end
  | PData _ ps _ => first ps
  | PSlice b m a =>
      match first b with
      | Some r => Some r
      | None => match match m with Some q => mode_of x q | None => None end with Some r => Some r | None => first a end
      end
  | PStruct _ fs _ =>
      fold_right (fun y o => match y with (_, p) => match mode_of x p with Some b => Some b | None => o end end) None fs
  | PRef q => mode_of x q
  | _ => None
  end.
(** A binding is replaced by a pattern. *)
Fixpoint put (x : nat) (q : pat) (p : pat) : pat :=
  match p with
  | PBind r y sub => if Nat.eqb x y then q else PBind r y (option_map (put x q) sub)
  | PData k ps d => PData k (map (put x q) ps) d
  | PSlice b m a => PSlice (map (put x q) b) (option_map (put x q) m) (map (put x q) a)
  | PStruct c fs rest => PStruct c (map (fun y => match y with (i, p) => (i, put x q p) end) fs) rest
  | PRef p => PRef (put x q p)
  | p => p
  end.
(** collapsible_match.rs:70-142 [check_arm]: a match on, or `if let` of, a variable bound in the pattern.  The lint says that
    the pattern can be put in place of the binding. *)
Definition inner_match (e : expr) : option (nat * pat * expr * option expr) :=
  match e with
  | EIfLet q (EVar x _) a b => Some (x, q, a, b)
  | EMatch false (EVar x _) [(q1, None, b1); (q2, None, b2)] =>
      if wild_like (q2, None, b2) then Some (x, q1, b1, Some b2)
      else if wild_like (q1, None, b1) then Some (x, q2, b2, Some b1)
      else None
  | _ => None
  end.
Definition pattern_arm (els : option expr) (a : arm) : option arm :=
  match a with
  | (p, g, b) =>
      match inner_match (peel_stmt b) with
      | Some (x, q, y, z) =>
          if existsb (Nat.eqb x) (pat_vars p) && same_else els z && opt_all (fun g => negb (local_used x g)) g &&
             negb (local_used x y) && opt_all (fun z => negb (local_used x z)) z
          then Some (put x q p, g, y)
          else None
      | None => None
      end
  end.
(** collapsible_match.rs:23-55 [check_match], [check_if_let]. *)
Definition collapse_pattern (e : expr) : list expr :=
  match e with
  | EMatch false r arms =>
      match rfind wild_like arms with
      | Some (_, _, els) => map (EMatch false r) (each_arm (fun a _ => pattern_arm (Some els) a) arms)
      | None => []
      end
  | EIfLet p r a b =>
      match pattern_arm b (p, None, a) with Some (p', _, a') => [EIfLet p' r a' b] | None => [] end
  | _ => []
  end.

(** ** redundant_guards *)
(** redundant_guards.rs:247-274 [expr_can_be_pat], and the pattern with that text. *)
Fixpoint as_pat (e : expr) : option pat :=
  let fix all (es : list expr) : option (list pat) :=
    match es with
    | [] => Some []
    | e :: es => match as_pat e, all es with Some p, Some ps => Some (p :: ps) | _, _ => None end
    end in
  match e with
  | EInt z => Some (PLit z)
  | EBool b => Some (PBool b)
  | EData KArr es => match all es with Some ps => Some (PSlice ps None []) | None => None end
  | EData k es => match all es with Some ps => Some (PData k ps None) | None => None end
  | _ => None
  end.
(** redundant_guards.rs:163-202 [get_pat_binding]. *)
Definition pat_binding (e : expr) (p : pat) (body : expr) : option (nat * bool) :=
  match e with
  | EVar x _ => if local_used x body then None else match mode_of x p with Some r => Some (x, r) | None => None end
  | _ => None
  end.
(** redundant_guards.rs:32-36, 51-55: the pattern as seen through an explicit `ref`; modes that come from match ergonomics
    are taken to be written. *)
Definition through (q : pat) (by_ref : bool) : option pat :=
  match q, by_ref with
  | PRef q, true => Some q
  | PRef _, false | _, true => None
  | q, false => Some q
  end.
(** redundant_guards.rs:20-102 [check] for one arm; the guard `if let p = x` is `if let p = x { true } else { false }`, so that
    its variables are not visible in the body. *)
Definition pattern_guard (a : arm) : option arm :=
  match a with
  | (p, Some (EMatch false e [(q, ig, EBool true); (PWild, None, EBool false)]), b) =>
      match pat_binding e p b with
      | Some (x, r) => match through q r with Some q => Some (put x q p, ig, b) | None => None end
      | None => None
      end
  | (p, Some (EIfLet q e (EBool true) (Some (EBool false))), b) =>
      match pat_binding e p b with
      | Some (x, r) => match through q r with Some q => Some (put x q p, None, b) | None => None end
      | None => None
      end
  | (p, Some (EEq false e1 e2), b) =>
      match match pat_binding e1 p b with
            | Some y => Some (y, e2)
            | None => match pat_binding e2 p b with Some y => Some (y, e1) | None => None end
            end with
      | Some (x, r, k) =>
          match as_pat k with
          | Some q => if r then None else Some (put x q p, None, b)
          | None => None
          end
      | None => None
      end
  | _ => None
  end.
Definition redundant_guards (e : expr) : list expr :=
  match e with
  | EMatch false r arms => map (EMatch false r) (each_arm (fun a _ => pattern_guard a) arms)
  | _ => []
  end.
