(** Models of /repo/clippy_lints/src/ranges.rs (manual_range_contains), minmax.rs and
    methods/unnecessary_min_or_max.rs. *)
From Verif Require Export RustExpr ConstModel ArithModel CmpModel.
Open Scope Z_scope.

(** ** manual_range_contains *)
(** ranges.rs:316-324 [RangeBounds].  [rb_ord] is [Lt] or [Gt], seen from the
    variable; the local is identified by its node (a local has one type). *)
Record rbound := { rb_val : constant; rb_expr : expr; rb_name : expr; rb_ord : comparison; rb_inc : bool }.
(** ranges.rs:326-365 [check_range_bounds]. *)
Definition check_range_bounds (p : ptrw) (e : expr) : option rbound :=
  match e with
  | EBin (BC c) l r =>
      match (match c with CGt => Some (false, Gt) | CGe => Some (true, Gt) | CLt => Some (false, Lt) | CLe => Some (true, Lt) | _ => None end) with
      | Some (inc, ord) =>
          match l, r with
          | EVar _ _, _ =>
              match ceval p p r with
              | Some c => Some {| rb_val := c; rb_expr := r; rb_name := l; rb_ord := ord; rb_inc := inc |}
              | None => None
              end
          | _, EVar _ _ =>
              match ceval p p l with
              | Some c => Some {| rb_val := c; rb_expr := l; rb_name := r; rb_ord := CompOpp ord; rb_inc := inc |}
              | None => None
              end
          | _, _ => None
          end
      | None => None
      end
  | _ => None
  end.
Definition cmp_eqb (a b : comparison) : bool :=
  match a, b with Eq, Eq | Lt, Lt | Gt, Gt => true | _, _ => false end.
Definition is_float (e : expr) : bool := match ty_of e with Some TF => true | _ => false end.
(** ranges.rs:213-298, the pair of comparisons. *)
Definition range_contains_pair (p : ptrw) (combine_and : bool) (left right : expr) : option expr :=
  match check_range_bounds p left, check_range_bounds p right with
  | Some l, Some r =>
      if negb (expr_eqb (rb_name l) (rb_name r)) || cmp_eqb (rb_ord l) (rb_ord r) then None
      else
        match ty_of (rb_expr l) with
        | Some tl =>
          match const_partial_cmp p tl (rb_val l) (rb_val r) with
          | Some ord =>
              if combine_and && cmp_eqb ord (rb_ord r) then
                let '(lo, hi, l_inc, u_inc) :=
                  if cmp_eqb (rb_ord r) Lt then (rb_expr l, rb_expr r, rb_inc l, rb_inc r) else (rb_expr r, rb_expr l, rb_inc r, rb_inc l) in
                if l_inc then Some (EContains u_inc lo hi (rb_name l)) else None
              else if negb combine_and && cmp_eqb ord (rb_ord l) then
                if is_float (rb_expr l) then None
                else
                  let '(lo, hi, l_inc, u_inc) :=
                    if cmp_eqb (rb_ord l) Lt then (rb_expr l, rb_expr r, rb_inc l, rb_inc r) else (rb_expr r, rb_expr l, rb_inc r, rb_inc l) in
                  if l_inc then None else Some (EUn UNot (EContains (negb u_inc) lo hi (rb_name l)))
              else None
          | None => None
          end
        | None => None
        end
  | _, _ => None
  end.
Definition range_combiner (o : binop) : option bool :=
  match o with BAnd | BI OAnd => Some true | BOr | BI OOr => Some false | _ => None end.
Definition binop_same (a b : binop) : bool :=
  match a, b with BAnd, BAnd | BOr, BOr | BI OAnd, BI OAnd | BI OOr, BI OOr => true | _, _ => false end.
Definition opt_list {A} (o : option A) : list A := match o with Some a => [a] | None => [] end.
(** ranges.rs:193-204 [check_expr] and 301-313, the recursion into `(a && b) && c`, which replaces
    the text `b && c`.  An operand that is itself the same operation was parenthesised, and the
    parenthesis count then stops the recursion. *)
Definition range_contains (p : ptrw) (e : expr) : list expr :=
  match e with
  | EBin o l r =>
      match range_combiner o with
      | Some ca =>
          opt_list (range_contains_pair p ca l r) ++
          match l with
          | EBin o' a b => if binop_same o o' then map (fun q => EBin o a q) (opt_list (range_contains_pair p ca b r)) else []
          | _ => []
          end
      | None => []
      end
  | _ => []
  end.

(** ** min_max *)
(** minmax.rs:65-117 [min_max] and [fetch_const]; [true] is [Max].  Function and method calls are the
    same node. *)
Definition mm_kind (k : meth1) : option bool := match k with MMax => Some true | MMin => Some false | _ => None end.
Definition fetch_min_max (p : ptrw) (e : expr) : option (bool * constant * expr) :=
  match e with
  | EM1 k a b =>
      match mm_kind k, eval_local p p a, eval_local p p b with
      | Some m, Some c, None => Some (m, c, b)
      | Some m, None, Some c => Some (m, c, a)
      | _, _, _ => None
      end
  | _ => None
  end.
(** minmax.rs:38-56 [check_expr]. *)
Definition min_max_lint (p : ptrw) (e : expr) : bool :=
  match fetch_min_max p e with
  | Some (om, oc, oe) =>
      match fetch_min_max p oe with
      | Some (im, ic, ie) =>
          negb (Bool.eqb om im) &&
          match ty_of ie with
          | Some t => match const_partial_cmp p t oc ic with
                      | Some ord => match om, ord with true, (Eq | Gt) | false, (Eq | Lt) => true | _, _ => false end
                      | None => false
                      end
          | None => false
          end
      | None => false
      end
  | None => false
  end.

(** ** unnecessary_min_or_max *)
(** unnecessary_min_or_max.rs:78-109 [detect_extrema]: [Some true] is the maximum.  The width of
    isize is not known to the code. *)
Definition detect_extrema (p : ptrw) (e : expr) : option bool :=
  match ty_of e, ceval p p e with
  | Some (TI t), Some c =>
      match int_value p c (Some (TI t)) with
      | Some (FS i) =>
          match ity_size t with
          | WSize => None
          | _ => if i =? imin p t then Some false else if i =? imax p t then Some true else None
          end
      | Some (FU i) => if i =? 2 ^ bits p t - 1 then Some true else if i =? 0 then Some false else None
      | None => None
      end
  | _, _ => None
  end.
(** unnecessary_min_or_max.rs:52-76 [lint]: the operand offered. *)
Definition mm_suggest (is_max : bool) (recv arg : expr) (ord : comparison) : expr :=
  let is_ge := match ord with Lt => false | _ => true end in
  let is_le := match ord with Gt => false | _ => true end in
  if (negb is_max && is_ge) || (is_max && is_le) then arg else recv.
(** unnecessary_min_or_max.rs:14-50 [check]. *)
Definition unnecessary_min_max (p : ptrw) (e : expr) : option expr :=
  match e with
  | EM1 k recv arg =>
      match mm_kind k with
      | Some is_max =>
          if is_float recv then None      (* f64::min is not Ord::min *)
          else
          match eval_local p p recv, eval_local p p arg, ty_of recv with
          | Some l, Some r, Some t => option_map (mm_suggest is_max recv arg) (const_partial_cmp p t l r)
          | _, _, _ =>
              match detect_extrema p recv with
              | Some mx => Some (mm_suggest is_max recv arg (if mx then Gt else Lt))
              | None => option_map (fun mx : bool => mm_suggest is_max recv arg (if mx then Lt else Gt)) (detect_extrema p arg)
              end
          end
      | None => None
      end
  | _ => None
  end.
