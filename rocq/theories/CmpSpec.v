(** What the diagnostics of the comparison lints claim, in terms of evaluation. *)
From Verif Require Export LintSpec CmpModel.
Open Scope Z_scope.

(** The operator a normalized relation stands for. *)
Definition rel_cop (r : rel) : cop := match r with RLt => CLt | RLe => CLe | REq => CEq | RNe => CNe end.

(** What the verdict of absurd_extreme_comparisons says about the comparison. *)
Definition absurd_claim (m : mode) (p : ptrw) (rho : env) (e : expr) (a : absurd) (v : val) : Prop :=
  match a with
  | AlwaysFalse => v = VB false
  | AlwaysTrue => v = VB true
  | InequalityImpossible => match e with EBin _ l r => eval m p rho (EBin (BC CEq) l r) = Ok v | _ => False end
  end.

(** What a verdict of redundant_comparisons / impossible_comparisons claims about `lc && rc`,
    whose value is [v]: the left (right) condition may be dropped, or the value is `false`. *)
Definition const_claim (m : mode) (p : ptrw) (rho : env) (lc rc : expr) (k : const_cmp) (v : val) : Prop :=
  match k with
  | LeftUseless => forall w, eval m p rho rc = Ok w -> w = v
  | RightUseless => eval m p rho lc = Ok v
  | Impossible => v = VB false
  end.
