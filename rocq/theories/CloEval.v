(** Induction over the expressions of CloSpec, and what evaluation keeps. *)
From Verif Require Export CloModel.

Definition Opt (P : expr -> Prop) (o : option expr) : Prop := match o with Some e => P e | None => True end.
Definition StmtP (P : expr -> Prop) (s : stmt) : Prop :=
  match s with SLet _ i b => Opt P i /\ Opt P b | SExpr e | SSemi e => P e end.
Definition ArgP (P : expr -> Prop) (a : arg) : Prop := match a with AE e => P e | AC _ b => P b | AP _ => True end.
Definition ArmP (P : expr -> Prop) (a : pat * option expr * expr) : Prop :=
  match a with (_, g, b) => Opt P g /\ P b end.

Section Ind.
  Variable P : expr -> Prop.
  Hypothesis Hvar : forall x a, P (EVar x a).
  Hypothesis Hint : forall z, P (EInt z).
  Hypothesis Hbool : forall b, P (EBool b).
  Hypothesis Hdata : forall k es, Forall P es -> P (EData k es).
  Hypothesis Hstruct : forall c fs, Forall (fun x => P (snd x)) fs -> P (EStruct c fs).
  Hypothesis Hcall : forall f es, Forall P es -> P (ECall f es).
  Hypothesis Hcallp : forall p es, Forall P es -> P (ECallPath p es).
  Hypothesis Hnot : forall e, P e -> P (ENot e).
  Hypothesis Heq : forall n a b, P a -> P b -> P (EEq n a b).
  Hypothesis Hor : forall a b, P a -> P b -> P (EOr a b).
  Hypothesis Hassign : forall x e, P e -> P (EAssign x e).
  Hypothesis Hif : forall c a b, P c -> P a -> Opt P b -> P (EIf c a b).
  Hypothesis Hiflet : forall p c a b, P c -> P a -> Opt P b -> P (EIfLet p c a b).
  Hypothesis Hmatch : forall t e arms, P e -> Forall (ArmP P) arms -> P (EMatch t e arms).
  Hypothesis Hblock : forall l ss t, Forall (StmtP P) ss -> Opt P t -> P (EBlock l ss t).
  Hypothesis Hloop : forall l b, P b -> P (ELoop l b).
  Hypothesis Hret : forall o, Opt P o -> P (ERet o).
  Hypothesis Hbreak : forall l o, Opt P o -> P (EBreak l o).
  Hypothesis Hclosure : forall ps b, P b -> P (EClosure ps b).
  Hypothesis Hmeth : forall t m r args, P r -> Forall (ArgP P) args -> P (EMeth t m r args).
  Hypothesis Hpanic : forall es, Forall P es -> P (EPanic es).

  Fixpoint expr_ind' (e : expr) : P e :=
    let fix list_ind (es : list expr) : Forall P es :=
      match es with [] => Forall_nil _ | e :: es => Forall_cons _ (expr_ind' e) (list_ind es) end in
    let opt_ind (o : option expr) : Opt P o :=
      match o return Opt P o with Some e => expr_ind' e | None => I end in
    match e with
    | EVar x a => Hvar x a
    | EInt z => Hint z
    | EBool b => Hbool b
    | EData k es => Hdata k es (list_ind es)
    | EStruct c fs =>
        Hstruct c fs ((fix go (fs : list (nat * expr)) : Forall (fun x => P (snd x)) fs :=
                         match fs with
                         | [] => Forall_nil _
                         | (i, e) :: fs => Forall_cons (i, e) (expr_ind' e) (go fs)
                         end) fs)
    | ECall f es => Hcall f es (list_ind es)
    | ECallPath p es => Hcallp p es (list_ind es)
    | ENot e => Hnot e (expr_ind' e)
    | EEq n a b => Heq n a b (expr_ind' a) (expr_ind' b)
    | EOr a b => Hor a b (expr_ind' a) (expr_ind' b)
    | EAssign x e => Hassign x e (expr_ind' e)
    | EIf c a b => Hif c a b (expr_ind' c) (expr_ind' a) (opt_ind b)
    | EIfLet p c a b => Hiflet p c a b (expr_ind' c) (expr_ind' a) (opt_ind b)
    | EMatch t e arms =>
        Hmatch t e arms (expr_ind' e)
          ((fix go (arms : list (pat * option expr * expr)) : Forall (ArmP P) arms :=
              match arms with
              | [] => Forall_nil _
              | (p, g, b) :: arms =>
                  Forall_cons (p, g, b) (conj (match g return Opt P g with Some e => expr_ind' e | None => I end) (expr_ind' b))
                    (go arms)
              end) arms)
    | EBlock l ss t =>
        Hblock l ss t
          ((fix go (ss : list stmt) : Forall (StmtP P) ss :=
              match ss with
              | [] => Forall_nil _
              | s :: ss =>
                  Forall_cons s
                    (match s return StmtP P s with
                     | SLet p i b =>
                         conj (match i return Opt P i with Some e => expr_ind' e | None => I end)
                              (match b return Opt P b with Some e => expr_ind' e | None => I end)
                     | SExpr e => expr_ind' e
                     | SSemi e => expr_ind' e
                     end) (go ss)
              end) ss) (opt_ind t)
    | ELoop l b => Hloop l b (expr_ind' b)
    | ERet o => Hret o (opt_ind o)
    | EBreak l o => Hbreak l o (opt_ind o)
    | EClosure ps b => Hclosure ps b (expr_ind' b)
    | EMeth t m r args =>
        Hmeth t m r args (expr_ind' r)
          ((fix go (args : list arg) : Forall (ArgP P) args :=
              match args with
              | [] => Forall_nil _
              | a :: args =>
                  Forall_cons a
                    (match a return ArgP P a with AE e => expr_ind' e | AC ps b => expr_ind' b | AP _ => I end) (go args)
              end) args)
    | EPanic es => Hpanic es (list_ind es)
    end.
End Ind.

(** ** Evaluation of the parts, by name. *)
Section Parts.
  Variable w : world.
  Variable fuel : nat.
  Notation st := (state w).
  Notation ev := (eval w fuel).

  Fixpoint evals (es : list expr) (s : st) (k : list val -> st -> out * st) {struct es} : out * st :=
    match es with
    | [] => k [] s
    | e :: es => andthen w (ev e s) (fun v s => evals es s (fun vs s => k (v :: vs) s))
    end.
  Fixpoint efields (fs : list (nat * expr)) (s : st) (k : list (nat * val) -> st -> out * st) {struct fs} : out * st :=
    match fs with
    | [] => k [] s
    | (i, e) :: fs => andthen w (ev e s) (fun v s => efields fs s (fun vs s => k ((i, v) :: vs) s))
    end.
  Definition eopt (o : option expr) (s : st) : out * st := match o with Some e => ev e s | None => (OVal unit_v, s) end.
  Definition earms (v : val) := fix earms (arms : list (pat * option expr * expr)) (s : st) {struct arms} : out * st :=
    match arms with
    | [] => (OStuck, s)
    | (p, g, b) :: arms =>
        match match_pat p v with
        | None => earms arms s
        | Some bs =>
            let n := length (fst s) in
            match g with
            | None => let '(o, s') := ev b (enter bs s) in (o, leave n s')
            | Some g =>
                match ev g (enter bs s) with
                | (OVal (VBool true), s') => let '(o, s'') := ev b s' in (o, leave n s'')
                | (OVal (VBool false), s') => earms arms (leave n s')
                | (OVal _, s') => (OStuck, leave n s')
                | (o, s') => (o, leave n s')
                end
            end
        end
    end.
  Definition estmts (t : option expr) := fix estmts (ss : list stmt) (s : st) {struct ss} : out * st :=
    match ss with
    | [] => eopt t s
    | SExpr e :: ss | SSemi e :: ss => andthen w (ev e s) (fun _ s => estmts ss s)
    | SLet p None _ :: ss => (OStuck, s)
    | SLet p (Some i) els :: ss =>
        andthen w (ev i s)
          (fun v s => match match_pat p v, els with
                      | Some bs, _ => estmts ss (enter bs s)
                      | None, Some b => match ev b s with (OVal _, s) => (OStuck, s) | r => r end
                      | None, None => (OStuck, s)
                      end)
    end.
  Definition rounds (l : option nat) (b : expr) := fix rounds (k : nat) (s : st) {struct k} : out * st :=
    match k with
    | O => (ODiverge, s)
    | S k =>
        match ev b s with
        | (OVal _, s) => rounds k s
        | (OBrk None v, s) => (OVal v, s)
        | (OBrk l' v, s) => (if same_label l l' then OVal v else OBrk l' v, s)
        | r => r
        end
    end.
  Definition eargs (t : rty) (m : meth) (v : val) := fix eargs (args : list arg) (s : st) (es : list val)
    (fs : list (list val -> st -> out * st)) {struct args} : out * st :=
    match args with
    | [] => method w t m v (rev es) (rev fs) s
    | AE e :: args => andthen w (ev e s) (fun u s => eargs args s (u :: es) fs)
    | a :: args => eargs args s es (apply w fuel a :: fs)
    end.
  Definition unlabel (l : option nat) (o : out) : out :=
    match o with OBrk l' v => if same_label l l' then OVal v else o | _ => o end.

  Lemma eval_data : forall k es s, ev (EData k es) s = evals es s (fun vs s => (OVal (VData k vs), s)).
  Proof. reflexivity. Qed.
  Lemma eval_struct : forall c fs s, ev (EStruct c fs) s =
    efields fs s (fun vs s => match build vs with Some l => (OVal (VData (KCtor c) l), s) | None => (OStuck, s) end).
  Proof. reflexivity. Qed.
  Lemma eval_call : forall f es s, ev (ECall f es) s = evals es s (calls w f).
  Proof. reflexivity. Qed.
  Lemma eval_callp : forall p es s, ev (ECallPath p es) s = evals es s (call_path w p).
  Proof. reflexivity. Qed.
  Lemma eval_panic : forall es s, ev (EPanic es) s = evals es s (fun _ s => (OPanic, s)).
  Proof. reflexivity. Qed.
  Lemma eval_if : forall c a b s, ev (EIf c a b) s =
    andthen w (ev c s) (fun v s => match v with VBool true => ev a s | VBool false => eopt b s | _ => (OStuck, s) end).
  Proof. reflexivity. Qed.
  Lemma eval_iflet : forall p c a b s, ev (EIfLet p c a b) s =
    andthen w (ev c s)
      (fun v s => match match_pat p v with
                  | Some bs => let '(o, s') := ev a (enter bs s) in (o, leave (length (fst s)) s')
                  | None => eopt b s
                  end).
  Proof. reflexivity. Qed.
  Lemma eval_match : forall t e arms s, ev (EMatch t e arms) s = andthen w (ev e s) (fun v s => earms v arms s).
  Proof. reflexivity. Qed.
  Lemma eval_block : forall l ss t s, ev (EBlock l ss t) s =
    let '(o, s') := estmts t ss s in (unlabel l o, leave (length (fst s)) s').
  Proof. reflexivity. Qed.
  Lemma eval_loop : forall l b s, ev (ELoop l b) s = rounds l b fuel s.
  Proof. reflexivity. Qed.
  Lemma eval_ret : forall o s, ev (ERet o) s = andthen w (eopt o s) (fun v s => (ORet v, s)).
  Proof. reflexivity. Qed.
  Lemma eval_break : forall l o s, ev (EBreak l o) s = andthen w (eopt o s) (fun v s => (OBrk l v, s)).
  Proof. reflexivity. Qed.
  Lemma eval_meth : forall t m r args s, ev (EMeth t m r args) s =
    andthen w (ev r s) (fun v s => match view_of t v with None => (OStuck, s) | Some _ => eargs t m v args s [] [] end).
  Proof. reflexivity. Qed.
End Parts.
