(** Specification of constants: which value a constant stands for. *)
From Verif Require Export RustExpr ConstModel.
Open Scope Z_scope.

(** What a constant says about a value of a given type. *)
Definition denotes (p : ptrw) (c : constant) (v : val) : Prop :=
  match c, v with
  | CInt u, VI t z => u = to_bits p t z
  | CBool b, VB b' => b = b'
  | CF64 f, VF f' => f = f'
  | _, _ => False
  end.


(** The mathematical integer a signed-or-unsigned 128-bit integer stands for. *)
Definition fi_val (a : fullint) : Z := match a with FS z => z | FU z => z end.
(** Representable as the Rust enum. *)
Definition fi_wf (a : fullint) : Prop :=
  match a with FS z => - 2 ^ 127 <= z < 2 ^ 127 | FU z => 0 <= z < 2 ^ 128 end.
