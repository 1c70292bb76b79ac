(** Complex numbers and expressions as tensor entries. *)
From Coq Require Import Reals List QArith.
From Coquelicot Require Import Complex.
From Verif Require Import TensorModel SpecTensor Expr.
Import ListNotations.

#[global] Instance Sig_C : Sig C := {| zero := RtoC 0; one := RtoC 1; add := Cplus; mul := Cmult |}.
#[global] Instance CSR_C : CSR C.
Proof. constructor; intros; simpl; ring. Qed.

(** Arithmetic on expressions, each result passed through [ev] (sympy's
    automatic evaluation). *)
Definition Sig_ev (ev : expr -> expr) : Sig expr :=
  {| zero := num 0; one := num 1; add := fun a b => ev (EAdd [a; b]); mul := fun a b => ev (EMul [a; b]) |}.
