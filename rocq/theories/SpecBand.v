(** Specification for property C145: Fourier data without high orders. *)
From Coq Require Import List ZArith Reals.
From Coquelicot Require Import Complex.
From Verif Require Import CBase FDataModel SpecFData.

(** No coefficients of orders beyond B. *)
Definition up_to (B M : nat) (v : list C) : Prop :=
  forall m, (Z.of_nat B < Z.abs m <= Z.of_nat M)%Z -> coef M v m = RtoC 0.
