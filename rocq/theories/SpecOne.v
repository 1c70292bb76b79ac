(** Specification for property C147: crystals with one parameter. *)
From Coq Require Import List Reals.
From Coquelicot Require Import Complex.
From Verif Require Import PyBase Expr TensorModel SpecFormgen SpecFformgen.
Local Open Scope nat_scope.

(** Both arrays are multiples of the parameter [s], with the patterns [E] and [Q]. *)
Definition one_parameter (s : sym) (d q : tensor expr) (E : nat -> nat -> nat -> C) (Q : nat -> nat -> nat -> nat -> C) : Prop :=
  forall rho, (forall i j k, i < 3 -> j < 3 -> k < 3 -> val3 rho (Some d) i j k = (rho s * E i j k)%C) /\
    (forall i j k h, i < 3 -> j < 3 -> k < 3 -> h < 3 -> val4 rho (Some q) i j k h = (rho s * Q i j k h)%C).

(** Some polarization and angle gives light. *)
Definition seen (th : R) (E : nat -> nat -> nat -> C) (Q : nat -> nat -> nat -> nat -> C) : Prop :=
  exists inp out x, setup_intensity (fformgen_setup th) E Q inp out x <> 0%R.
