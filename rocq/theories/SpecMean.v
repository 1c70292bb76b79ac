(** Specification vocabulary: signals that are never negative, and their mean. *)
From Coq Require Import String List ZArith Reals.
From Coquelicot Require Import Complex.
From Verif Require Import PyBase DataModel FDataModel SpecFData SpecFit.
Import ListNotations.
Open Scope R_scope.

Definition mean (p : list (R * R)) : R := rsum snd p / INR (length p).

(** Every row of a container holds the coefficients of a function that is real
    and nowhere negative. *)
Definition intensities (f : fdat) : Prop :=
  forall k v, fget_pc f k = Ok v -> forall x, Im (series (fget_M f) v x) = 0 /\ 0 <= Re (series (fget_M f) v x).

(** The coefficient at frequency zero is real and no other one is larger. *)
Definition dominated (M : nat) (v : list C) : Prop :=
  Im (coef M v 0) = 0 /\ forall m, (Z.abs m <= Z.of_nat M)%Z -> Cmod (coef M v m) <= Re (coef M v 0).
