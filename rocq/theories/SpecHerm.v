(** Specification vocabulary: Fourier containers of real signals. *)
From Coq Require Import String List ZArith Reals.
From Coquelicot Require Import Complex.
From Verif Require Import PyBase Expr DataModel FDataModel SpecFData FormModel SpecFit.
Import ListNotations.

(** Every row of a container holds the coefficients of a real function. *)
Definition real_signals (f : fdat) : Prop := forall k v, fget_pc f k = Ok v -> hermitian (fget_M f) v.

(** The sum of squares over the frequencies 0..M, all but the first counted
    twice. *)
Definition half_misfit (F : fform) (D : fdat) (rho : sym -> C) : R :=
  rsum (fun kr => let dist m := (Cmod (Cminus (eval rho (fcell (ff_M F) (snd kr) m)) (dvalue D (fst kr) m)) ^ 2)%R in
          (dist 0%Z + 2 * rsum (fun i => dist (Z.of_nat i)) (seq 1 (ff_M F)))%R) (ff_rows F).

(** The formula is real for these values of its symbols. *)
Definition real_formula (F : fform) (rho : sym -> C) : Prop :=
  forall k r x, In (k, r) (ff_rows F) -> Im (formula_at F rho r x) = 0%R.
