(** Specification for property C148: noisy measurements of a crystal. *)
From Coq Require Import String List Reals.
From Coquelicot Require Import Complex.
From Verif Require Import PyBase Expr DataModel SpecData FDataModel SpecFData TensorModel SpecFormgen SpecFformgen.
Local Open Scope nat_scope.

(** Every point is the intensity of the crystal up to an error of at most [e]. *)
Definition measured_within (e th : R) (E : nat -> nat -> nat -> C) (Q : nat -> nat -> nat -> nat -> C) (d : dat) : Prop :=
  forall inp out, In (key inp out) (get_keys d) /\
    forall p x y, get_pc d (key inp out) "radians" = Ok p -> In (x, y) p -> (Rabs (y - setup_intensity (fformgen_setup th) E Q inp out x) <= e)%R.

(** More than 32 equally spaced points per polarization. *)
Definition finely_sampled (interp : list (R * R) -> res (R -> R)) (d : dat) : Prop :=
  forall k p, get_pc d k "radians" = Ok p -> 32 < length p /\ equally_spaced p /\ is_ok (interp p).

(** The intensities of two crystals differ by at most [b] at every angle. *)
Definition patterns_within (b th : R) (E E' : nat -> nat -> nat -> C) (Q Q' : nat -> nat -> nat -> nat -> C) : Prop :=
  forall inp out x, (Rabs (setup_intensity (fformgen_setup th) E Q inp out x - setup_intensity (fformgen_setup th) E' Q' inp out x) <= b)%R.
