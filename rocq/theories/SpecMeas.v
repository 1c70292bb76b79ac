(** Specification for property C146: data measured on the crystal of a formula. *)
From Coq Require Import String List Reals.
From Coquelicot Require Import Complex.
From Verif Require Import PyBase Expr DataModel SpecData FDataModel SpecFData TensorModel SpecFormgen SpecFformgen.
Local Open Scope nat_scope.

(** The points of the four polarizations are the intensities of the crystal with
    tensors [E] and [Q], without noise, in the geometry of fformgen. *)
Definition measured_on (th : R) (E : nat -> nat -> nat -> C) (Q : nat -> nat -> nat -> nat -> C) (d : dat) : Prop :=
  forall inp out, In (key inp out) (get_keys d) /\
    forall p x y, get_pc d (key inp out) "radians" = Ok p -> In (x, y) p -> y = setup_intensity (fformgen_setup th) E Q inp out x.

(** More than 24 equally spaced points per polarization, which the interpolation
    accepts. *)
Definition well_sampled (interp : list (R * R) -> res (R -> R)) (d : dat) : Prop :=
  forall k p, get_pc d k "radians" = Ok p -> 24 < length p /\ equally_spaced p /\ is_ok (interp p).

(** Two crystals with the same patterns. *)
Definition same_patterns (th : R) (E E' : nat -> nat -> nat -> C) (Q Q' : nat -> nat -> nat -> nat -> C) : Prop :=
  forall inp out x, setup_intensity (fformgen_setup th) E Q inp out x = setup_intensity (fformgen_setup th) E' Q' inp out x.
