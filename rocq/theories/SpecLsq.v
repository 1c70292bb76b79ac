(** Specification vocabulary: least squares on the samples. *)
From Coq Require Import String List Reals.
From Coquelicot Require Import Complex.
From Verif Require Import PyBase CBase Expr DataModel FDataModel SpecFData FormModel FitModel SpecFit.
Import ListNotations.
Local Open Scope nat_scope.

(** Mean of the squared distances between a function of the angle and measured
    points. *)
Definition deviation (f : R -> C) (p : list (R * R)) : R :=
  (/ INR (length p) * rsum (fun q => Cmod (Cminus (f (fst q)) (RtoC (snd q))) ^ 2) p)%R.

(** The formula against the points of each polarization; the Fourier data against
    them. *)
Definition sample_misfit (F : fform) (pts : string -> list (R * R)) (rho : sym -> C) : R :=
  rsum (fun kr => deviation (formula_at F rho (snd kr)) (pts (fst kr))) (ff_rows F).
Definition lost (F : fform) (D : fdat) (pts : string -> list (R * R)) : R :=
  rsum (fun kr => deviation (data_at D (fst kr)) (pts (fst kr))) (ff_rows F).

(** The points after interpolation: as many, equally spaced from 0. *)
Definition resampled (interp : list (R * R) -> res (R -> R)) (p q : list (R * R)) : Prop :=
  exists g, interp p = Ok g /\
    q = map (fun j => let x := (2 * PI * INR j / INR (length p))%R in (x, g x)) (seq 0 (length p)).
