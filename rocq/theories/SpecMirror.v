(** Data of crystals with a mirror plane. *)
From Coq Require Import String List ZArith Reals.
From Coquelicot Require Import Complex.
From Verif Require Import PyBase CBase FDataModel SpecFit.
Import ListNotations.

(** The coefficients of the data as seen from the mirror plane at the angle a. *)
Definition seen (D : fdat) (a : R) (k : string) (m : Z) : C := (dvalue D k m * cis (- (IZR m * a)))%C.
(** The power of the part of the data that is odd under the mirror. *)
Definition odd_power (D : fdat) (a : R) : R :=
  rsum (fun k => rsum (fun m => (Im (seen D a k m) ^ 2)%R) (freqs 16)) ["PP"; "PS"; "SP"; "SS"]%string.
