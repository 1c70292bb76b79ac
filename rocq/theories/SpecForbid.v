(** Fourier orders a crystal cannot produce. *)
From Coq Require Import String List ZArith Bool Reals.
From Coquelicot Require Import Complex.
From Verif Require Import PyBase FDataModel SpecFit.
Import ListNotations.

(** Orders that are no multiple of n, or above 8. *)
Definition forbidden (n m : Z) : bool := negb (m mod n =? 0)%Z || (8 <? Z.abs m)%Z.
(** The power of the data in these orders. *)
Definition lost (D : fdat) (n : Z) : R :=
  rsum (fun k => rsum (fun m => (Cmod (dvalue D k m) ^ 2)%R) (filter (forbidden n) (freqs 16))) ["PP"; "PS"; "SP"; "SS"]%string.
