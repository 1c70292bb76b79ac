(** Specification vocabulary for Fourier-space data and for sampling. *)
From Coq Require Import String List ZArith Reals Sorted.
From Coquelicot Require Import Complex.
From Verif Require Import PyBase DataModel SpecData FDataModel CBase.
Import ListNotations.
Open Scope R_scope.

(** The m-th Fourier coefficient stored in an array of length 2M+1. *)
Definition coef (M : nat) (v : list C) (m : Z) : C := nth (Z.to_nat (m + Z.of_nat M)) v (RtoC 0).

(** A coefficient of a container, zero outside -M..M. *)
Definition fcoef (M : nat) (v : list C) (m : Z) : C :=
  if (Z.abs m <=? Z.of_nat M)%Z then coef M v m else RtoC 0.

(** The value at angle x of the series with coefficients v. *)
Definition series (M : nat) (v : list C) (x : R) : C :=
  Csum (fun m => Cmult (coef M v m) (cis (IZR m * x))) (freqs M).

(** Coefficients of a real function. *)
Definition hermitian (M : nat) (v : list C) : Prop :=
  forall m, (Z.abs m <= Z.of_nat M)%Z -> coef M v (- m) = Cconj (coef M v m).

(** The hermitian part of the coefficients: those of the real part of the
    function. *)
Definition herm_part (M : nat) (v : list C) (m : Z) : C :=
  Cdiv (Cplus (coef M v m) (Cconj (coef M v (- m)))) (RtoC 2).

(** Any container a program can hold. *)
Definition freachable (f : fdat) : Prop :=
  exists it M f0 h, fconstruct it M = Ok f0 /\ f = frun f0 h.

(** Requirements on the interpolator: it goes through its nodes, and it accepts
    every set of n distinct angles. *)
Definition exact_at_nodes (interp : list (R * R) -> res (R -> R)) : Prop :=
  forall p g x y, NoDup (map fst p) -> interp p = Ok g -> In (x, y) p -> g x = y.
Definition accepts (interp : list (R * R) -> res (R -> R)) (n : nat) : Prop :=
  forall p, length p = n -> NoDup (map fst p) -> is_ok (interp p).

(** The angles of equally spaced data. *)
Definition equally_spaced (p : list (R * R)) : Prop :=
  map fst p = map (fun j => 2 * PI * INR j / INR (length p)) (seq 0 (length p)).

(** Angles agree up to numpy's default tolerances. *)
Definition close (a b : R) : Prop := Rabs (a - b) <= / 100000000 + / 100000 * Rabs b.

(** A single measurement is used for every angle (numpy broadcasting). *)
Definition stretch (n : nat) (p : list (R * R)) : list (R * R) :=
  match p with [q] => repeat q n | _ => p end.

(** Two polarizations that can be combined point by point. *)
Definition compatible (p1 p2 : list (R * R)) : Prop :=
  Forall2 (fun a b => close (fst a) (fst b)) p1 (stretch (length p1) p2).

Definition pointwise (f : R -> R -> R) (p1 p2 : list (R * R)) : list (R * R) :=
  map (fun ab => (fst (fst ab), f (snd (fst ab)) (snd (snd ab)))) (combine p1 (stretch (length p1) p2)).

(** No direction occurs twice in any polarization. *)
Definition all_distinct (d : dat) : Prop :=
  forall k p, get_pc d k "radians" = Ok p -> distinct_angles p.

(** A magnitude of some coefficient. *)
Definition mag_of (d : list (string * list C)) (y : R) : Prop := exists k v z, In (k, v) d /\ In z v /\ y = Cmod z.

(** Two containers that can be added or subtracted. *)
Definition can_combine (d1 d2 : dat) : Prop :=
  get_keys d1 <> [] /\ (forall k, In k (get_keys d1) <-> In k (get_keys d2)) /\
  (forall p1 p2 r1 r2, get_values d1 "radians" = Ok (p1 :: r1) -> get_values d2 "radians" = Ok (p2 :: r2) -> length p1 = length p2) /\
  forall k p1 p2, get_pc d1 k "radians" = Ok p1 -> get_pc d2 k "radians" = Ok p2 -> compatible p1 p2.
