(** Specification vocabulary for the resampling of measured data. *)
From Coq Require Import List ZArith Reals.
From Coquelicot Require Import Complex.
From Verif Require Import PyBase CBase.
Import ListNotations.
Open Scope R_scope.

(** The straight line through two measurements. *)
Definition chord (q1 q2 : R * R) (x : R) : R :=
  snd q1 + (x - fst q1) * ((snd q2 - snd q1) / (fst q2 - fst q1)).

(** The polygon through the measurements p (in order of angle), its first and its
    last side prolonged. *)
Definition polygon (p : list (R * R)) (x y : R) : Prop :=
  exists l1 q1 q2 l2, p = l1 ++ q1 :: q2 :: l2 /\ (l1 = [] \/ fst q1 <= x) /\ (l2 = [] \/ x <= fst q2) /\
    y = chord q1 q2 x.

(** The m-th coefficient of the discrete transform of n samples of g. *)
Definition sample_coef (g : R -> R) (n : nat) (m : Z) : C :=
  Cmult (RtoC (/ INR n))
    (Csum (fun j => Cmult (RtoC (g (2 * PI * INR j / INR n))) (cis (- IZR m * (2 * PI * INR j / INR n)))) (seq 0 n)).

(** Through four points an interpolating cubic spline is a cubic polynomial. *)
Definition cubic_on_four (interp : list (R * R) -> res (R -> R)) : Prop :=
  forall p g, length p = 4%nat -> NoDup (map fst p) -> interp p = Ok g ->
    exists a b c e, forall x, g x = a + b * x + c * x ^ 2 + e * x ^ 3.
