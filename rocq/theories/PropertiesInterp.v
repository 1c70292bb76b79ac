(** Property C106: resampling of measured data before the Fourier transform. *)
From Coq Require Import String List Arith ZArith Reals Lra Lia Bool Sorted.
From Coquelicot Require Import Complex.
From Verif Require Import PyBase RMod CBase DataModel SpecData DataProofs DataProofs2 FDataModel SpecFData FDataProofs FDataProofs2
  SpecLin InterpModel SpecInterp InterpProofs InterpProofs2 InterpProofs3.
Import ListNotations.
Open Scope R_scope.

(** The mean signal depends on where the turn is started: linear interpolation. *)
Theorem C106_mean_refuted : forall M, exists d a f f' v v', reachable d /\
  (forall k p, get_pc d k "radians" = Ok p -> length p = 4%nat /\ equally_spaced p) /\
  dat_to_fdat linear d M = Ok f /\ dat_to_fdat linear (fst (phase_shift_data d a "radians")) M = Ok f' /\
  fget_pc f "PP" = Ok v /\ fget_pc f' "PP" = Ok v' /\ coef M v 0 = RtoC (1/4) /\ coef M v' 0 = RtoC (1/2).
Proof. exact mean_changes. Qed.
Print Assumptions C106_mean_refuted.

(** The default kind, cubic splines. *)
Theorem C106_cubic_refuted : forall interp M, exact_at_nodes interp -> accepts interp 4 -> cubic_on_four interp ->
  exists d a f f' v v', reachable d /\
  (forall k p, get_pc d k "radians" = Ok p -> length p = 4%nat /\ equally_spaced p) /\
  dat_to_fdat interp d M = Ok f /\ dat_to_fdat interp (fst (phase_shift_data d a "radians")) M = Ok f' /\
  fget_pc f "PP" = Ok v /\ fget_pc f' "PP" = Ok v' /\ coef M v 0 = RtoC (1/4) /\ coef M v' 0 = RtoC (5/8).
Proof. exact cubic_mean_changes. Qed.
Print Assumptions C106_cubic_refuted.

(** By how much: a second difference across the seam. *)
Theorem C106_seam_partial : forall d a M, reachable d ->
  (forall k p, get_pc d k "radians" = Ok p -> (2 <= length p)%nat /\ equally_spaced p /\ 0 <= a < 2 * PI / INR (length p)) ->
  exists f f', dat_to_fdat linear d M = Ok f /\ dat_to_fdat linear (fst (phase_shift_data d a "radians")) M = Ok f' /\
    forall k p, get_pc d k "radians" = Ok p -> exists v v', fget_pc f k = Ok v /\ fget_pc f' k = Ok v' /\
      coef M v' 0 = Cplus (coef M v 0) (RtoC (a / (2 * PI) *
        (2 * snd (nth 0 p (0, 0)) - snd (nth 1 p (0, 0)) - snd (nth (length p - 1) p (0, 0))))).
Proof. exact seam. Qed.
Print Assumptions C106_seam_partial.

(** What is transformed: the polygon through the measurements of one turn. *)
Theorem C106_polygon : forall d M, reachable d -> all_distinct d ->
  (forall k p, get_pc d k "radians" = Ok p -> (2 <= length p)%nat) ->
  exists f, dat_to_fdat linear d M = Ok f /\ fget_keys f = get_keys d /\ fget_M f = M /\
    forall k p, get_pc d k "radians" = Ok p -> exists v g, fget_pc f k = Ok v /\ length v = (2 * M + 1)%nat /\
      (forall x, polygon p x (g x)) /\ (forall x y, polygon p x y -> y = g x) /\
      forall m, (Z.abs m <= Z.of_nat M)%Z -> coef M v m = sample_coef g (length p) m.
Proof. exact linear_transform. Qed.
Print Assumptions C106_polygon.

(** Linear interpolation meets what C17-C19, C74 and C89 ask of an interpolator. *)
Theorem C106_interpolator : exact_at_nodes linear /\ (forall n, (0 < n)%nat -> accepts linear n) /\
  linear_interp linear /\ by_angles linear /\ keeps_constants linear.
Proof.
  split; [exact linear_exact|]. split; [exact linear_accepts|]. split; [exact linear_linear|]. split; [exact linear_by_angles|exact linear_constants].
Qed.
Print Assumptions C106_interpolator.

Example C106_case : exact_at_nodes cubic4 /\ accepts cubic4 4 /\ cubic_on_four cubic4 /\
  reachable spike /\ all_distinct spike /\
  (forall k p, get_pc spike k "radians" = Ok p -> (2 <= length p)%nat /\ equally_spaced p /\ 0 <= PI / 4 < 2 * PI / INR (length p)).
Proof. exact interp_case. Qed.
