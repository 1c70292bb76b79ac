(** Specification for values held in double precision and coefficients held in single
    precision. *)
From Coq Require Import Reals ZArith List String.
From Coquelicot Require Import Complex.
Import ListNotations.
Local Open Scope R_scope.

(** Half a unit in the last place of 1. *)
Definition eps64 : R := / 2 ^ 53.
Definition eps32 : R := / 2 ^ 24.

(** [y] is [x] up to a relative error [b]. *)
Definition near (b x y : R) : Prop := Rabs (y - x) <= b * Rabs x.

(** No product of the first factors with [y] is tiny, unless [y] is zero. *)
Definition times (fs : list R) : R := fold_right Rmult 1 fs.
Definition not_tiny (fs : list R) (y : R) : Prop :=
  y = 0 \/ forall k, / 10 ^ 300 <= Rabs (y * times (firstn k fs)).

(** Two data sets with the same keys, the same angles and related values. *)
Definition same_points (P : R -> R -> Prop) (v w : list (string * list (R * R))) : Prop :=
  Forall2 (fun a b => fst b = fst a /\
    Forall2 (fun p q => fst q = fst p /\ P (snd p) (snd q)) (snd a) (snd b)) v w.

(** Single-precision numbers. *)
Definition single (x : R) : Prop :=
  exists m e : Z, x = IZR m * powerRZ 2 e /\ (Z.abs m < 2 ^ 24)%Z /\ (-149 <= e)%Z.

(** Whole numbers below 2^52 (counts). *)
Definition count (x : R) : Prop := exists n : Z, x = IZR n /\ (Z.abs n <= 2 ^ 52)%Z.

(** Every polarization has at least one point. *)
Definition has_points (v : list (string * list (R * R))) : Prop := Forall (fun kp => snd kp <> []) v.

(** [z'] is [z] with both parts in single precision, computed up to an error [e]. *)
Definition in_single (e : R) (z z' : C) : Prop :=
  (single (Re z') /\ Rabs (Re z' - Re z) <= eps32 * Rabs (Re z) + 2 * e + / 10 ^ 45) /\
  (single (Im z') /\ Rabs (Im z' - Im z) <= eps32 * Rabs (Im z) + 2 * e + / 10 ^ 45).
