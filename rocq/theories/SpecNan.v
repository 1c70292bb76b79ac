(** Vocabulary for data with missing values. *)
From Coq Require Import Reals List String.
From Coquelicot Require Import Rbar.
From Flocq Require Import Core IEEE754.BinarySingleNaN.
From Verif Require Import NanModel.
Import ListNotations.

(** The size of a number, on the line with both infinities. *)
Definition size (x : b64) : Rbar :=
  match x with B754_infinity true => m_infty | B754_infinity false => p_infty | _ => Finite (B2R x) end.
Definition number (x : b64) : Prop := is_nan x = false.
(** The values of a polarization begin with a number, with a missing value. *)
Definition begins_well (v : list (R * b64)) : Prop := exists a y v', v = (a, y) :: v' /\ number y.
Definition begins_missing (v : list (R * b64)) : Prop := exists a v', v = (a, B754_nan) :: v'.
Definition below (x y : b64) : Prop := Rbar_le (size x) (size y).
Definition under (x y : b64) : Prop := Rbar_lt (size x) (size y).
(** [m], reported for [o], is the extreme of the numbers in the polarizations that begin
    with a number: none is beyond it, it is one of those reported for, and no earlier
    polarization reaches it; or nothing went beyond the start. *)
Definition found (le lt : b64 -> b64 -> Prop) (d : list (string * list (R * b64))) (start : b64) (o : option string) (m : b64) : Prop :=
  number m /\ le start m /\
  (forall k v y, In (k, v) d -> begins_well v -> In y (map snd v) -> number y -> le y m) /\
  ((o = None /\ m = start) \/ exists k before v after, o = Some k /\ d = before ++ (k, v) :: after /\ begins_well v /\ In m (map snd v) /\ lt start m /\
     forall k' v' y, In (k', v') before -> begins_well v' -> In y (map snd v') -> number y -> lt y m).
(** Set to zero. *)
Definition wiped (y : b64) : Prop := match y with B754_zero _ => True | _ => False end.
