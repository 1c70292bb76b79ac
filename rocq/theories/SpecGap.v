(** Vocabulary for the transform of data with missing values. *)
From Coq Require Import String ZArith List.
From Flocq Require Import Core IEEE754.BinarySingleNaN.
From Verif Require Import NanModel GapModel.
Import ListNotations.

(** A coefficient, a polarization of which nothing is left. *)
Definition lost (z : b32 * b32) : Prop := z = (B754_nan, B754_nan).
Definition all_lost (row : list (b32 * b32)) : Prop := Forall lost row.
(** A polarization with a missing value. *)
Definition has_gap (p : list (b64 * b64)) : Prop := exists x, In (x, B754_nan) p.
(** The angles follow one another. *)
Fixpoint increasing (xs : list b64) : Prop :=
  match xs with x1 :: ((x2 :: _) as xs') => Bltb x1 x2 = true /\ increasing xs' | _ => True end.
(** As many sampling angles as asked for. *)
Definition full_grid (grid : nat -> list b64) : Prop := forall n, length (grid n) = n.
