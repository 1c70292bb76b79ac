(** What the best fit of a cost function is (C136). *)
From Coq Require Import List Reals.
From Verif Require Import FitModel.

(** The array [xs] of [n] numbers minimises a compiled cost function among the
    arrays of [n] numbers. *)
Definition minimises (lib : list code) (n : nat) (xs : list R) : Prop :=
  length xs = n /\ exists c, call lib xs = Some c /\ forall ys, length ys = n -> exists c', call lib ys = Some c' /\ (c <= c')%R.

(** Every number times [k]. *)
Definition times (k : R) (xs : list R) : list R := map (Rmult k) xs.
