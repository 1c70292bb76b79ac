(** Numbers in numpy arrays. *)
From Coq Require Import List ZArith Reals.
From Verif Require Import PyBase ArrayModel.
Import ListNotations.

(** All elements lie in the buffer; words have 64 bits. *)
Definition well_formed (a : array) : Prop :=
  (forall i, i < count a -> (0 <= Z.of_nat (start a) + Z.of_nat i * stride a < Z.of_nat (length (buffer a)))%Z) /\
  forall w, In w (buffer a) -> (0 <= w < 2 ^ 64)%Z.
(** A word read as an integer in two's complement. *)
Definition integer (w : Z) : Z := ((w + 2 ^ 63) mod 2 ^ 64 - 2 ^ 63)%Z.
(** The number x[i] a user sees; [None] for nan and infinities. *)
Definition element (a : array) (i : nat) : option R :=
  match nth_error (buffer a) (Z.to_nat (Z.of_nat (start a) + Z.of_nat i * stride a)) with
  | None => None
  | Some w => match kind a with Float64 => double w | Int64 => Some (IZR (integer w)) end
  end.
(** The array shows the numbers xs. *)
Definition shows (a : array) (xs : list R) : Prop :=
  count a = length xs /\ forall i x, nth_error xs i = Some x -> element a i = Some x.
(** Integers a double can hold. *)
Definition moderate (a : array) : Prop :=
  kind a = Int64 -> forall i x, i < count a -> element a i = Some x -> (Rabs x < 2 ^ 53)%R.
(** One element directly behind the other. *)
Definition contiguous (a : array) : Prop := stride a = 1%Z \/ count a <= 1.
