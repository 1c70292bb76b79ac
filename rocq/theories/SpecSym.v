(** Tensors seen through two equal input fields. *)
From Coq Require Import String List Arith Reals.
Import ListNotations.
From Coquelicot Require Import Complex.
From Verif Require Import PyBase CBase Expr TensorModel SpecTensor SpecFormgen.
Local Open Scope nat_scope.

(** Twice the part that is symmetric in the two indices of the input fields *)
Definition sym_part3 (X : nat -> nat -> nat -> C) : nat -> nat -> nat -> C := fun i j k => (X i j k + X i k j)%C.
Definition sym_part4 (X : nat -> nat -> nat -> nat -> C) : nat -> nat -> nat -> nat -> C := fun i j k h => (X i j k h + X i j h k)%C.

(** Two crystals whose tensors differ only in the part that is antisymmetric in the
    input fields, at these values of the parameters *)
Definition same_sym_part (rho : sym -> C) (e e' m m' q q' : option (tensor expr)) : Prop :=
  (forall i j k, i < 3 -> j < 3 -> k < 3 -> sym_part3 (val3 rho e) i j k = sym_part3 (val3 rho e') i j k) /\
  (forall i j k, i < 3 -> j < 3 -> k < 3 -> sym_part3 (val3 rho m) i j k = sym_part3 (val3 rho m') i j k) /\
  (forall i j k h, i < 3 -> j < 3 -> k < 3 -> h < 3 -> sym_part4 (val4 rho q) i j k h = sym_part4 (val4 rho q') i j k h).

(** Two crystals with opposite tensors, at these values of the parameters *)
Definition opposite_values (rho : sym -> C) (e e' m m' q q' : option (tensor expr)) : Prop :=
  (forall i j k, i < 3 -> j < 3 -> k < 3 -> val3 rho e' i j k = Copp (val3 rho e i j k)) /\
  (forall i j k, i < 3 -> j < 3 -> k < 3 -> val3 rho m' i j k = Copp (val3 rho m i j k)) /\
  (forall i j k h, i < 3 -> j < 3 -> k < 3 -> h < 3 -> val4 rho q' i j k h = Copp (val4 rho q i j k h)).

(** The array mentions a parameter. *)
Definition has_parameter (t : tensor expr) : Prop := exists i s, fits (shape t) i /\ In s (syms (at_ t i)).
