(** Specification for property C149: entries seen at normal incidence. *)
From Coq Require Import List Reals.
From Coquelicot Require Import Complex.
From Verif Require Import PyBase Expr TensorModel SpecFormgen SpecFformgen.
Import ListNotations.
Local Open Scope nat_scope.

(** The tensors agree where all dipole indices are in the plane, and all quadrupole
    indices but the one of the gradient, which is along the normal. *)
Definition flat_same (E E' : nat -> nat -> nat -> C) (Q Q' : nat -> nat -> nat -> nat -> C) : Prop :=
  (forall i j k, i < 2 -> j < 2 -> k < 2 -> E i j k = E' i j k) /\
  (forall i k h, i < 2 -> k < 2 -> h < 2 -> Q i 2 k h = Q' i 2 k h).

(** A parameter that occurs in none of these entries. *)
Definition upright (s : sym) (d q : tensor expr) : Prop :=
  (forall i j k, i < 2 -> j < 2 -> k < 2 -> ~ In s (syms (at_ d [i; j; k]))) /\
  (forall i k h, i < 2 -> k < 2 -> h < 2 -> ~ In s (syms (at_ q [i; 2; k; h]))).
