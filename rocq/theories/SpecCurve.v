(** Specification for property C150: data on the curves of symbolic formulas. *)
From Coq Require Import String List Reals.
From Coquelicot Require Import Complex.
From Verif Require Import PyBase Expr DataModel SpecData FormModel SpecForm.
Local Open Scope nat_scope.

(** The formulas are real for the values [rho] at every angle. *)
Definition real_curves (f : form) (rho : sym -> C) : Prop :=
  forall k e x, In (k, e) f -> Im (eval (at_phi rho x) e) = 0%R.

(** The data have the polarizations of the formulas, and their points lie on the
    curves, without noise. *)
Definition on_curves (f : form) (rho : sym -> C) (d : dat) : Prop :=
  forall k e, In (k, e) f -> In k (get_keys d) /\
    forall p x y, get_pc d k "radians" = Ok p -> In (x, y) p -> RtoC y = eval (at_phi rho x) e.

(** The formulas have the same curves for the values [rho'] and [rho]. *)
Definition same_curves (f : form) (rho' rho : sym -> C) : Prop :=
  forall k e x, In (k, e) f -> eval (at_phi rho' x) e = eval (at_phi rho x) e.
