(** Specification vocabulary for saved models. *)
From Coq Require Import String ZArith.
From Verif Require Import PyBase FformgenModel FitModel.
Open Scope string_scope.

(** The name of part i of one component of a coefficient: "PP_-3_real_0.so". *)
Definition library_name (k : string) (m : Z) (imag : bool) (i : nat) : string :=
  (k ++ "_" ++ str m ++ "_" ++ (if imag then "imag" else "real")) ++ "_" ++ str (Z.of_nat i) ++ ".so".
