(** Vocabulary for tables of formulas. *)
From Coq Require Import String List ZArith.
From Verif Require Import PyBase Expr FDataModel FormModel.
Import ListNotations.

(** The formula for the coefficient of frequency [m] in polarization [k]. *)
Definition formula_of (F : fform) (k : string) (m : Z) (e : expr) : Prop :=
  exists v, ff_get_pc F k = Ok v /\ (Z.abs m <= Z.of_nat (ff_M F))%Z /\ nth_error v (Z.to_nat (m + Z.of_nat (ff_M F))) = Some e.

(** The labels of a table, polarization by polarization. *)
Definition labels (F : fform) : list (string * Z) := list_prod (ff_get_keys F) (freqs (ff_M F)).
