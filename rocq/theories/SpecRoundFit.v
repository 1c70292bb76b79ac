(** Vocabulary for costs of rounded formulas. *)
From Coq Require Import String List ZArith Reals QArith.
From Coquelicot Require Import Complex.
Import ListNotations.
From Verif Require Import PyBase Expr FDataModel FormModel SpecFit SpecRound.

(** The formula with the same polarizations and frequencies, each entry rewritten by g. *)
Definition rewritten (g : expr -> expr) (F : fform) : fform := mkff (dmap (fun r => mkrow true (map g (r_cells r))) (ff_rows F)) (ff_M F).

(** Expansions of the entries: for polarization k and frequency m the sum of the
    numbers times products in ts k m. *)
Definition expansions (expand : expr -> expr) (nd : nat) (F : fform) (ts : string -> Z -> list ((Q * Q) * list expr)) : Prop :=
  forall k r m, In (k, r) (ff_rows F) -> In m (freqs (ff_M F)) -> expanded_as nd (expand (fcell (ff_M F) r m)) (ts k m).

(** One unit of the last digit times the sizes of all products at these values. *)
Definition rounding_bound (nd : nat) (F : fform) (ts : string -> Z -> list ((Q * Q) * list expr)) (rho : sym -> C) : R :=
  (2 * half_unit nd * rsum (fun kr => rsum (fun m => spread rho (ts (fst kr) m)) (freqs (ff_M F))) (ff_rows F))%R.
