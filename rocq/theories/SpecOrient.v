(** Vocabulary for fits with an unknown orientation. *)
From Coq Require Import List Reals.
From Verif Require Import Expr.
Import ListNotations.

(** The numbers [xs] of the parameters [free], with [a] added to that of [psi]. *)
Definition turned (psi : sym) (a : R) (free : list sym) (xs : list R) : list R :=
  map (fun sx => if sym_eqb (fst sx) psi then (snd sx + a)%R else snd sx) (combine free xs).
