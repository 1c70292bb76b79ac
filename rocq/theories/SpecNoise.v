(** Specification vocabulary for noise in measured data. *)
From Coq Require Import List Reals.
From Verif Require Import PyBase DataModel SpecFit.
Import ListNotations.
Open Scope R_scope.

(** The same angles, and values that differ by at most eps. *)
Definition noisy (eps : R) (p q : list (R * R)) : Prop :=
  Forall2 (fun a b => fst a = fst b /\ Rabs (snd a - snd b) <= eps) p q.
(** The mean of the squared differences. *)
Definition noise_power (p q : list (R * R)) : R :=
  / INR (length p) * rsum (fun ab => (snd (fst ab) - snd (snd ab)) ^ 2) (combine p q).
