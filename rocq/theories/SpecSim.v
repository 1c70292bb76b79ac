(** Vocabulary for comparing data with simulated data. *)
From Coq Require Import String List Reals.
From Coquelicot Require Import Complex.
From Verif Require Import PyBase FDataModel SpecFit.
Import ListNotations.

(** [sum(sum(abs(a - b)**2) for a, b in ...)] over the polarizations of the first. *)
Definition distance (A B : fdat) : R :=
  rsum (fun kv => match fget_pc B (fst kv) with
                  | Ok w => rsum (fun ab => (Cmod (Cminus (fst ab) (snd ab)) ^ 2)%R) (combine (snd kv) w)
                  | Raise _ => 0%R
                  end) (fget_items A).
