(** Some of the polarizations of a container. *)
From Coq Require Import String List.
From Verif Require Import PyBase.

(** The first dictionary holds some of the entries of the second, unchanged. *)
Definition some_of {V} (d' d : list (string * V)) : Prop :=
  NoDup (map fst d') /\ forall k v, dget k d' = Some v -> dget k d = Some v.
