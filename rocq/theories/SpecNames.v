(** Specification for property C34: texts that are no single name. *)
From Coq Require Import String.
From Verif Require Import SpecUtil.

(** Two names separated by a comma. *)
Definition two_names (text : string) : Prop :=
  exists a b, ordinary a /\ ordinary b /\ text = (a ++ "," ++ b)%string.
