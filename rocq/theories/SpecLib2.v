(** Vocabulary for sessions that save and load models. *)
From Coq Require Import String List Bool.
From Verif Require Import PyBase FitModel LibModel2.
Local Open Scope string_scope.

(** Neither folder is the other one or lies inside it. *)
Definition apart (a b : string) : Prop := starts (a ++ "/") (b ++ "/") = false /\ starts (b ++ "/") (a ++ "/") = false.
(** The names of the files loading looks at. *)
Definition names_in (order : list (string * list code) -> list (string * list code)) (folder : string) (p : shelf) : list string := map fst (listing order folder p).
