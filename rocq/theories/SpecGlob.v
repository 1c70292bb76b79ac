(** Specification vocabulary: keys that are taken literally in a glob pattern. *)
From Coq Require Import String Ascii List Bool.
Import ListNotations.

Definition special (c : ascii) : bool := Ascii.eqb c "*" || Ascii.eqb c "?" || Ascii.eqb c "[".
Definition plain_key (k : string) : Prop := forall c, In c (list_ascii_of_string k) -> special c = false.
