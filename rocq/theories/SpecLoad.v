(** Specification vocabulary for loading data from files. *)
From Coq Require Import String List ZArith Reals Sorted.
From Verif Require Import PyBase DataModel SpecData.
Import ListNotations.
Open Scope R_scope.

(** The row holds the point [p] in its first two fields; further fields are not
    looked at. *)
Definition row_holds (float_of : string -> option R) (row : list string) (p : R * R) : Prop :=
  exists a b rest, row = a :: b :: rest /\ float_of a = Some (fst p) /\ float_of b = Some (snd p).

(** The points of a file, row by row. *)
Definition file_holds (float_of : string -> option R) (rows : list (list string)) (t : list (R * R)) : Prop :=
  Forall2 (row_holds float_of) rows t.

(** Points inside one turn, in strictly increasing order of angle. *)
Definition in_order (t : list (R * R)) : Prop :=
  t <> [] /\ Forall in_turn (map fst t) /\ StronglySorted (fun p q => fst p < fst q) t.

(** [t] is what the file named for the polarization [k] holds. *)
Definition table_of (files : string -> res (list (R * R))) (names : list (string * string)) (k : string) (t : list (R * R)) : Prop :=
  exists n, In (k, n) names /\ files n = Ok t.

(** Signal minus background, angle by angle. *)
Definition difference (t1 t2 : list (R * R)) : list (R * R) :=
  map (fun ab => (fst (fst ab), snd (fst ab) - snd (snd ab))) (combine t1 t2).
