(** Vocabulary for models that could not be finished. *)
From Coq Require Import String List ZArith.
Import ListNotations.
From Verif Require Import PyBase Expr FDataModel FormModel FitModel.

(** The components of a formula in the order they are compiled. *)
Definition components (F : fform) : list (string * Z * bool) :=
  flat_map (fun k => flat_map (fun m => [(k, m, false); (k, m, true)]) (freqs (ff_M F))) (ff_get_keys F).
(** The pieces of a component; they all compile. *)
Definition finished (kev : code -> code) (F : fform) (n : Z) (j : string * Z * bool) : Prop :=
  exists cs, model_chunks kev F n (fst (fst j)) (snd (fst j)) (snd j) = Ok cs /\ forall c, In c cs -> compiles c = true.
(** Piece i of the component is reached: all components before it are finished
    and its own pieces up to this one compile. *)
Definition reached (kev : code -> code) (F : fform) (n : Z) (j : string * Z * bool) (i : nat) (e : code) : Prop :=
  exists before after cs, components F = before ++ j :: after /\ (forall j', In j' before -> finished kev F n j') /\
    model_chunks kev F n (fst (fst j)) (snd (fst j)) (snd j) = Ok cs /\ nth_error cs i = Some e /\ forall c, In c (firstn (S i) cs) -> compiles c = true.
