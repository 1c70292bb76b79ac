(** Specification vocabulary for tables and plots. *)
From Coq Require Import String List ZArith Reals.
From Coquelicot Require Import Complex.
From Verif Require Import PyBase DataModel SpecData CBase FDataModel SpecFData MiscModel.
Import ListNotations.
Open Scope R_scope.

(** All the measurements of a container, labelled. *)
Definition points (v : list (string * list (R * R))) : list (string * R * R) :=
  flat_map (fun kv => map (fun q => (fst kv, fst q, snd q)) (snd kv)) v.

(** All the coefficients of a Fourier container, labelled. *)
Definition fpoints (M : nat) (v : list (string * list C)) : list (string * Z * C) :=
  flat_map (fun kv => map (fun m => (fst kv, m, coef M (snd kv) m)) (freqs M)) v.

(** What an axis must show. *)
Definition shows {P} (dats : list dat) (params : list P) (pc : string) (a : option (axis P)) : Prop :=
  exists curves, a = Some (pc, curves) /\
    Forall2 (fun dp c => get_pc (fst dp) pc "radians" = Ok (fst c) /\ snd c = snd dp) (combine dats params) curves.

