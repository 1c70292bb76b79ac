(** Vocabulary for the files of the uncontracted transforms. *)
From Coq Require Import String List QArith.
Import ListNotations.
From Verif Require Import PyBase Expr FformgenModel.
From Verif Require Import TensorModel.

(** What is generated: a numeric angle of incidence, or the symbolic one. *)
Inductive angle := Numeric (aoi : Q) | Symbolic.
Definition uncontracted (ev : expr -> expr) (a : angle) (prefix : string) (M : nat)
    (fs : dict string (list (list (tensor expr)))) : res (dict string (list (list (tensor expr)))) :=
  match a with
  | Numeric aoi => generate_uncontracted_fourier_transforms ev aoi prefix M fs
  | Symbolic => generate_uncontracted_fourier_transforms_symb ev prefix M fs
  end.

(** The names written under a prefix *)
Definition written (prefix : string) : list string :=
  map (fun pc => (prefix ++ "_" ++ pc ++ ".npy")%string) ["pp"; "ps"; "sp"; "ss"]%string.

(** Several transforms one after the other *)
Fixpoint uncontracted_all (ev : expr -> expr) (jobs : list (angle * string * nat)) (fs : dict string (list (list (tensor expr))))
    : res (dict string (list (list (tensor expr)))) :=
  match jobs with
  | [] => Ok fs
  | (a, prefix, M) :: jobs => match uncontracted ev a prefix M fs with Ok fs' => uncontracted_all ev jobs fs' | Raise e => Raise e end
  end.
