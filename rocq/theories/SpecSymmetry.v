(** Specification vocabulary for subgroups and for permutation symmetry. *)
From Coq Require Import String List Arith Permutation.
From Coquelicot Require Import Complex.
From Verif Require Import PyBase Expr TensorModel SpecTensor SpecGroups.
Import ListNotations.
Local Open Scope nat_scope.

(** Every operation of the first group is an operation of the second. *)
Definition subgroup (gens gens' : list smat) : Prop :=
  forall R, generated gens R -> exists R', generated gens' R' /\ teq R' R.

(** Every tensor of the first table entry is one of the second, for exactly one
    choice of the parameters. *)
Definition special_case (t' t : tensor expr) : Prop :=
  forall rho', exists rho, teq (instance rho' t') (instance rho t) /\
    forall rho2, teq (instance rho' t') (instance rho2 t) -> forall s, In s (params_of t) -> rho2 s = rho s.

(** Two crystals from the tables.  Every operation of the first one is an operation
    of the second, for the dipole and for the quadrupole tensor. *)
Definition lower_symmetry (nd nq nd' nq' : string) : Prop :=
  exists gd nd1 gq nq1 gd' nd1' gq' nq1',
    dget nd dipole_groups = Some (gd, nd1) /\ dget nq quadrupole_groups = Some (gq, nq1) /\
    dget nd' dipole_groups = Some (gd', nd1') /\ dget nq' quadrupole_groups = Some (gq', nq1') /\
    subgroup gd gd' /\ subgroup gq gq'.

(** Exchanging the indices at positions n and n+1 does not matter. *)
Definition exchange_symmetric {A} (n : nat) (t : tensor A) : Prop :=
  forall i a b j, length i = n -> fits (shape t) (i ++ a :: b :: j) -> at_ t (i ++ a :: b :: j) = at_ t (i ++ b :: a :: j).
(** The order of the indices does not matter. *)
Definition fully_symmetric {A} (t : tensor A) : Prop :=
  forall i j, fits (shape t) i -> Permutation i j -> at_ t i = at_ t j.
