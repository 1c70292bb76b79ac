(** Data taken at normal incidence. *)
From Coq Require Import String List ZArith Reals.
From Coquelicot Require Import Complex.
From Verif Require Import PyBase CBase SpecFormgen FDataModel SpecFit.
Import ListNotations.

(** The coefficient of order m of the data k' seen a quarter of a turn further. *)
Definition turned_value (D : fdat) (k' : string) (m : Z) : C := (dvalue D k' m * cis (IZR m * (PI / 2)))%C.
(** Half the power of the difference between the data of each polarization pair and
    the data of the crossed pair a quarter of a turn further. *)
Definition disagreement (D : fdat) : R :=
  rsum (fun m => (Cmod (dvalue D "PP" m - turned_value D "SS" m)%C ^ 2 / 2 + Cmod (dvalue D "PS" m - turned_value D "SP" m)%C ^ 2 / 2)%R) (freqs 16).
(** The data of SS and SP are copies of those of PP and PS, as normal_to_oblique makes them. *)
Definition copies (D : fdat) : Prop :=
  forall m, In m (freqs 16) -> dvalue D "PP" m = turned_value D "SS" m /\ dvalue D "PS" m = turned_value D "SP" m.
(** The power of the odd orders. *)
Definition odd_orders (D : fdat) : R :=
  rsum (fun k => rsum (fun m => (Cmod (dvalue D k m) ^ 2)%R) (filter Z.odd (freqs 16))) ["PP"; "PS"; "SP"; "SS"]%string.
(** The other polarization. *)
Definition opposite (p : pol) : pol := match p with Pin => Sin | Sin => Pin end.
