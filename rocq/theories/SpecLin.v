(** Vocabulary for linear operations on data, filters and curves. *)
From Coq Require Import String List ZArith Reals.
From Coquelicot Require Import Complex.
From Verif Require Import PyBase CBase DataModel SpecData FDataModel SpecFData.
Import ListNotations.
Open Scope R_scope.

(** a * p + b * q, for measurements at the same angles *)
Definition lincomb (a b : R) (p q : list (R * R)) : list (R * R) :=
  map (fun uv => (fst (fst uv), a * snd (fst uv) + b * snd (snd uv))) (combine p q).

(** Interpolators that are linear in the values (all those of scipy's interp1d
    are), that decide by the angles whether to accept the data, and that
    interpolate a constant by a constant. *)
Definition linear_interp (interp : list (R * R) -> res (R -> R)) : Prop :=
  forall a b p q g h, map fst p = map fst q -> interp p = Ok g -> interp q = Ok h ->
    exists k, interp (lincomb a b p q) = Ok k /\ forall x, k x = a * g x + b * h x.
Definition by_angles (interp : list (R * R) -> res (R -> R)) : Prop :=
  forall p q, map fst p = map fst q -> is_ok (interp p) -> is_ok (interp q).
Definition keeps_constants (interp : list (R * R) -> res (R -> R)) : Prop :=
  forall p c g x, p <> [] -> (forall q, In q p -> snd q = c) -> interp p = Ok g -> g x = c.

(** What the coefficients of the sum or difference of two data sets should be. *)
Definition combined (op : R -> R -> R) (z w : C) : C := (op (Re z) (Re w), op (Im z) (Im w)).

(** A filter applied to one polarization: it returned a list of the right
    length. *)
Definition filtered (f : list R -> res (list R)) (p p' : list (R * R)) : Prop :=
  exists ys, f (map snd p) = Ok ys /\ map fst p' = map fst p /\ map snd p' = ys.
Definition bad_filter (f : list R -> res (list R)) (p : list (R * R)) (e : exn) : Prop :=
  f (map snd p) = Raise e \/ exists ys, f (map snd p) = Ok ys /\ length ys <> length p /\ e = ValueError.
