(** Vocabulary for fits of noisy data. *)
From Coq Require Import String List Arith Reals.
From Coquelicot Require Import Complex.
From Verif Require Import PyBase CBase Expr FormModel FitModel SpecFit SpecLsq SpecLoop.
Import ListNotations.
Local Open Scope nat_scope.

(** How far apart the curves of a formula are for two choices of the parameters:
    their mean squared distance over [n] equally spaced angles, summed over the
    polarizations. *)
Definition apart (F : fform) (rho rho' : sym -> C) (n : nat) : R :=
  rsum (fun kr => (/ INR n * rsum (fun j => Cmod (Cminus (formula_at F rho (snd kr) (2 * PI * INR j / INR n))
                                                        (formula_at F rho' (snd kr) (2 * PI * INR j / INR n))) ^ 2) (seq 0 n))%R) (ff_rows F).

(** Any curve of the formula, thought of as the true one, against the fitted curve:
    the fitted one is at least as close to the points, and the two are close to each
    other, on average and at every angle, in terms of the distance of the true curve
    from the points. *)
Definition close (F : fform) (free : list sym) (pts : string -> list (R * R)) (ts x : list R) (xd : list (sym * R)) : Prop :=
  xd = combine free x /\ length x = length free /\
  (sample_misfit F pts (reading free x) <= sample_misfit F pts (reading free ts))%R /\
  (forall n, 2 * ff_M F < n -> (apart F (reading free x) (reading free ts) n <= 4 * sample_misfit F pts (reading free ts))%R) /\
  (forall k r phi, In (k, r) (ff_rows F) ->
    (Cmod (Cminus (formula_at F (reading free x) r phi) (formula_at F (reading free ts) r phi)) ^ 2 <= 4 * INR (2 * ff_M F + 1) * sample_misfit F pts (reading free ts))%R).

(** The basinhopping variants hand the bounds over among the options of the local
    minimiser, and the cost alone or with its gradient. *)
Definition bounds_in (own : list (string * val)) : option (list (R * R)) :=
  match dget "bounds"%string own with Some (VBounds b) => b | _ => None end.
Definition finds_bounded (optimiser : objective -> list R -> option (list (R * R)) -> list (string * val) -> list (string * val) -> res (list R)) : Prop :=
  forall o f x0 own kw x, o = Scalar f \/ (exists g, o = WithGradient f g) -> optimiser o x0 None own kw = Ok x -> smallest f (length x0) (bounds_in own) x.
(** [bounds_dict], if the variant has one. *)
Definition given_bounds (bounds : option (option (list (sym * (R * R))))) : option (list (sym * (R * R))) :=
  match bounds with Some b => b | None => None end.
