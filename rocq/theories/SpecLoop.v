(** Vocabulary for fits of simulated data. *)
From Coq Require Import String List QArith Qreals Reals.
From Verif Require Import PyBase Expr FitModel.
Import ListNotations.

(** Inside the bounds, if there are any. *)
Definition within (bs : option (list (R * R))) (y : list R) : Prop :=
  match bs with None => True | Some l => Forall2 (fun b v => (fst b <= v <= snd b)%R) l y end.
(** [x] has the smallest value among the arrays inside the bounds. *)
Definition smallest (f : list R -> option R) (n : nat) (bs : option (list (R * R))) (x : list R) : Prop :=
  length x = n /\ forall y v, length y = n -> within bs y -> f y = Some v -> exists u, f x = Some u /\ (u <= v)%R.
(** An optimiser that, when it answers, has found the global minimum. *)
Definition finds_minimum (optimiser : objective -> list R -> option (list (R * R)) -> list (string * val) -> list (string * val) -> res (list R)) : Prop :=
  forall f x0 bs own kw x, optimiser (Scalar f) x0 bs own kw = Ok x -> smallest f (length x0) bs x.
(** The values [xs] of the parameters lie inside the bounds given for them. *)
Definition bounds_hold (bounds : option (list (sym * (R * R)))) (free : list sym) (xs : list R) : Prop :=
  match bounds with
  | None => True
  | Some b => Forall2 (fun s x => exists lo hi, dget s b = Some (lo, hi) /\ (lo <= x <= hi)%R) free xs
  end.
(** The dictionary [d] holds the numbers of the fitted dictionary [xd]. *)
Definition same_numbers (xd : list (sym * R)) (d : list (sym * (Q * Q))) : Prop :=
  forall s x, In (s, x) xd -> exists a b, In (s, (a, b)) d /\ (b == 0)%Q /\ x = Q2R a.
