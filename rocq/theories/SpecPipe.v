(** Vocabulary for properties of whole sessions. *)
From Coq Require Import String List QArith Qreals Reals.
From Coquelicot Require Import Complex.
From Verif Require Import PyBase Expr FormModel SpecForm.
Import ListNotations.

(** The methods that [FormContainer] and [fFormContainer] share, on a formula. *)
Definition form_step (ev : expr -> expr) (f : list (string * expr)) (o : ffop) : list (string * expr) :=
  match o with
  | FFSubs sa => form_subs ev f sa
  | FFPhase a => form_phase_shift ev f a phi
  | FFScale s => form_scale ev f s
  end.

(** Values are real whenever the symbols take values that respect their
    assumptions. *)
Definition real_valued (e : expr) : Prop := forall rho, respects rho -> Im (eval rho e) = 0%R.

(** Arguments that do not mention the angle phi; shifts are real and symbols
    declared real are replaced by real expressions. *)
Definition sensible (o : ffop) : Prop :=
  match o with
  | FFSubs sa => forall s v, In (s, v) sa -> s <> phi /\ ~ In phi (syms v) /\ (sreal s = Some true -> real_valued v)
  | FFPhase a => ~ In phi (syms a) /\ real_valued a
  | FFScale s => ~ In phi (syms s)
  end.

(** A vector lists the real values that a dictionary gives to the symbols. *)
Definition listed (d : list (sym * (Q * Q))) (free : list sym) (xs : list R) : Prop :=
  Forall2 (fun s x => exists a b, In (s, (a, b)) d /\ (b == 0)%Q /\ x = Q2R a) free xs.
(** A dictionary: one value per symbol, real values for symbols declared real. *)
Definition parameter_values (d : list (sym * (Q * Q))) : Prop :=
  NoDup (map fst d) /\ forall s a b, In (s, (a, b)) d -> sreal s = Some true -> (b == 0)%Q.
