(** Property C112: what the containers of Fourier data and formulas accept. *)
From Coq Require Import String List Arith Bool Reals QArith Lia.
From Coquelicot Require Import Complex.
From Verif Require Import PyBase DataModel SpecData FDataModel Expr FormModel SpecAccept AcceptProofs.
Import ListNotations.
Local Open Scope nat_scope.

(** Fourier data: text keys with one-dimensional complex arrays of 2M+1 entries are
    accepted and kept as given, in the order in which the keys first occur;
    everything else is refused with a ValueError. *)
Theorem C112_fourier_data : forall it M,
  (fourier_input it M -> exists f, fconstruct it M = Ok f /\ map KStr (fget_keys f) = first_occ (map fst it) /\
     (forall k l, last_given it (KStr k) (FArr true 1 l) -> fget_pc f k = Ok l) /\ fget_M f = M /\ fget_scale f = 1%R /\
     fget_phase_shift f "radians" = Ok (PNum 0)) /\
  (~ fourier_input it M -> fconstruct it M = Raise ValueError).
Proof. exact fourier_accepts. Qed.
Print Assumptions C112_fourier_data.

(** Fourier formulas: object arrays of 2M+1 numbers and expressions. *)
Theorem C112_fourier_formula : forall it M,
  (formula_input it M -> exists F, ff_construct it M = Ok F /\ map KStr (ff_get_keys F) = first_occ (map fst it) /\ ff_M F = M /\
     forall k l, last_given it (KStr k) (OArr true 1 l) -> exists cells, ff_get_pc F k = Ok cells /\ Forall2 entry_is l cells) /\
  (~ formula_input it M -> ff_construct it M = Raise ValueError).
Proof. exact formula_accepts. Qed.
Print Assumptions C112_fourier_formula.

(** Formulas. *)
Theorem C112_formula : forall it,
  (form_input it -> exists f, form_construct it = Ok f /\ map KStr (dkeys f) = first_occ (map fst it) /\
     forall k e, last_given it (KStr k) (Some e) -> form_get_pc f k = Ok e) /\
  (~ form_input it -> form_construct it = Raise ValueError).
Proof. exact form_accepts. Qed.
Print Assumptions C112_formula.

(** Real arrays, arrays of another length and keys that are not text are refused;
    of a key that is given twice the last value counts. *)
Example C112_case : fourier_input [(KStr "PP", FNotArr); (KStr "PP", FArr true 1 [RtoC 0; RtoC 1; RtoC 0])] 1 /\
  ~ fourier_input [(KStr "PP", FArr false 1 [RtoC 0; RtoC 1; RtoC 0])] 1 /\
  ~ fourier_input [(KStr "PP", FArr true 1 [RtoC 0; RtoC 1; RtoC 0])] 2 /\
  ~ formula_input [(KOther 0, OArr true 1 [PyNum 1 0])] 0 /\ ~ formula_input [(KStr "PP", OArr true 1 [Junk])] 0 /\
  formula_input [(KStr "PP", OArr true 1 [PyNum 1 0])] 0.
Proof.
  assert (One : forall V (it : list (pykey * V)) pk v w, last_given ((pk, v) :: it) pk w -> map fst it = [] -> w = v).
  { intros V it pk v w L E. apply map_eq_nil in E. subst it. destruct L as ([|a l] & b & E & _); cbn in E.
    - congruence.
    - apply (f_equal (@length _)) in E. cbn in E. rewrite app_length in E. cbn in E. lia. }
  split; [|split; [|split; [|split; [|split]]]].
  - assert (L : last_given [(KStr "PP", FNotArr); (KStr "PP", FArr true 1 [RtoC 0; RtoC 1; RtoC 0])] (KStr "PP") (FArr true 1 [RtoC 0; RtoC 1; RtoC 0]))
      by (apply last_given_dget; reflexivity).
    intros pk [<-|[<-|[]]]; exists "PP"%string, [RtoC 0; RtoC 1; RtoC 0]; auto.
  - intros H. destruct (H _ (or_introl eq_refl)) as (k & l & _ & L & _). apply One in L; [|reflexivity]. congruence.
  - intros H. destruct (H _ (or_introl eq_refl)) as (k & l & _ & L & N). apply One in L; [|reflexivity]. injection L as ->. discriminate.
  - intros H. destruct (H _ (or_introl eq_refl)) as (k & l & E & _). discriminate.
  - intros H. destruct (H _ (or_introl eq_refl)) as (k & l & _ & L & _ & N). apply One in L; [|reflexivity]. injection L as ->. apply N. left. reflexivity.
  - intros pk [<-|[]]. exists "PP"%string, [PyNum 1 0]. split; [reflexivity|]. split; [exists [], []; split; [reflexivity|intros []]|]. split; [reflexivity|intros [X|[]]; discriminate].
Qed.
