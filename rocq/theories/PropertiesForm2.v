(** C23 and C28: the exact outcome for every trigonometric polynomial. *)
From Coq Require Import String List ZArith QArith Qreals Reals Lra Lia Bool.
From Coquelicot Require Import Complex.
From Verif Require Import PyBase CBase DataModel FDataModel Expr ExprProofs FormModel SpecForm SpecForm2 FourierBase
  FormProofs FormProofs6 FormThms PropertiesForm.
Import ListNotations.
Local Open Scope nat_scope.

(** The coefficients returned are those of the formula's reading. *)
Theorem C23_reading : forall ev f M rd, sound_ev ev -> (exists it, form_construct it = Ok f) -> M <= 16 ->
  (forall k e, form_get_pc f k = Ok e -> exists e', rd k = Some e' /\ reading e (Some e')) ->
  exists F, form_to_fform ev f M = Ok F /\ ff_get_keys F = dkeys f /\ ff_M F = M /\
    forall k e, form_get_pc f k = Ok e -> exists e' cells, rd k = Some e' /\ ff_get_pc F k = Ok cells /\
      length cells = 2 * M + 1 /\ (forall c, In c cells -> ~ In phi (syms c)) /\
      forall rho, respects rho ->
        map (eval rho) cells = map (fourier_coefficient (fun x => eval (at_phi rho x) e')) (freqs M).
Proof. exact outcome_ok. Qed.
Print Assumptions C23_reading.

(** One formula without a reading: KeyError. *)
Theorem C23_reading_fails : forall ev f M rd, sound_ev ev -> (exists it, form_construct it = Ok f) -> M <= 16 ->
  (forall k e, form_get_pc f k = Ok e -> reading e (rd k)) -> (exists k e, form_get_pc f k = Ok e /\ rd k = None) ->
  form_to_fform ev f M = Raise KeyError.
Proof. exact outcome_fails. Qed.
Print Assumptions C23_reading_fails.

(** Every trigonometric polynomial has a reading or none, nothing else happens. *)
Theorem C23_outcome : forall ev f M, sound_ev ev -> (exists it, form_construct it = Ok f) -> M <= 16 ->
  (forall k e, form_get_pc f k = Ok e -> trig_polynomial e) ->
  (exists F, form_to_fform ev f M = Ok F) \/ form_to_fform ev f M = Raise KeyError.
Proof. exact outcome_total. Qed.
Print Assumptions C23_outcome.
Theorem C23_reading_total : forall e, trig_polynomial e -> exists o, reading e o.
Proof. exact reading_total. Qed.
Print Assumptions C23_reading_total.

(** a + cos(phi)^2 is read as 1 + cos(phi)*2, and a*cos(phi) as a. *)
Example C23_reading_case :
  reading (EAdd [A_; EPow COS 2]) (Some (EAdd [EMul []; EMul [COS; num 2%Q]])) /\
  reading (EMul [A_; COS]) (Some (EMul [A_])) /\ reading COS (Some (num 1%Q)) /\
  reading (EAdd [A_; COS]) None /\ trig_polynomial (EAdd [A_; EPow COS 2]).
Proof.
  split; [|split; [|split; [|split]]].
  - apply (rd_sum [A_; EPow COS 2]).
    + right; left; reflexivity.
    + intros a [<-|[<-|[]]].
      * exists 0, 0. split; [constructor|lia].
      * exists 1, 0. split; [|lia]. apply (mono_trig COS [num 2%Q] 0 0 1 0); [constructor|].
        apply mono_free; [intros []|constructor].
  - apply (rd_linear [A_] COS []); [left; reflexivity|]. intros a [<-|[]] [E|[]]. discriminate.
  - apply rd_bare. left; reflexivity.
  - apply rd_sum_fails.
    + right; left; reflexivity.
    + intros a [<-|[<-|[]]]; [right; exists 0, 0; constructor|left; left; reflexivity].
    + exists COS. split; [right; left; reflexivity|left; left; reflexivity].
  - apply tp_sum. intros a [<-|[<-|[]]]; [apply tt_free; intros [E|[]]; discriminate|apply tt_power; left; reflexivity].
Qed.

(** form_to_dat succeeds exactly when phi is the one symbol left after the
    substitution; otherwise ValueError. *)
Theorem C28_exact : forall ev f d n, (exists it, form_construct it = Ok f) -> 0 < n ->
  (form_free_symbols (form_subs ev f (dmap number d)) = [phi] /\ exists dt, form_to_dat ev f d n = Ok dt) \/
  (form_free_symbols (form_subs ev f (dmap number d)) <> [phi] /\ form_to_dat ev f d n = Raise ValueError).
Proof. exact sampled_iff. Qed.
Print Assumptions C28_exact.
