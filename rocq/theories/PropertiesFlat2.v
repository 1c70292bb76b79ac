(** Property C149 for the symbolic formulas. *)
From Coq Require Import String List Arith ZArith Bool Lia Reals QArith Qreals Lra Permutation.
From Coquelicot Require Import Complex.
Import ListNotations.
From Verif Require Import PyBase CBase Expr ExprProofs FormModel SpecForm TensorInst TensorProofs UtilModel SpecUtil SpecFormgen FormgenModel TensorDefs FormgenTables
  PropertiesForm PropertiesFormgen OneProofs SpecFlat FlatProofs Flat2Proofs PropertiesFlat.
From Verif Require Import SpecTensor TensorModel.
Local Open Scope nat_scope.

(** The formulas of formgen at angle of incidence 0, magnetic dipoles included. *)
Theorem C149_formgen : forall ev ex theta e m q F, sound_ev ev -> sound_ev ex -> shapes e m q -> formgen ev ex theta e m q = Ok F ->
  forall rho rho', respects rho -> respects rho' -> eval rho theta = RtoC 0 -> eval rho' theta = RtoC 0 -> Re (rho phi) = Re (rho' phi) ->
  flat_same (val3 rho e) (val3 rho' e) (val4 rho q) (val4 rho' q) -> (forall i j k, i < 2 -> j < 2 -> k < 2 -> val3 rho m i j k = val3 rho' m i j k) ->
  forall inp out, exists x, dget (key inp out) F = Some x /\ eval rho x = eval rho' x.
Proof.
  intros ev ex theta e m q F EV EX Sh H rho rho' Rr Rr' T T' Ph Fl Fm inp out.
  destruct (C44_formula ev ex theta e m q F EV EX Sh H rho 0%R Rr T) as [_ A].
  destruct (C44_formula ev ex theta e m q F EV EX Sh H rho' 0%R Rr' T') as [_ B].
  destruct (A inp out) as (x & G & V). destruct (B inp out) as (x' & G' & V'). rewrite G in G'. injection G' as <-.
  exists x. split; [exact G|]. rewrite V, V', Ph. f_equal. apply flat_intensity_all; assumption.
Qed.
Print Assumptions C149_formgen.

Example C149_case_formgen : exists d F, (do t <- dipole "C_4v"; make_tensor_real (fun l => l) t) = Ok d /\
  formgen (fun e => e) (fun e => e) (num 0) (Some d) None None = Ok F /\
  forall rho rho', respects rho -> respects rho' -> (forall s, s <> mksym "zzz" (Some true) -> rho s = rho' s) ->
    forall inp out, exists x, dget (key inp out) F = Some x /\ eval rho x = eval rho' x.
Proof.
  destruct C149_case as (t & d & E & Md & (Sd & _ & Rd & _) & U & _).
  assert (Sh : shapes (Some d) None None) by (split; [exact Sd|split; exact Logic.I]).
  destruct (C44_errors (fun e => e) (fun e => e) (num 0) (Some d) None None PropertiesForm.id_sound Sh) as [[W _] _].
  destruct W as (F & HF). { split; [exact Rd|]. split; [exact Logic.I|]. split; [exact Logic.I|]. intros (N & _). discriminate N. }
  exists d, F. split; [rewrite E; exact Md|]. split; [exact HF|]. intros rho rho' Rr Rr' Ag.
  assert (Z : forall r, eval r (num 0) = RtoC 0) by (intros r; rewrite eval_num, RMicromega.Q2R_0; reflexivity).
  apply (C149_formgen (fun e => e) (fun e => e) (num 0) (Some d) None None F PropertiesForm.id_sound PropertiesForm.id_sound Sh HF rho rho' Rr Rr' (Z rho) (Z rho')).
  - rewrite Ag; [reflexivity|discriminate].
  - destruct (upright_flat _ d no_quadrupole rho rho' U Ag) as [A _]. split; [exact A|reflexivity].
  - reflexivity.
Qed.
