(** Crystals that are dark at normal incidence (C149). *)
From Coq Require Import String List Arith ZArith Bool Lia Reals QArith Qreals Lra.
From Coquelicot Require Import Complex.
Import ListNotations.
From Verif Require Import PyBase CBase FourierBase Expr ExprProofs SpecForm FDataModel SpecFData FormModel
  UtilModel SpecFormgen FormgenModel FformgenModel SpecFformgen FformgenThms PropertiesFformgen
  FitModel SpecFit FitProofs SymProofs2 TurnProofs ConstrainProofs SpecMeas MeasProofs SpecOne OneProofs SpecFlat FlatProofs.
From Verif Require Import SpecTensor TensorModel.
Local Open Scope nat_scope.

Definition none3 : nat -> nat -> nat -> C := fun _ _ _ => RtoC 0.
Definition none4 : nat -> nat -> nat -> nat -> C := fun _ _ _ _ => RtoC 0.
Lemma none_intensity th inp out x : setup_intensity (fformgen_setup th) none3 none4 inp out x = 0%R.
Proof.
  rewrite (setup_intensity_scale th none3 none4 none3 none4 (RtoC 0)) by (intros; unfold none3, none4; ring).
  rewrite Cmod_0. ring.
Qed.
Lemma zb_dark : ~ seen 0 zb (fun _ _ _ _ => RtoC 0).
Proof.
  intros (inp & out & x & N). apply N. rewrite (flat_intensity zb none3 _ none4 inp out x); [apply none_intensity|]. split; [|reflexivity].
  intros i j k I J K. destruct i as [|[|i]]; try lia; destruct j as [|[|j]]; try lia; destruct k as [|[|k]]; try lia; reflexivity.
Qed.

Section Chain.
Variable ev expand : expr -> expr.
Hypothesis EV : sound_ev ev.
Lemma dark_misfit aoi prefix fs d q srepr parse : good_tensors d q -> (forall e, parse (srepr e) = Ok e) ->
  exists fs' file F, generate_uncontracted_fourier_transforms ev aoi prefix 16 fs = Ok fs' /\
    generate_contracted_fourier_transforms ev expand srepr prefix fs' d q 16 None = Ok file /\ load_fform parse file = Ok F /\
    (ff_M F = 16 /\ dkeys (ff_rows F) = ["PP"; "PS"; "SP"; "SS"]%string /\ formula_ok F) /\
    forall D rho, respects rho -> (forall inp out x, setup_intensity (fformgen_setup (Q2R aoi)) (val3 rho (Some d)) (val4 rho (Some q)) inp out x = 0%R) ->
      misfit F D rho = rsum (fun k => rsum (fun m => Cmod (dvalue D k m) ^ 2)%R (freqs 16)) ["PP"; "PS"; "SP"; "SS"]%string.
Proof.
  intros G P.
  destruct (chain_pair ev expand EV aoi prefix fs d q d q srepr parse G G P)
    as (fs' & file & F & file' & F' & row & row' & E1 & E2 & E3 & E4 & E5 & (M & K & OK) & _ & Rw & _ & V & _).
  exists fs', file, F. do 3 (split; [assumption|]). split; [auto|]. intros D rho Rs S.
  assert (Wf : wf_dict (ff_rows F)) by (unfold wf_dict; rewrite K; repeat constructor; cbn; intuition discriminate).
  rewrite <- K. unfold dkeys. rewrite FitProofs.rsum_map. unfold misfit. rewrite M. apply FitProofs.rsum_ext. intros [k r] I. cbn [fst snd].
  apply FitProofs.rsum_ext. intros m Im. destruct (some_key F k r K I) as (inp & out & <-).
  assert (Cr : r_cells r = row inp out).
  { destruct (Rw inp out) as [Er _]. unfold ff_get_pc, dgetr in Er. rewrite (In_dget _ _ _ Wf I) in Er. cbn in Er. injection Er as <-. reflexivity. }
  assert (Z : eval rho (fcell 16 r m) = RtoC 0).
  { unfold fcell. rewrite Cr. change (cell rho (row inp out) m = RtoC 0).
    rewrite (cells_scaled rho rho (row inp out) (RtoC 0) m); [ring|apply Rw|exact Im|]. intros x. rewrite V by exact Rs. rewrite S. ring. }
  rewrite Z. unfold Cminus. rewrite Cplus_0_l, Cmod_opp. reflexivity.
Qed.
End Chain.
