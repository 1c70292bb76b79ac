(** Property C149, continued: crystals that are dark at normal incidence. *)
From Coq Require Import String List Arith ZArith Bool Lia Reals QArith Qreals Lra Permutation.
From Coquelicot Require Import Complex.
Import ListNotations.
From Verif Require Import PyBase RMod DataModel SpecData CBase Expr ExprProofs SpecForm FDataModel SpecFData FormModel
  TensorInst TensorProofs UtilModel SpecUtil SpecFormgen FormgenModel FformgenModel SpecFformgen TensorDefs PropertiesTensor
  FormgenTables FformgenProofs4 FformgenThms PropertiesFformgen PropertiesForm
  FitModel SpecFit FitProofs FitProofs2 FitProofs3 PropertiesFit Printer SpecPhys PhysThms PropertiesSym SymProofs2 SpecMeas OneProofs SpecOne PropertiesOne SpecFlat FlatProofs DarkProofs.
From Verif Require Import SpecTensor TensorModel.
Local Open Scope nat_scope.

(** If the entries seen at normal incidence are zero, the cost is the power of the
    data, whatever the parameters. *)
Theorem C149_dark : forall ev expand kev aoi prefix fs d q srepr parse, sound_ev ev -> sound_kev kev -> good_tensors d q -> (forall e, parse (srepr e) = Ok e) ->
  Q2R aoi = 0%R -> (forall rho, flat_same (val3 rho (Some d)) (fun _ _ _ => RtoC 0) (val4 rho (Some q)) (fun _ _ _ _ => RtoC 0)) ->
  exists fs' file F, generate_uncontracted_fourier_transforms ev aoi prefix 16 fs = Ok fs' /\
    generate_contracted_fourier_transforms ev expand srepr prefix fs' d q 16 None = Ok file /\ load_fform parse file = Ok F /\
    (ff_M F = 16 /\ dkeys (ff_rows F) = ["PP"; "PS"; "SP"; "SS"]%string /\ formula_ok F) /\
    forall D free chunk save lfs, matching F D -> argument_list F free ->
      exists lib, gen_cost_func kev F D (Some free) chunk save lfs = (save_lib save lib lfs, Ok lib) /\
        forall xs, length xs = length free ->
          call lib xs = Some (rsum (fun k => rsum (fun m => Cmod (dvalue D k m) ^ 2)%R (freqs 16)) ["PP"; "PS"; "SP"; "SS"]%string).
Proof.
  intros ev expand kev aoi prefix fs d q srepr parse EV KEV G P Z U.
  destruct (dark_misfit ev expand EV aoi prefix fs d q srepr parse G P) as (fs' & file & F & E1 & E2 & E3 & (M & K & OK) & H).
  exists fs', file, F. do 3 (split; [assumption|]). split; [auto|]. intros D free chunk save lfs Ma A.
  assert (Ne : chunk = true -> ff_rows F <> []) by (intros _ Y; rewrite Y in K; discriminate K).
  destruct (C52_cost kev F D free chunk save lfs KEV Ma A Ne) as (lib & Eg & V). exists lib. split; [exact Eg|]. intros xs Lx.
  rewrite (V xs (reading free xs) ltac:(lia) ltac:(apply reading_assigns; [apply A|lia])). f_equal.
  apply H; [apply reading_respects|]. intros inp out x. rewrite Z, (flat_intensity _ none3 _ none4 inp out x (U (reading free xs))). apply none_intensity.
Qed.
Print Assumptions C149_dark.

(** Zincblende at normal incidence: every value of the parameter fits. *)
Theorem C147_normal : forall ev expand aoi prefix fs d srepr parse, sound_ev ev -> (forall e, parse (srepr e) = Ok e) -> Q2R aoi = 0%R ->
  (do t <- dipole "T_d"; make_tensor_real (fun l => l) t) = Ok d ->
  exists fs' file F, generate_uncontracted_fourier_transforms ev aoi prefix 16 fs = Ok fs' /\
    generate_contracted_fourier_transforms ev expand srepr prefix fs' d no_quadrupole 16 None = Ok file /\ load_fform parse file = Ok F /\
    forall interp dat rho, exact_at_nodes interp -> reachable dat -> well_sampled interp dat -> respects rho ->
      measured_on (Q2R aoi) (val3 rho (Some d)) (val4 rho (Some no_quadrupole)) dat ->
      exists D, dat_to_fdat interp dat 16 = Ok D /\ forall rho', respects rho' -> misfit F D rho' = 0%R.
Proof.
  intros ev expand aoi prefix fs d srepr parse EV P Th Ed.
  destruct (C147_sign ev expand aoi prefix fs zb_sym d no_quadrupole _ _ srepr parse EV (zb_good d Ed) P eq_refl (zb_one d Ed)) as (fs' & file & F & E1 & E2 & E3 & H).
  exists fs', file, F. do 3 (split; [assumption|]). intros interp dat rho X Rd Ws Rr Ms.
  destruct (H interp dat rho X Rd Ws Rr Ms) as (D & ED & _ & S). exists D. split; [exact ED|]. apply S. rewrite Th. exact zb_dark.
Qed.
Print Assumptions C147_normal.

(** Class C_4v, dipole radiation only. *)
Example C149_case_dark : exists t d, dipole "C_4v" = Ok t /\ make_tensor_real (fun l => l) t = Ok d /\ good_tensors d no_quadrupole /\ Q2R 0 = 0%R /\
  forall rho, flat_same (val3 rho (Some d)) (fun _ _ _ => RtoC 0) (val4 rho (Some no_quadrupole)) (fun _ _ _ _ => RtoC 0).
Proof.
  assert (E : exists t, dipole "C_4v" = Ok t) by (eexists; reflexivity). destruct E as (t & E).
  destruct plain_tables as (T1 & _). destruct (plain_lookup _ _ _ _ T1 E) as [P S]. pose proof (real_is (fun l => l) t P) as Md.
  assert (It : iterates (fun l : list sym => l)) by (intros l; apply Permutation_refl).
  destruct (PhysThms.prepared_ready (fun l => l) t _ 3 It P S (or_introl Md)) as (Sd & Rd & _).
  exists t, (real_tensor (fun l => l) t). split; [exact E|]. split; [exact Md|]. split.
  { split; [exact Sd|]. split; [reflexivity|]. split; [exact Rd|]. intros i s _ []. }
  clear - E. injection E as <-. split; [exact RMicromega.Q2R_0|]. intros rho.
  assert (N0 : Expr.eval rho (num 0) = RtoC 0) by (rewrite eval_num, RMicromega.Q2R_0; reflexivity). split.
  - intros i j k I J K. rewrite <- N0. unfold val3. f_equal.
    destruct i as [|[|i]]; try lia; destruct j as [|[|j]]; try lia; destruct k as [|[|k]]; try lia; vm_compute; reflexivity.
  - intros i k h _ _ _. exact N0.
Qed.
