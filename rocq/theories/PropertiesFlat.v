(** Property C149: what normal incidence cannot see. *)
From Coq Require Import String List Arith ZArith Bool Lia Reals QArith Qreals Lra Permutation.
From Coquelicot Require Import Complex.
Import ListNotations.
From Verif Require Import PyBase CBase Expr ExprProofs SpecForm FDataModel SpecFData FormModel
  TensorInst TensorProofs UtilModel SpecUtil SpecFormgen FormgenModel FformgenModel SpecFformgen TensorDefs PropertiesTensor
  FormgenTables FformgenProofs4 FformgenThms PropertiesFformgen PropertiesForm
  FitModel SpecFit FitProofs FitProofs2 FitProofs3 PropertiesFit Printer SpecPhys PhysThms PropertiesSym SymProofs2 SpecMeas OneProofs SpecFlat FlatProofs.
From Verif Require Import SpecTensor TensorModel.
Local Open Scope nat_scope.

(** Tensors that agree in the entries seen at normal incidence have the same patterns
    and the same misfit with all data. *)
Theorem C149_misfit : forall ev expand aoi prefix fs d q srepr parse, sound_ev ev -> good_tensors d q -> (forall e, parse (srepr e) = Ok e) -> Q2R aoi = 0%R ->
  exists fs' file F, generate_uncontracted_fourier_transforms ev aoi prefix 16 fs = Ok fs' /\
    generate_contracted_fourier_transforms ev expand srepr prefix fs' d q 16 None = Ok file /\ load_fform parse file = Ok F /\
    (ff_M F = 16 /\ dkeys (ff_rows F) = ["PP"; "PS"; "SP"; "SS"]%string /\ formula_ok F) /\
    forall D rho rho', respects rho -> respects rho' ->
      flat_same (val3 rho (Some d)) (val3 rho' (Some d)) (val4 rho (Some q)) (val4 rho' (Some q)) -> misfit F D rho = misfit F D rho'.
Proof.
  intros ev expand aoi prefix fs d q srepr parse EV G P Z.
  destruct (same_misfit ev expand EV aoi prefix fs d q srepr parse G P) as (fs' & file & F & E1 & E2 & E3 & B & H).
  exists fs', file, F. do 4 (split; [assumption|]). intros D rho rho' Rr Rr' S. apply (H D rho rho' Rr Rr'). intros inp out x. rewrite Z. apply flat_intensity. exact S.
Qed.
Print Assumptions C149_misfit.

(** A parameter occurring elsewhere only does not change the generated cost. *)
Theorem C149_cost : forall ev expand kev aoi prefix fs d q srepr parse s, sound_ev ev -> sound_kev kev -> good_tensors d q -> (forall e, parse (srepr e) = Ok e) ->
  Q2R aoi = 0%R -> upright s d q ->
  exists fs' file F, generate_uncontracted_fourier_transforms ev aoi prefix 16 fs = Ok fs' /\
    generate_contracted_fourier_transforms ev expand srepr prefix fs' d q 16 None = Ok file /\ load_fform parse file = Ok F /\
    (ff_M F = 16 /\ dkeys (ff_rows F) = ["PP"; "PS"; "SP"; "SS"]%string /\ formula_ok F) /\
    forall D free i chunk save lfs, matching F D -> argument_list F free -> nth_error free i = Some s ->
      exists lib, gen_cost_func kev F D (Some free) chunk save lfs = (save_lib save lib lfs, Ok lib) /\
        forall xs ys, length xs = length free -> length ys = length free -> (forall j, j <> i -> nth j xs 0%R = nth j ys 0%R) ->
          exists c, call lib xs = Some c /\ call lib ys = Some c.
Proof.
  intros ev expand kev aoi prefix fs d q srepr parse s EV KEV G P Z U.
  destruct (C149_misfit ev expand aoi prefix fs d q srepr parse EV G P Z) as (fs' & file & F & E1 & E2 & E3 & (M & K & OK) & H).
  exists fs', file, F. do 3 (split; [assumption|]). split; [auto|]. intros D free i chunk save lfs Ma A Ni.
  assert (Ne : chunk = true -> ff_rows F <> []) by (intros _ Y; rewrite Y in K; discriminate K).
  destruct (C52_cost kev F D free chunk save lfs KEV Ma A Ne) as (lib & Eg & V). exists lib. split; [exact Eg|]. intros xs ys Lx Ly Hj.
  exists (misfit F D (reading free xs)). split; [apply V; [lia|apply reading_assigns; [apply A|lia]]|].
  rewrite (V ys (reading free ys) ltac:(lia) ltac:(apply reading_assigns; [apply A|lia])). f_equal.
  apply H; [apply reading_respects|apply reading_respects|]. apply (upright_flat s); [exact U|]. intros t Nt. symmetry.
  apply (reading_other free xs ys i s t Lx Ly Ni Nt Hj).
Qed.
Print Assumptions C149_cost.

(** The parameter zzz of class C_4v, normal incidence. *)
Example C149_case : exists t d, dipole "C_4v" = Ok t /\ make_tensor_real (fun l => l) t = Ok d /\ good_tensors d no_quadrupole /\
  upright (mksym "zzz" (Some true)) d no_quadrupole /\ at_ d [2; 2; 2] = ESym (mksym "zzz" (Some true)) /\ Q2R 0 = 0%R.
Proof.
  assert (E : exists t, dipole "C_4v" = Ok t) by (eexists; reflexivity). destruct E as (t & E).
  destruct plain_tables as (T1 & _). destruct (plain_lookup _ _ _ _ T1 E) as [P S]. pose proof (real_is (fun l => l) t P) as Md.
  assert (It : iterates (fun l : list sym => l)) by (intros l; apply Permutation_refl).
  destruct (PhysThms.prepared_ready (fun l => l) t _ 3 It P S (or_introl Md)) as (Sd & Rd & _).
  exists t, (real_tensor (fun l => l) t). split; [exact E|]. split; [exact Md|]. split.
  { split; [exact Sd|]. split; [reflexivity|]. split; [exact Rd|]. intros i s _ []. }
  clear - E. injection E as <-. split; [|split; [vm_compute; reflexivity|exact RMicromega.Q2R_0]]. split.
  - intros i j k I J K. destruct i as [|[|i]]; try lia; destruct j as [|[|j]]; try lia; destruct k as [|[|k]]; try lia; vm_compute; intuition discriminate.
  - intros i k h _ _ _ [].
Qed.
