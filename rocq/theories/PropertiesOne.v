(** Property C147: crystals with one parameter. *)
From Coq Require Import String List Arith ZArith Bool Lia Reals QArith Qreals Lra Permutation.
From Coquelicot Require Import Complex.
Import ListNotations.
From Verif Require Import PyBase RMod DataModel SpecData DataProofs DataProofs2 CBase Expr ExprProofs SpecForm FDataModel SpecFData FDataProofs FDataProofs2 PropertiesFData FormModel
  TensorInst TensorProofs UtilModel SpecUtil SpecFormgen FormgenModel FformgenModel SpecFformgen TensorDefs PropertiesTensor
  FormgenTables FformgenProofs4 FformgenThms PropertiesFformgen PropertiesForm
  FitModel SpecFit FitProofs FitProofs2 FitProofs3 PropertiesFit Printer SymProofs2 SpecLoop LoopProofs SpecTruth TruthProofs SpecMeas MeasProofs PropertiesMeas SpecOne OneProofs.
From Verif Require Import SpecTensor TensorModel.
Local Open Scope nat_scope.

(** The misfit of noiseless data vanishes at the true value of the parameter and at
    its opposite only, or, if the crystal is dark in this geometry, at all values. *)
Theorem C147_sign : forall ev expand aoi prefix fs s d q E Q srepr parse, sound_ev ev -> good_tensors d q -> (forall e, parse (srepr e) = Ok e) ->
  sreal s = Some true -> one_parameter s d q E Q ->
  exists fs' file F, generate_uncontracted_fourier_transforms ev aoi prefix 16 fs = Ok fs' /\
    generate_contracted_fourier_transforms ev expand srepr prefix fs' d q 16 None = Ok file /\ load_fform parse file = Ok F /\
    forall interp dat rho, exact_at_nodes interp -> reachable dat -> well_sampled interp dat -> respects rho ->
      measured_on (Q2R aoi) (val3 rho (Some d)) (val4 rho (Some q)) dat ->
      exists D, dat_to_fdat interp dat 16 = Ok D /\
        (seen (Q2R aoi) E Q -> forall rho', respects rho' -> (misfit F D rho' = 0%R <-> rho' s = rho s \/ rho' s = Copp (rho s))) /\
        (~ seen (Q2R aoi) E Q -> forall rho', respects rho' -> misfit F D rho' = 0%R).
Proof.
  intros ev expand aoi prefix fs s d q E Q srepr parse EV G P Rs O.
  destruct (C146_same ev expand aoi prefix fs d q srepr parse EV G P) as (fs' & file & F & E1 & E2 & E3 & _ & H).
  exists fs', file, F. do 3 (split; [assumption|]). intros interp dat rho X Rd Ws Rr Ms.
  destruct (H interp dat rho X Rd Ws Rr Ms) as (D & ED & _ & Sm). exists D. split; [exact ED|]. split; intros Se rho' Rr'.
  - rewrite (Sm rho' Rr'). apply (one_same _ s d q E Q); assumption.
  - apply (Sm rho' Rr'). apply (one_unseen _ s d q E Q); assumption.
Qed.
Print Assumptions C147_sign.

(** The fits give the parameter up to its sign. *)
Theorem C147_fit : forall ev expand kev aoi prefix fs s d q E Q srepr parse, sound_ev ev -> sound_kev kev -> good_tensors d q -> (forall e, parse (srepr e) = Ok e) ->
  sreal s = Some true -> one_parameter s d q E Q -> seen (Q2R aoi) E Q ->
  exists fs' file F, generate_uncontracted_fourier_transforms ev aoi prefix 16 fs = Ok fs' /\
    generate_contracted_fourier_transforms ev expand srepr prefix fs' d q 16 None = Ok file /\ load_fform parse file = Ok F /\
    forall interp dat free ts i, exact_at_nodes interp -> reachable dat -> well_sampled interp dat -> ff_free_symbols F = Ok free -> length ts = length free ->
      nth_error free i = Some s ->
      measured_on (Q2R aoi) (val3 (reading free ts) (Some d)) (val4 (reading free ts) (Some q)) dat ->
      let found x xd := xd = combine free x /\ (nth i x 0 = nth i ts 0 \/ nth i x 0 = - nth i ts 0)%R in
      exists D, dat_to_fdat interp dat 16 = Ok D /\
        (forall optimiser guess bounds chunk save kw lfs lfs' x xd, finds_minimum optimiser -> bounds_hold bounds free ts ->
          least_squares_fit kev optimiser F D guess bounds chunk save None kw lfs = (lfs', Ok (Fitted x xd)) -> found x xd) /\
        (forall optimiser guess bounds chunk save kw lfs lfs' x xd, finds_minimum optimiser -> bounds_hold bounds free ts ->
          dual_annealing_fit kev optimiser F D guess bounds chunk save None kw lfs = (lfs', Ok (Fitted x xd)) -> found x xd) /\
        (forall optimiser guess own chunk save kw lfs lfs' kw' x xd, finds_minimum optimiser ->
          basinhopping_fit kev optimiser F D guess None own chunk save None kw lfs = (lfs', kw', Ok (Fitted x xd)) -> found x xd) /\
        (forall optimiser guess bounds own chunk save kw lfs lfs' kw' x xd, finds_bounded optimiser ->
          dget "minimizer_kwargs"%string kw = None -> dget "bounds"%string own = None -> bounds_hold (given_bounds bounds) free ts ->
          basinhopping_fit kev optimiser F D guess bounds own chunk save None kw lfs = (lfs', kw', Ok (Fitted x xd)) -> found x xd) /\
        (forall optimiser guess bounds own chunk save gp kw lfs lfs' kw' x xd, finds_bounded optimiser ->
          dget "minimizer_kwargs"%string kw = None -> dget "bounds"%string own = None -> bounds_hold (given_bounds bounds) free ts ->
          basinhopping_fit_jac kev optimiser F D guess bounds own chunk save gp None None kw lfs = (lfs', kw', Ok (Fitted x xd)) -> found x xd).
Proof.
  intros ev expand kev aoi prefix fs s d q E Q srepr parse EV KEV G P Rs O Se.
  destruct (C146_fit ev expand kev aoi prefix fs d q srepr parse EV KEV G P) as (fs' & file & F & E1 & E2 & E3 & H).
  exists fs', file, F. do 3 (split; [assumption|]). intros interp dat free ts i X Rd Ws FF L Ni Ms. pose proof (proj1 (free_argument_list F free FF)) as ND.
  intros found. assert (NE : free <> []) by (intros ->; destruct i; discriminate).
  destruct (H interp dat free ts X Rd Ws FF NE L Ms) as (D & ED & A1 & A2 & A3 & A4 & A5). exists D. split; [exact ED|].
  assert (N : forall x xd, xd = combine free x /\ length x = length free /\
    same_patterns (Q2R aoi) (val3 (reading free x) (Some d)) (val3 (reading free ts) (Some d)) (val4 (reading free x) (Some q)) (val4 (reading free ts) (Some q)) -> found x xd).
  { intros x xd (A & Lx & Sp). split; [exact A|].
    apply (one_same _ s d q E Q _ _ Rs (reading_respects free ts) (reading_respects free x) O Se) in Sp.
    rewrite (reading_assigns free x ND ltac:(lia) i s Ni), (reading_assigns free ts ND ltac:(lia) i s Ni), <- RtoC_opp in Sp.
    destruct Sp as [Sp|Sp]; apply RtoC_inj in Sp; auto. }
  split; [|split; [|split; [|split]]].
  - intros optimiser guess bounds chunk save kw lfs lfs' x xd Op B Z. apply N. exact (A1 optimiser guess bounds chunk save kw lfs lfs' x xd Op B Z).
  - intros optimiser guess bounds chunk save kw lfs lfs' x xd Op B Z. apply N. exact (A2 optimiser guess bounds chunk save kw lfs lfs' x xd Op B Z).
  - intros optimiser guess own chunk save kw lfs lfs' kw' x xd Op Z. apply N. exact (A3 optimiser guess own chunk save kw lfs lfs' kw' x xd Op Z).
  - intros optimiser guess bounds own chunk save kw lfs lfs' kw' x xd Op Nk No B Z. apply N. exact (A4 optimiser guess bounds own chunk save kw lfs lfs' kw' x xd Op Nk No B Z).
  - intros optimiser guess bounds own chunk save gp kw lfs lfs' kw' x xd Op Nk No B Z. apply N. exact (A5 optimiser guess bounds own chunk save gp kw lfs lfs' kw' x xd Op Nk No B Z).
Qed.
Print Assumptions C147_fit.

(** Zincblende (class T_d, no quadrupole radiation) at oblique incidence. *)
Theorem C147_zincblende : forall ev expand aoi prefix fs d srepr parse, sound_ev ev -> (forall e, parse (srepr e) = Ok e) -> (0 < Q2R aoi < PI / 2)%R ->
  (do t <- dipole "T_d"; make_tensor_real (fun l => l) t) = Ok d ->
  exists fs' file F, generate_uncontracted_fourier_transforms ev aoi prefix 16 fs = Ok fs' /\
    generate_contracted_fourier_transforms ev expand srepr prefix fs' d no_quadrupole 16 None = Ok file /\ load_fform parse file = Ok F /\
    forall interp dat rho, exact_at_nodes interp -> reachable dat -> well_sampled interp dat -> respects rho ->
      measured_on (Q2R aoi) (val3 rho (Some d)) (val4 rho (Some no_quadrupole)) dat ->
      exists D, dat_to_fdat interp dat 16 = Ok D /\
        forall rho', respects rho' -> (misfit F D rho' = 0%R <-> rho' zb_sym = rho zb_sym \/ rho' zb_sym = Copp (rho zb_sym)).
Proof.
  intros ev expand aoi prefix fs d srepr parse EV P Th Ed.
  destruct (C147_sign ev expand aoi prefix fs zb_sym d no_quadrupole _ _ srepr parse EV (zb_good d Ed) P eq_refl (zb_one d Ed)) as (fs' & file & F & E1 & E2 & E3 & H).
  exists fs', file, F. do 3 (split; [assumption|]). intros interp dat rho X Rd Ws Rr Ms.
  destruct (H interp dat rho X Rd Ws Rr Ms) as (D & ED & S & _). exists D. split; [exact ED|]. exact (S (zb_seen _ Th)).
Qed.
Print Assumptions C147_zincblende.

(** Data as in C146: 25 points of zincblende. *)
Example C147_case : exists d fs' file F, (do t <- dipole "T_d"; make_tensor_real (fun l => l) t) = Ok d /\
  generate_uncontracted_fourier_transforms (fun e => e) (1 # 10) "u" 16 [] = Ok fs' /\
  generate_contracted_fourier_transforms (fun e => e) (fun e => e) show "u" fs' d no_quadrupole 16 None = Ok file /\ load_fform read file = Ok F /\
  forall rho, respects rho -> exists D, dat_to_fdat table_interp (experiment (val3 rho (Some d)) (val4 rho (Some no_quadrupole))) 16 = Ok D /\
    forall rho', respects rho' -> (misfit F D rho' = 0%R <-> rho' zb_sym = rho zb_sym \/ rho' zb_sym = Copp (rho zb_sym)).
Proof.
  assert (Ed : exists d, (do t <- dipole "T_d"; make_tensor_real (fun l => l) t) = Ok d).
  { assert (E : exists t, dipole "T_d" = Ok t) by (eexists; reflexivity). destruct E as (t & E). rewrite E. cbn [bind].
    destruct plain_tables as (T1 & _). exists (real_tensor (fun l => l) t). apply real_is. exact (proj1 (plain_lookup _ _ _ _ T1 E)). }
  destruct Ed as (d & Ed).
  assert (Th : (0 < Q2R (1 # 10) < PI / 2)%R). { pose proof PI2_1. unfold Q2R. cbn [Qnum Qden]. lra. }
  destruct (C147_zincblende (fun e => e) (fun e => e) (1 # 10) "u" [] d show read PropertiesForm.id_sound read_show Th Ed) as (fs' & file & F & E1 & E2 & E3 & H).
  exists d, fs', file, F. do 4 (split; [assumption|]). intros rho Rr.
  destruct (C146_case (val3 rho (Some d)) (val4 rho (Some no_quadrupole))) as (Re & Ms & Ws & X).
  exact (H table_interp _ rho X Re Ws Rr Ms).
Qed.
