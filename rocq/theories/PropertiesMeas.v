(** Property C146: data measured on the crystal of a formula.  Beside the theorems
    a concrete case. *)
From Coq Require Import String List Arith ZArith Bool Lia Reals QArith Qreals Lra Permutation.
From Coquelicot Require Import Complex.
Import ListNotations.
From Verif Require Import PyBase RMod DataModel SpecData DataProofs DataProofs2 CBase Expr ExprProofs SpecForm FDataModel SpecFData FDataProofs FDataProofs2 PropertiesFData FormModel
  TensorInst TensorProofs UtilModel SpecUtil SpecFormgen FormgenModel FformgenModel SpecFformgen TensorDefs PropertiesTensor
  FormgenTables FformgenProofs4 FformgenThms PropertiesFformgen PropertiesForm
  FitModel SpecFit FitProofs FitProofs2 FitProofs3 PropertiesFit Printer SpecPhys PhysThms PropertiesSym SymProofs2 SpecLoop LoopProofs SpecTruth TruthProofs SpecMeas MeasProofs.
From Verif Require Import SpecTensor TensorModel.
Local Open Scope nat_scope.

(** The misfit of noiseless data vanishes exactly at the tensors whose patterns are
    those of the crystal. *)
Theorem C146_same : forall ev expand aoi prefix fs d q srepr parse, sound_ev ev -> good_tensors d q -> (forall e, parse (srepr e) = Ok e) ->
  exists fs' file F, generate_uncontracted_fourier_transforms ev aoi prefix 16 fs = Ok fs' /\
    generate_contracted_fourier_transforms ev expand srepr prefix fs' d q 16 None = Ok file /\ load_fform parse file = Ok F /\
    (ff_M F = 16 /\ dkeys (ff_rows F) = ["PP"; "PS"; "SP"; "SS"]%string /\ formula_ok F) /\
    forall interp dat rho, exact_at_nodes interp -> reachable dat -> well_sampled interp dat -> respects rho ->
      measured_on (Q2R aoi) (val3 rho (Some d)) (val4 rho (Some q)) dat ->
      exists D, dat_to_fdat interp dat 16 = Ok D /\ matching F D /\
        forall rho', respects rho' -> (misfit F D rho' = 0%R <->
          same_patterns (Q2R aoi) (val3 rho' (Some d)) (val3 rho (Some d)) (val4 rho' (Some q)) (val4 rho (Some q))).
Proof. intros ev expand aoi prefix fs d q srepr parse EV. exact (measured_chain ev expand EV aoi prefix fs d q srepr parse). Qed.
Print Assumptions C146_same.

(** The generated cost function: zero at the true values of the parameters, and at
    other values exactly if they have the same patterns. *)
Theorem C146_cost : forall ev expand kev aoi prefix fs d q srepr parse, sound_ev ev -> sound_kev kev -> good_tensors d q -> (forall e, parse (srepr e) = Ok e) ->
  exists fs' file F, generate_uncontracted_fourier_transforms ev aoi prefix 16 fs = Ok fs' /\
    generate_contracted_fourier_transforms ev expand srepr prefix fs' d q 16 None = Ok file /\ load_fform parse file = Ok F /\
    forall interp dat free ts chunk save lfs, exact_at_nodes interp -> reachable dat -> well_sampled interp dat -> argument_list F free -> length ts = length free ->
      measured_on (Q2R aoi) (val3 (reading free ts) (Some d)) (val4 (reading free ts) (Some q)) dat ->
      exists D lib, dat_to_fdat interp dat 16 = Ok D /\ gen_cost_func kev F D (Some free) chunk save lfs = (save_lib save lib lfs, Ok lib) /\
        call lib ts = Some 0%R /\
        forall xs, length xs = length free -> exists c, call lib xs = Some c /\ (0 <= c)%R /\
          (c = 0%R <-> same_patterns (Q2R aoi) (val3 (reading free xs) (Some d)) (val3 (reading free ts) (Some d)) (val4 (reading free xs) (Some q)) (val4 (reading free ts) (Some q))).
Proof.
  intros ev expand kev aoi prefix fs d q srepr parse EV KEV G P.
  destruct (C146_same ev expand aoi prefix fs d q srepr parse EV G P) as (fs' & file & F & E1 & E2 & E3 & (M & K & OK) & H).
  exists fs', file, F. do 3 (split; [assumption|]). intros interp dat free ts chunk save lfs X Rd Ws A L Ms.
  destruct (H interp dat (reading free ts) X Rd Ws (reading_respects free ts) Ms) as (D & E & Ma & S).
  assert (Ne : chunk = true -> ff_rows F <> []) by (intros _ Z; rewrite Z in K; discriminate K).
  destruct (C52_cost kev F D free chunk save lfs KEV Ma A Ne) as (lib & Eg & V).
  assert (V' : forall xs, length xs = length free -> call lib xs = Some (misfit F D (reading free xs))).
  { intros xs Lx. apply V; [lia|]. apply reading_assigns; [apply A|lia]. }
  exists D, lib. split; [exact E|]. split; [exact Eg|]. split.
  - rewrite (V' ts L). f_equal. apply (S _ (reading_respects free ts)). intros inp out x. reflexivity.
  - intros xs Lx. exists (misfit F D (reading free xs)). split; [exact (V' xs Lx)|]. split; [apply misfit_pos|]. apply S, reading_respects.
Qed.
Print Assumptions C146_cost.

(** The fits: an optimiser that finds the minimum finds tensors with the patterns of
    the crystal. *)
Theorem C146_fit : forall ev expand kev aoi prefix fs d q srepr parse, sound_ev ev -> sound_kev kev -> good_tensors d q -> (forall e, parse (srepr e) = Ok e) ->
  exists fs' file F, generate_uncontracted_fourier_transforms ev aoi prefix 16 fs = Ok fs' /\
    generate_contracted_fourier_transforms ev expand srepr prefix fs' d q 16 None = Ok file /\ load_fform parse file = Ok F /\
    forall interp dat free ts, exact_at_nodes interp -> reachable dat -> well_sampled interp dat -> ff_free_symbols F = Ok free -> free <> [] -> length ts = length free ->
      measured_on (Q2R aoi) (val3 (reading free ts) (Some d)) (val4 (reading free ts) (Some q)) dat ->
      let found x xd := xd = combine free x /\ length x = length free /\
        same_patterns (Q2R aoi) (val3 (reading free x) (Some d)) (val3 (reading free ts) (Some d)) (val4 (reading free x) (Some q)) (val4 (reading free ts) (Some q)) in
      exists D, dat_to_fdat interp dat 16 = Ok D /\
        (forall optimiser guess bounds chunk save kw lfs lfs' x xd, finds_minimum optimiser -> bounds_hold bounds free ts ->
          least_squares_fit kev optimiser F D guess bounds chunk save None kw lfs = (lfs', Ok (Fitted x xd)) -> found x xd) /\
        (forall optimiser guess bounds chunk save kw lfs lfs' x xd, finds_minimum optimiser -> bounds_hold bounds free ts ->
          dual_annealing_fit kev optimiser F D guess bounds chunk save None kw lfs = (lfs', Ok (Fitted x xd)) -> found x xd) /\
        (forall optimiser guess own chunk save kw lfs lfs' kw' x xd, finds_minimum optimiser ->
          basinhopping_fit kev optimiser F D guess None own chunk save None kw lfs = (lfs', kw', Ok (Fitted x xd)) -> found x xd) /\
        (forall optimiser guess bounds own chunk save kw lfs lfs' kw' x xd, finds_bounded optimiser ->
          dget "minimizer_kwargs"%string kw = None -> dget "bounds"%string own = None -> bounds_hold (given_bounds bounds) free ts ->
          basinhopping_fit kev optimiser F D guess bounds own chunk save None kw lfs = (lfs', kw', Ok (Fitted x xd)) -> found x xd) /\
        (forall optimiser guess bounds own chunk save gp kw lfs lfs' kw' x xd, finds_bounded optimiser ->
          dget "minimizer_kwargs"%string kw = None -> dget "bounds"%string own = None -> bounds_hold (given_bounds bounds) free ts ->
          basinhopping_fit_jac kev optimiser F D guess bounds own chunk save gp None None kw lfs = (lfs', kw', Ok (Fitted x xd)) -> found x xd).
Proof.
  intros ev expand kev aoi prefix fs d q srepr parse EV KEV G P.
  destruct (C146_same ev expand aoi prefix fs d q srepr parse EV G P) as (fs' & file & F & E1 & E2 & E3 & (M & K & OK) & H).
  exists fs', file, F. do 3 (split; [assumption|]). intros interp dat free ts X Rd Ws FF NE L Ms found.
  destruct (H interp dat (reading free ts) X Rd Ws (reading_respects free ts) Ms) as (D & E & Ma & S).
  assert (Z : misfit F D (reading free ts) = 0%R) by (apply (S _ (reading_respects free ts)); intros inp out x; reflexivity).
  assert (N : forall x xd, near F D free ts x xd -> found x xd).
  { intros x xd (A & B & C & _). split; [exact A|]. split; [exact B|]. apply (S _ (reading_respects free x)).
    pose proof (misfit_pos F D (reading free x)). lra. }
  exists D. split; [exact E|]. split; [|split; [|split; [|split]]].
  - intros optimiser guess bounds chunk save kw lfs lfs' x xd O B Q. apply N.
    exact (truth_least_squares kev KEV F D free ts Ma FF NE L optimiser guess bounds chunk save kw lfs lfs' x xd O B Q).
  - intros optimiser guess bounds chunk save kw lfs lfs' x xd O B Q. apply N.
    exact (truth_dual_annealing kev KEV F D free ts Ma FF NE L optimiser guess bounds chunk save kw lfs lfs' x xd O B Q).
  - intros optimiser guess own chunk save kw lfs lfs' kw' x xd O Q. apply N.
    exact (truth_basinhopping kev KEV F D free ts Ma FF NE L optimiser guess own chunk save kw lfs lfs' kw' x xd O Q).
  - intros optimiser guess bounds own chunk save kw lfs lfs' kw' x xd O Nk No B Q. apply N.
    exact (truth_bounded kev KEV F D free ts Ma FF NE L optimiser guess bounds own chunk save kw lfs lfs' kw' x xd O Nk No B Q).
  - intros optimiser guess bounds own chunk save gp kw lfs lfs' kw' x xd O Nk No B Q. apply N.
    exact (truth_jac kev KEV F D free ts Ma FF NE L optimiser guess bounds own chunk save gp kw lfs lfs' kw' x xd O Nk No B Q).
Qed.
Print Assumptions C146_fit.

(** Twenty-five points of any crystal meet the hypotheses about the data. *)
Definition pattern (E : nat -> nat -> nat -> C) (Q : nat -> nat -> nat -> nat -> C) (inp out : pol) : list (R * R) :=
  sampled 25 (setup_intensity (fformgen_setup (Q2R (1 # 10))) E Q inp out).
Definition patterns E Q : list (string * list (R * R)) :=
  [("PP"%string, pattern E Q Pin Pin); ("PS"%string, pattern E Q Pin Sin); ("SP"%string, pattern E Q Sin Pin); ("SS"%string, pattern E Q Sin Sin)].
Definition experiment E Q : dat := mkdat (patterns E Q) 1 0 0 "radians" false.

Lemma experiment_reach E Q : reachable (experiment E Q).
Proof.
  exists (input DFloat (patterns E Q)), "radians"%string, false. eexists _, []. split.
  - rewrite construct_input; [reflexivity|repeat constructor; cbn; intuition discriminate|].
    repeat constructor; unfold snd, pattern, sampled, grid; discriminate.
  - unfold run, experiment, patterns, pattern. cbn [fold_left dmap map fst snd]. rewrite !finish_sampled. reflexivity.
Qed.
Example C146_case : forall E Q, reachable (experiment E Q) /\ measured_on (Q2R (1 # 10)) E Q (experiment E Q) /\ well_sampled table_interp (experiment E Q) /\
  exact_at_nodes table_interp.
Proof.
  intros E Q. pose proof (experiment_reach E Q) as Re. pose proof (reachable_wf _ Re) as W. split; [exact Re|]. split; [|split; [|exact table_exact]].
  - intros inp out. split; [destruct inp, out; cbn; tauto|]. intros p x y G I. apply (get_pc_In _ _ _ W) in G.
    assert (Ep : p = pattern E Q inp out).
    { cbn [experiment dc_data patterns] in G. destruct inp, out; repeat destruct G as [G|G]; try discriminate G; try (injection G as <-; reflexivity); destruct G. }
    subst p. unfold pattern, sampled in I. apply in_map_iff in I as (x' & X & _). injection X as <- <-. reflexivity.
  - intros k p G. apply (get_pc_In _ _ _ W) in G.
    assert (Ep : exists h, p = sampled 25 h).
    { cbn [experiment dc_data patterns] in G. repeat destruct G as [G|G]; try (injection G as <- <-; eexists; reflexivity). destruct G. }
    destruct Ep as [h ->]. assert (Ls : length (sampled 25 h) = 25) by (unfold sampled; rewrite map_length, grid_length; reflexivity).
    split; [rewrite Ls; lia|]. split; [unfold equally_spaced; rewrite Ls; exact (sampled_fst 25 h)|].
    apply (table_accepts 25); [exact Ls|]. rewrite sampled_fst. apply grid_NoDup.
Qed.
(** And the rest: the fit of 25 points of a crystal of class C_4. *)
Example C146_case_crystal : exists d0 q0 d q fs' file F free, dipole "C_4" = Ok d0 /\ quadrupole "C_4" = Ok q0 /\
  make_tensor_real (fun l => l) d0 = Ok d /\ make_tensor_complex (fun l => l) ("real_", "imag_")%string ("", "")%string q0 = Ok q /\
  generate_uncontracted_fourier_transforms (fun e => e) (1 # 10) "u" 16 [] = Ok fs' /\
  generate_contracted_fourier_transforms (fun e => e) (fun e => e) show "u" fs' d q 16 None = Ok file /\ load_fform read file = Ok F /\
  argument_list F free /\
  forall ts, length ts = length free ->
    exists D lib, dat_to_fdat table_interp (experiment (val3 (reading free ts) (Some d)) (val4 (reading free ts) (Some q))) 16 = Ok D /\
      gen_cost_func (fun e => e) F D (Some free) false None [] = ([], Ok lib) /\ call lib ts = Some 0%R.
Proof.
  assert (D : exists d0, dipole "C_4" = Ok d0) by (eexists; reflexivity).
  assert (Q : exists q0, quadrupole "C_4" = Ok q0) by (eexists; reflexivity).
  destruct D as (d0 & D), Q as (q0 & Q). destruct plain_tables as (T1 & _ & T3).
  pose proof (plain_lookup _ _ _ _ T1 D) as [Pd Sd]. pose proof (plain_lookup _ _ _ _ T3 Q) as [Pq Sq].
  pose proof (real_is (fun l => l) d0 Pd) as Md. pose proof (complex_is (fun l => l) q0 Pq) as Mq.
  assert (It : iterates (fun l => l)) by (intros l; apply Permutation_refl).
  destruct (PhysThms.prepared_ready (fun l => l) d0 _ 3 It Pd Sd (or_introl Md)) as (Sd' & Rd & _ & _).
  destruct (PhysThms.prepared_ready (fun l => l) q0 _ 4 It Pq Sq (or_intror Mq)) as (Sq' & Rq & _ & _).
  set (d := real_tensor (fun l => l) d0) in *. set (q := complex_tensor (fun l => l) q0) in *. clearbody d q.
  assert (G : good_tensors d q) by (split; [exact Sd'|split; [exact Sq'|split; [exact Rd|exact Rq]]]).
  destruct (C146_cost (fun e => e) (fun e => e) (fun e => e) (1 # 10) "u" [] d q show read PropertiesForm.id_sound FitProofs5.id_sound G read_show)
    as (fs' & file & F & E1 & E2 & E3 & H).
  destruct (PropertiesSym.some_arguments F) as (free & Ar).
  exists d0, q0, d, q, fs', file, F, free. do 8 (split; [assumption|]). intros ts L.
  set (E := val3 (reading free ts) (Some d)). set (Q' := val4 (reading free ts) (Some q)).
  destruct (C146_case E Q') as (Re & Ms & Ws & X).
  destruct (H table_interp (experiment E Q') free ts false None [] X Re Ws Ar L Ms) as (D' & lib & A & B & C & _). exists D', lib. auto.
Qed.
