(** Property C148: noisy measurements of a crystal. *)
From Coq Require Import String List Arith ZArith Bool Lia Reals QArith Qreals Lra Permutation.
From Coquelicot Require Import Complex.
Import ListNotations.
From Verif Require Import PyBase RMod DataModel SpecData DataProofs DataProofs2 CBase Expr ExprProofs SpecForm FDataModel SpecFData FDataProofs FDataProofs2 PropertiesFData FormModel
  TensorInst TensorProofs UtilModel SpecUtil SpecFormgen FormgenModel FformgenModel SpecFformgen TensorDefs PropertiesTensor
  FormgenTables FformgenProofs4 FformgenThms PropertiesFformgen PropertiesForm
  FitModel SpecFit FitProofs FitProofs2 FitProofs3 PropertiesFit Printer SymProofs2 SpecLoop LoopProofs SpecTruth TruthProofs PropertiesTruth
  SpecMeas MeasProofs PropertiesMeas SpecOne OneProofs SpecErr ErrProofs.
From Verif Require Import SpecTensor TensorModel.
Local Open Scope nat_scope.

(** Errors of at most [e] in the points move the fitted patterns by at most [23 e],
    at every angle, whichever fit is used. *)
Theorem C148_patterns : forall ev expand kev aoi prefix fs d q srepr parse, sound_ev ev -> sound_kev kev -> good_tensors d q -> (forall e, parse (srepr e) = Ok e) ->
  exists fs' file F, generate_uncontracted_fourier_transforms ev aoi prefix 16 fs = Ok fs' /\
    generate_contracted_fourier_transforms ev expand srepr prefix fs' d q 16 None = Ok file /\ load_fform parse file = Ok F /\
    forall interp dat free ts e, exact_at_nodes interp -> reachable dat -> finely_sampled interp dat -> ff_free_symbols F = Ok free -> free <> [] -> length ts = length free ->
      (0 <= e)%R -> measured_within e (Q2R aoi) (val3 (reading free ts) (Some d)) (val4 (reading free ts) (Some q)) dat ->
      let found x xd := xd = combine free x /\ length x = length free /\
        patterns_within (23 * e) (Q2R aoi) (val3 (reading free x) (Some d)) (val3 (reading free ts) (Some d)) (val4 (reading free x) (Some q)) (val4 (reading free ts) (Some q)) in
      exists D, dat_to_fdat interp dat 16 = Ok D /\
        (forall optimiser guess bounds chunk save kw lfs lfs' x xd, finds_minimum optimiser -> bounds_hold bounds free ts ->
          least_squares_fit kev optimiser F D guess bounds chunk save None kw lfs = (lfs', Ok (Fitted x xd)) -> found x xd) /\
        (forall optimiser guess bounds chunk save kw lfs lfs' x xd, finds_minimum optimiser -> bounds_hold bounds free ts ->
          dual_annealing_fit kev optimiser F D guess bounds chunk save None kw lfs = (lfs', Ok (Fitted x xd)) -> found x xd) /\
        (forall optimiser guess own chunk save kw lfs lfs' kw' x xd, finds_minimum optimiser ->
          basinhopping_fit kev optimiser F D guess None own chunk save None kw lfs = (lfs', kw', Ok (Fitted x xd)) -> found x xd) /\
        (forall optimiser guess bounds own chunk save kw lfs lfs' kw' x xd, finds_bounded optimiser ->
          dget "minimizer_kwargs"%string kw = None -> dget "bounds"%string own = None -> bounds_hold (given_bounds bounds) free ts ->
          basinhopping_fit kev optimiser F D guess bounds own chunk save None kw lfs = (lfs', kw', Ok (Fitted x xd)) -> found x xd) /\
        (forall optimiser guess bounds own chunk save gp kw lfs lfs' kw' x xd, finds_bounded optimiser ->
          dget "minimizer_kwargs"%string kw = None -> dget "bounds"%string own = None -> bounds_hold (given_bounds bounds) free ts ->
          basinhopping_fit_jac kev optimiser F D guess bounds own chunk save gp None None kw lfs = (lfs', kw', Ok (Fitted x xd)) -> found x xd).
Proof.
  intros ev expand kev aoi prefix fs d q srepr parse EV KEV G P.
  destruct (formula_chain ev expand EV aoi prefix fs d q srepr parse G P) as (fs' & file & F & E1 & E2 & E3 & (M & K & OK) & Ex & V).
  exists fs', file, F. do 3 (split; [assumption|]). intros interp dat free ts e X Rd Ws FF NE L Pe Ms found.
  assert (N : forall x xd, SpecTruth.close F free (points_of dat) ts x xd -> found x xd).
  { intros x xd C. split; [apply C|]. split; [apply C|]. apply (close_patterns (Q2R aoi) d q F free ts x xd dat e); try assumption.
    intros k p Ep. apply (Ws k p Ep). }
  assert (Kd : forall k, In k (ff_get_keys F) -> In k (get_keys dat)).
  { intros k I. unfold ff_get_keys in I. rewrite K in I. destruct I as [<-|[<-|[<-|[<-|[]]]]]; [apply (Ms Pin Pin)|apply (Ms Pin Sin)|apply (Ms Sin Pin)|apply (Ms Sin Sin)]. }
  assert (Hp : forall k p, get_pc dat k "radians" = Ok p -> points_of dat k = p /\ 2 * ff_M F < length p /\ 2 <= length p /\ equally_spaced p /\ is_ok (interp p)).
  { intros k p Ep. destruct (Ws k p Ep) as (Lp & Sp & Ip). split; [unfold points_of; rewrite Ep; reflexivity|]. rewrite M. repeat split; try assumption; lia. }
  destruct (C139_least_squares kev interp dat F (points_of dat) free ts KEV X Rd OK Kd Hp FF NE L) as (D & ED & A1). rewrite M in ED.
  destruct (C139_dual_annealing kev interp dat F (points_of dat) free ts KEV X Rd OK Kd Hp FF NE L) as (D2 & ED2 & A2). rewrite M, ED in ED2. injection ED2 as <-.
  destruct (C139_basinhopping kev interp dat F (points_of dat) free ts KEV X Rd OK Kd Hp FF NE L) as (D3 & ED3 & A3). rewrite M, ED in ED3. injection ED3 as <-.
  destruct (C139_bounded kev interp dat F (points_of dat) free ts KEV X Rd OK Kd Hp FF NE L) as (D4 & ED4 & A4). rewrite M, ED in ED4. injection ED4 as <-.
  destruct (C139_jac kev interp dat F (points_of dat) free ts KEV X Rd OK Kd Hp FF NE L) as (D5 & ED5 & A5). rewrite M, ED in ED5. injection ED5 as <-.
  exists D. split; [exact ED|]. split; [|split; [|split; [|split]]].
  - intros optimiser guess bounds chunk save kw lfs lfs' x xd O B Q. apply N. exact (A1 optimiser guess bounds chunk save kw lfs lfs' x xd O B Q).
  - intros optimiser guess bounds chunk save kw lfs lfs' x xd O B Q. apply N. exact (A2 optimiser guess bounds chunk save kw lfs lfs' x xd O B Q).
  - intros optimiser guess own chunk save kw lfs lfs' kw' x xd O Q. apply N. exact (A3 optimiser guess own chunk save kw lfs lfs' kw' x xd O Q).
  - intros optimiser guess bounds own chunk save kw lfs lfs' kw' x xd O Nk No B Q. apply N. exact (A4 optimiser guess bounds own chunk save kw lfs lfs' kw' x xd O Nk No B Q).
  - intros optimiser guess bounds own chunk save gp kw lfs lfs' kw' x xd O Nk No B Q. apply N. exact (A5 optimiser guess bounds own chunk save gp kw lfs lfs' kw' x xd O Nk No B Q).
Qed.
Print Assumptions C148_patterns.

(** With one parameter: the error of its square, times the brightest intensity of the
    crystal with parameter 1, is at most [23 e]. *)
Theorem C148_parameter : forall ev expand kev aoi prefix fs s d q E Q srepr parse, sound_ev ev -> sound_kev kev -> good_tensors d q -> (forall e, parse (srepr e) = Ok e) ->
  sreal s = Some true -> one_parameter s d q E Q ->
  exists fs' file F, generate_uncontracted_fourier_transforms ev aoi prefix 16 fs = Ok fs' /\
    generate_contracted_fourier_transforms ev expand srepr prefix fs' d q 16 None = Ok file /\ load_fform parse file = Ok F /\
    forall interp dat free ts e i, exact_at_nodes interp -> reachable dat -> finely_sampled interp dat -> ff_free_symbols F = Ok free -> length ts = length free ->
      nth_error free i = Some s -> (0 <= e)%R -> measured_within e (Q2R aoi) (val3 (reading free ts) (Some d)) (val4 (reading free ts) (Some q)) dat ->
      let found x := forall inp out phi, (Rabs (nth i x 0 ^ 2 - nth i ts 0 ^ 2) * Rabs (setup_intensity (fformgen_setup (Q2R aoi)) E Q inp out phi) <= 23 * e)%R in
      exists D, dat_to_fdat interp dat 16 = Ok D /\
        (forall optimiser guess bounds chunk save kw lfs lfs' x xd, finds_minimum optimiser -> bounds_hold bounds free ts ->
          least_squares_fit kev optimiser F D guess bounds chunk save None kw lfs = (lfs', Ok (Fitted x xd)) -> found x) /\
        (forall optimiser guess bounds chunk save kw lfs lfs' x xd, finds_minimum optimiser -> bounds_hold bounds free ts ->
          dual_annealing_fit kev optimiser F D guess bounds chunk save None kw lfs = (lfs', Ok (Fitted x xd)) -> found x) /\
        (forall optimiser guess own chunk save kw lfs lfs' kw' x xd, finds_minimum optimiser ->
          basinhopping_fit kev optimiser F D guess None own chunk save None kw lfs = (lfs', kw', Ok (Fitted x xd)) -> found x) /\
        (forall optimiser guess bounds own chunk save kw lfs lfs' kw' x xd, finds_bounded optimiser ->
          dget "minimizer_kwargs"%string kw = None -> dget "bounds"%string own = None -> bounds_hold (given_bounds bounds) free ts ->
          basinhopping_fit kev optimiser F D guess bounds own chunk save None kw lfs = (lfs', kw', Ok (Fitted x xd)) -> found x) /\
        (forall optimiser guess bounds own chunk save gp kw lfs lfs' kw' x xd, finds_bounded optimiser ->
          dget "minimizer_kwargs"%string kw = None -> dget "bounds"%string own = None -> bounds_hold (given_bounds bounds) free ts ->
          basinhopping_fit_jac kev optimiser F D guess bounds own chunk save gp None None kw lfs = (lfs', kw', Ok (Fitted x xd)) -> found x).
Proof.
  intros ev expand kev aoi prefix fs s d q E Q srepr parse EV KEV G P Rs O.
  destruct (C148_patterns ev expand kev aoi prefix fs d q srepr parse EV KEV G P) as (fs' & file & F & E1 & E2 & E3 & H).
  exists fs', file, F. do 3 (split; [assumption|]). intros interp dat free ts e i X Rd Ws FF L Ni Pe Ms. pose proof (proj1 (free_argument_list F free FF)) as ND.
  intros found. assert (NE : free <> []) by (intros ->; destruct i; discriminate).
  destruct (H interp dat free ts e X Rd Ws FF NE L Pe Ms) as (D & ED & A1 & A2 & A3 & A4 & A5). exists D. split; [exact ED|].
  assert (N : forall x xd, xd = combine free x /\ length x = length free /\
    patterns_within (23 * e) (Q2R aoi) (val3 (reading free x) (Some d)) (val3 (reading free ts) (Some d)) (val4 (reading free x) (Some q)) (val4 (reading free ts) (Some q)) -> found x).
  { intros x xd (_ & Lx & Sp). exact (one_within _ s d q E Q free ts x (23 * e) i Rs ND L Lx Ni O Sp). }
  split; [|split; [|split; [|split]]].
  - intros optimiser guess bounds chunk save kw lfs lfs' x xd Op B Z. apply (N x xd). exact (A1 optimiser guess bounds chunk save kw lfs lfs' x xd Op B Z).
  - intros optimiser guess bounds chunk save kw lfs lfs' x xd Op B Z. apply (N x xd). exact (A2 optimiser guess bounds chunk save kw lfs lfs' x xd Op B Z).
  - intros optimiser guess own chunk save kw lfs lfs' kw' x xd Op Z. apply (N x xd). exact (A3 optimiser guess own chunk save kw lfs lfs' kw' x xd Op Z).
  - intros optimiser guess bounds own chunk save kw lfs lfs' kw' x xd Op Nk No B Z. apply (N x xd). exact (A4 optimiser guess bounds own chunk save kw lfs lfs' kw' x xd Op Nk No B Z).
  - intros optimiser guess bounds own chunk save gp kw lfs lfs' kw' x xd Op Nk No B Z. apply (N x xd). exact (A5 optimiser guess bounds own chunk save gp kw lfs lfs' kw' x xd Op Nk No B Z).
Qed.
Print Assumptions C148_parameter.

(** Zincblende: the intensity P in, S out at angle 0 is the square of [sin (2 theta)]. *)
Theorem C148_zincblende : forall ev expand kev aoi prefix fs d srepr parse, sound_ev ev -> sound_kev kev -> (forall e, parse (srepr e) = Ok e) ->
  (do t <- dipole "T_d"; make_tensor_real (fun l => l) t) = Ok d ->
  exists fs' file F, generate_uncontracted_fourier_transforms ev aoi prefix 16 fs = Ok fs' /\
    generate_contracted_fourier_transforms ev expand srepr prefix fs' d no_quadrupole 16 None = Ok file /\ load_fform parse file = Ok F /\
    forall interp dat free ts e i, exact_at_nodes interp -> reachable dat -> finely_sampled interp dat -> ff_free_symbols F = Ok free -> length ts = length free ->
      nth_error free i = Some zb_sym -> (0 <= e)%R -> measured_within e (Q2R aoi) (val3 (reading free ts) (Some d)) (val4 (reading free ts) (Some no_quadrupole)) dat ->
      exists D, dat_to_fdat interp dat 16 = Ok D /\
        forall optimiser guess bounds chunk save kw lfs lfs' x xd, finds_minimum optimiser -> bounds_hold bounds free ts ->
          least_squares_fit kev optimiser F D guess bounds chunk save None kw lfs = (lfs', Ok (Fitted x xd)) ->
          (Rabs (nth i x 0 ^ 2 - nth i ts 0 ^ 2) * sin (2 * Q2R aoi) ^ 2 <= 23 * e)%R.
Proof.
  intros ev expand kev aoi prefix fs d srepr parse EV KEV P Ed.
  destruct (C148_parameter ev expand kev aoi prefix fs zb_sym d no_quadrupole _ _ srepr parse EV KEV (zb_good d Ed) P eq_refl (zb_one d Ed)) as (fs' & file & F & E1 & E2 & E3 & H).
  exists fs', file, F. do 3 (split; [assumption|]). intros interp dat free ts e i X Rd Ws FF L Ni Pe Ms.
  destruct (H interp dat free ts e i X Rd Ws FF L Ni Pe Ms) as (D & ED & A & _). exists D. split; [exact ED|].
  intros optimiser guess bounds chunk save kw lfs lfs' x xd Op B Qf. pose proof (A optimiser guess bounds chunk save kw lfs lfs' x xd Op B Qf Pin Sin 0%R) as Z.
  rewrite zb_intensity in Z. rewrite sin_2a. rewrite (Rabs_pos_eq (_ ^ 2) (pow2_ge_0 _)) in Z. exact Z.
Qed.
Print Assumptions C148_zincblende.

(** Forty points with a constant error meet the hypotheses about the data. *)
Definition off (e : R) E Q (inp out : pol) : list (R * R) :=
  sampled 40 (fun x => (setup_intensity (fformgen_setup (Q2R (1 # 10))) E Q inp out x + e)%R).
Definition offs e E Q : list (string * list (R * R)) :=
  [("PP"%string, off e E Q Pin Pin); ("PS"%string, off e E Q Pin Sin); ("SP"%string, off e E Q Sin Pin); ("SS"%string, off e E Q Sin Sin)].
Definition noisy e E Q : dat := mkdat (offs e E Q) 1 0 0 "radians" false.
Lemma noisy_reach e E Q : reachable (noisy e E Q).
Proof.
  exists (input DFloat (offs e E Q)), "radians"%string, false. eexists _, []. split.
  - rewrite construct_input; [reflexivity|repeat constructor; cbn; intuition discriminate|].
    repeat constructor; unfold snd, off, sampled, grid; discriminate.
  - unfold run, noisy, offs, off. cbn [fold_left dmap map fst snd]. rewrite !finish_sampled. reflexivity.
Qed.
Example C148_case : forall e E Q, (0 <= e)%R -> reachable (noisy e E Q) /\ measured_within e (Q2R (1 # 10)) E Q (noisy e E Q) /\ finely_sampled table_interp (noisy e E Q) /\
  exact_at_nodes table_interp.
Proof.
  intros e E Q Pe. pose proof (noisy_reach e E Q) as Re. pose proof (reachable_wf _ Re) as W. split; [exact Re|]. split; [|split; [|exact table_exact]].
  - intros inp out. split; [destruct inp, out; cbn; tauto|]. intros p x y G I. apply (get_pc_In _ _ _ W) in G.
    assert (Ep : p = off e E Q inp out).
    { cbn [noisy dc_data offs] in G. destruct inp, out; repeat destruct G as [G|G]; try discriminate G; try (injection G as <-; reflexivity); destruct G. }
    subst p. unfold off, sampled in I. apply in_map_iff in I as (x' & X & _). injection X as <- <-.
    match goal with |- (Rabs (?a + e - ?a) <= e)%R => replace (a + e - a)%R with e by ring end. rewrite Rabs_pos_eq; lra.
  - intros k p G. apply (get_pc_In _ _ _ W) in G.
    assert (Ep : exists h, p = sampled 40 h).
    { cbn [noisy dc_data offs] in G. repeat destruct G as [G|G]; try (injection G as <- <-; eexists; reflexivity). destruct G. }
    destruct Ep as [h ->]. assert (Ls : length (sampled 40 h) = 40) by (unfold sampled; rewrite map_length, grid_length; reflexivity).
    split; [rewrite Ls; lia|]. split; [unfold equally_spaced; rewrite Ls; exact (sampled_fst 40 h)|].
    apply (table_accepts 40); [exact Ls|]. rewrite sampled_fst. apply grid_NoDup.
Qed.
