(** Property C150: data on the curves of symbolic formulas.  Beside the theorems a
    concrete case. *)
From Coq Require Import String List Arith ZArith Bool Lia Reals QArith Qreals Lra Permutation.
From Coquelicot Require Import Complex.
Import ListNotations.
From Verif Require Import PyBase RMod DataModel SpecData DataProofs DataProofs2 CBase Expr ExprProofs SpecForm FDataModel SpecFData FDataProofs FDataProofs2 PropertiesFData FormModel
  FormProofs FormProofs2 FormProofs3 PropertiesForm PropertiesPipe
  FitModel SpecFit FitProofs FitProofs2 FitProofs3 PropertiesFit SymProofs2 SpecLoop LoopProofs SpecTruth TruthProofs SpecMeas MeasProofs SpecCurve CurveProofs.
Local Open Scope nat_scope.

(** The misfit of noiseless data vanishes exactly at the values with the same
    curves. *)
Theorem C150_same : forall ev f, sound_ev ev -> (exists it, form_construct it = Ok f) -> (forall k e, In (k, e) f -> covered e) ->
  exists F, form_to_fform ev f 16 = Ok F /\ (ff_M F = 16 /\ dkeys (ff_rows F) = dkeys f /\ formula_ok F) /\
    forall interp dat rho, exact_at_nodes interp -> reachable dat -> well_sampled interp dat -> respects rho ->
      real_curves f rho -> on_curves f rho dat ->
      exists D, dat_to_fdat interp dat 16 = Ok D /\ matching F D /\
        forall rho', respects rho' -> (misfit F D rho' = 0%R <-> same_curves f rho' rho).
Proof. intros ev f EV. exact (curves_chain ev EV f). Qed.
Print Assumptions C150_same.

(** The generated cost function: zero at the true values of the parameters, and at
    other values exactly if they have the same curves. *)
Theorem C150_cost : forall ev kev f, sound_ev ev -> sound_kev kev -> (exists it, form_construct it = Ok f) -> (forall k e, In (k, e) f -> covered e) -> f <> [] ->
  exists F, form_to_fform ev f 16 = Ok F /\
    forall interp dat free ts chunk save lfs, exact_at_nodes interp -> reachable dat -> well_sampled interp dat -> argument_list F free -> length ts = length free ->
      real_curves f (reading free ts) -> on_curves f (reading free ts) dat ->
      exists D lib, dat_to_fdat interp dat 16 = Ok D /\ gen_cost_func kev F D (Some free) chunk save lfs = (save_lib save lib lfs, Ok lib) /\
        call lib ts = Some 0%R /\
        forall xs, length xs = length free -> exists c, call lib xs = Some c /\ (0 <= c)%R /\
          (c = 0%R <-> same_curves f (reading free xs) (reading free ts)).
Proof.
  intros ev kev f EV KEV Cn Cv Nf.
  destruct (C150_same ev f EV Cn Cv) as (F & E1 & (M & K & OK) & H).
  exists F. split; [exact E1|]. intros interp dat free ts chunk save lfs X Rd Ws A L Rl On.
  destruct (H interp dat (reading free ts) X Rd Ws (reading_respects free ts) Rl On) as (D & E & Ma & S).
  assert (Ne : chunk = true -> ff_rows F <> []) by (intros _ Z; rewrite Z in K; destruct f; [exact (Nf eq_refl)|discriminate K]).
  destruct (C52_cost kev F D free chunk save lfs KEV Ma A Ne) as (lib & Eg & V).
  assert (V' : forall xs, length xs = length free -> call lib xs = Some (misfit F D (reading free xs))).
  { intros xs Lx. apply V; [lia|]. apply reading_assigns; [apply A|lia]. }
  exists D, lib. split; [exact E|]. split; [exact Eg|]. split.
  - rewrite (V' ts L). f_equal. apply (S _ (reading_respects free ts)). intros k e x I. reflexivity.
  - intros xs Lx. exists (misfit F D (reading free xs)). split; [exact (V' xs Lx)|]. split; [apply misfit_pos|]. apply S, reading_respects.
Qed.
Print Assumptions C150_cost.

(** The fits: an optimiser that finds the minimum finds values with the curves of
    the data. *)
Theorem C150_fit : forall ev kev f, sound_ev ev -> sound_kev kev -> (exists it, form_construct it = Ok f) -> (forall k e, In (k, e) f -> covered e) ->
  exists F, form_to_fform ev f 16 = Ok F /\
    forall interp dat free ts, exact_at_nodes interp -> reachable dat -> well_sampled interp dat -> ff_free_symbols F = Ok free -> free <> [] -> length ts = length free ->
      real_curves f (reading free ts) -> on_curves f (reading free ts) dat ->
      let found x xd := xd = combine free x /\ length x = length free /\ same_curves f (reading free x) (reading free ts) in
      exists D, dat_to_fdat interp dat 16 = Ok D /\
        (forall optimiser guess bounds chunk save kw lfs lfs' x xd, finds_minimum optimiser -> bounds_hold bounds free ts ->
          least_squares_fit kev optimiser F D guess bounds chunk save None kw lfs = (lfs', Ok (Fitted x xd)) -> found x xd) /\
        (forall optimiser guess bounds chunk save kw lfs lfs' x xd, finds_minimum optimiser -> bounds_hold bounds free ts ->
          dual_annealing_fit kev optimiser F D guess bounds chunk save None kw lfs = (lfs', Ok (Fitted x xd)) -> found x xd) /\
        (forall optimiser guess own chunk save kw lfs lfs' kw' x xd, finds_minimum optimiser ->
          basinhopping_fit kev optimiser F D guess None own chunk save None kw lfs = (lfs', kw', Ok (Fitted x xd)) -> found x xd) /\
        (forall optimiser guess bounds own chunk save kw lfs lfs' kw' x xd, finds_bounded optimiser ->
          dget "minimizer_kwargs"%string kw = None -> dget "bounds"%string own = None -> bounds_hold (given_bounds bounds) free ts ->
          basinhopping_fit kev optimiser F D guess bounds own chunk save None kw lfs = (lfs', kw', Ok (Fitted x xd)) -> found x xd) /\
        (forall optimiser guess bounds own chunk save gp kw lfs lfs' kw' x xd, finds_bounded optimiser ->
          dget "minimizer_kwargs"%string kw = None -> dget "bounds"%string own = None -> bounds_hold (given_bounds bounds) free ts ->
          basinhopping_fit_jac kev optimiser F D guess bounds own chunk save gp None None kw lfs = (lfs', kw', Ok (Fitted x xd)) -> found x xd).
Proof.
  intros ev kev f EV KEV Cn Cv.
  destruct (C150_same ev f EV Cn Cv) as (F & E1 & (M & K & OK) & H).
  exists F. split; [exact E1|]. intros interp dat free ts X Rd Ws FF NE L Rl On found.
  destruct (H interp dat (reading free ts) X Rd Ws (reading_respects free ts) Rl On) as (D & E & Ma & S).
  assert (Z : misfit F D (reading free ts) = 0%R) by (apply (S _ (reading_respects free ts)); intros k e x I; reflexivity).
  assert (N : forall x xd, near F D free ts x xd -> found x xd).
  { intros x xd (A & B & C & _). split; [exact A|]. split; [exact B|]. apply (S _ (reading_respects free x)).
    pose proof (misfit_pos F D (reading free x)). lra. }
  exists D. split; [exact E|]. split; [|split; [|split; [|split]]].
  - intros optimiser guess bounds chunk save kw lfs lfs' x xd O B Q. apply N.
    exact (truth_least_squares kev KEV F D free ts Ma FF NE L optimiser guess bounds chunk save kw lfs lfs' x xd O B Q).
  - intros optimiser guess bounds chunk save kw lfs lfs' x xd O B Q. apply N.
    exact (truth_dual_annealing kev KEV F D free ts Ma FF NE L optimiser guess bounds chunk save kw lfs lfs' x xd O B Q).
  - intros optimiser guess own chunk save kw lfs lfs' kw' x xd O Q. apply N.
    exact (truth_basinhopping kev KEV F D free ts Ma FF NE L optimiser guess own chunk save kw lfs lfs' kw' x xd O Q).
  - intros optimiser guess bounds own chunk save kw lfs lfs' kw' x xd O Nk No B Q. apply N.
    exact (truth_bounded kev KEV F D free ts Ma FF NE L optimiser guess bounds own chunk save kw lfs lfs' kw' x xd O Nk No B Q).
  - intros optimiser guess bounds own chunk save gp kw lfs lfs' kw' x xd O Nk No B Q. apply N.
    exact (truth_jac kev KEV F D free ts Ma FF NE L optimiser guess bounds own chunk save gp kw lfs lfs' kw' x xd O Nk No B Q).
Qed.
Print Assumptions C150_fit.

(** a cos(phi) sin(phi), and 25 points of it: the cost of other values of a is not
    zero. *)
Definition arc (t : R) : list (R * R) := sampled 25 (fun x => t * (cos x * sin x))%R.
Definition arcs (t : R) : dat := mkdat [("PP"%string, arc t)] 1 0 0 "radians" false.

Lemma arcs_reach t : reachable (arcs t).
Proof.
  exists (input DFloat [("PP"%string, arc t)]), "radians"%string, false. eexists _, []. split.
  - rewrite construct_input; [reflexivity|repeat constructor; cbn; intuition discriminate|].
    repeat constructor; unfold snd, arc, sampled, grid; discriminate.
  - unfold run, arcs, arc. cbn [fold_left dmap map fst snd]. rewrite !finish_sampled. reflexivity.
Qed.
Lemma wave_value rho x : eval (at_phi rho x) (EMul [A_; COS; SIN]) = (rho a_sym * RtoC (cos x * sin x))%C.
Proof.
  rewrite eval_mul. cbn [map fold_right eval A_ COS SIN].
  unfold at_phi. change (sym_eqb a_sym phi) with false. change (sym_eqb phi phi) with true. cbv iota. rewrite Ccos_R, Csin_R.
  rewrite RtoC_mult.  ring.
Qed.
Lemma wave_a t : reading [a_sym] [t] a_sym = RtoC t.
Proof. reflexivity. Qed.

Lemma wave_arguments F : form_to_fform (fun e => e) wave 16 = Ok F -> argument_list F [a_sym].
Proof.
  intros E. split; [repeat constructor; cbn; tauto|]. intros s (k & r & e & I & J & S). left. symmetry.
  assert (B : match form_to_fform (fun e => e) wave 16 with
    Ok F => forallb (fun kr => forallb (fun e => forallb (fun s => sym_eqb s a_sym) (syms e)) (r_cells (snd kr))) (ff_rows F) | _ => false end = true)
    by (vm_compute; reflexivity).
  rewrite E in B. rewrite forallb_forall in B. specialize (B _ I). cbn [snd] in B.
  rewrite forallb_forall in B. specialize (B _ J). cbv beta in B. rewrite forallb_forall in B. specialize (B _ S).
  destruct (sym_eqb_spec s a_sym) as [->|]; [reflexivity|discriminate B].
Qed.

Example C150_case : exists F, form_to_fform (fun e => e) wave 16 = Ok F /\ argument_list F [a_sym] /\
  forall t, exists D lib, dat_to_fdat table_interp (arcs t) 16 = Ok D /\
    gen_cost_func (fun e => e) F D (Some [a_sym]) false None [] = ([], Ok lib) /\ call lib [t] = Some 0%R /\
    forall y, y <> t -> exists c, call lib [y] = Some c /\ (0 < c)%R.
Proof.
  destruct (C150_cost (fun e => e) (fun e => e) wave id_sound FitProofs5.id_sound) as (F & E & H).
  { exists [(KStr "PP", Some (EMul [A_; COS; SIN]))]. reflexivity. }
  { intros k e [E|[]]. injection E as <- <-. apply (cov_mul _ 1 1); [|lia].
    apply mono_free; [cbn; intuition discriminate|]. apply (mono_trig COS [SIN] 0 1 1 0); [constructor|]. apply (mono_trig SIN [] 0 0 0 1); constructor. }
  { discriminate. }
  exists F. split; [exact E|]. pose proof (wave_arguments F E) as A. split; [exact A|]. intros t. pose proof (arcs_reach t) as Re. pose proof (reachable_wf _ Re) as W.
  assert (P : forall k p, get_pc (arcs t) k "radians" = Ok p -> p = arc t).
  { intros k p G. apply (get_pc_In _ _ _ W) in G. destruct G as [G|[]]. injection G as <- <-. reflexivity. }
  destruct (H table_interp (arcs t) [a_sym] [t] false None []) as (D & lib & A1 & A2 & A3 & A4).
  { exact table_exact. }
  { exact Re. }
  { intros k p G. rewrite (P k p G). unfold arc. set (h := fun x : R => _).
    assert (Ls : length (sampled 25 h) = 25) by (unfold sampled; rewrite map_length, grid_length; reflexivity).
    split; [rewrite Ls; lia|]. split; [unfold equally_spaced; rewrite Ls; exact (sampled_fst 25 h)|].
    apply (table_accepts 25); [exact Ls|]. rewrite sampled_fst. apply grid_NoDup. }
  { exact A. }
  { reflexivity. }
  { intros k e x [Ek|[]]. injection Ek as <- <-. rewrite wave_value, wave_a, <- RtoC_mult. reflexivity. }
  { intros k e [Ek|[]]. injection Ek as <- <-. split; [left; reflexivity|]. intros p x y G I. rewrite (P _ p G) in I.
    unfold arc, sampled in I. apply in_map_iff in I as (x' & X & _). injection X as <- <-. rewrite wave_value, wave_a, <- RtoC_mult. reflexivity. }
  exists D, lib. do 3 (split; [assumption|]). intros y N. destruct (A4 [y] eq_refl) as (c & C1 & C2 & C3). exists c. split; [exact C1|].
  destruct (Rle_lt_or_eq_dec _ _ C2) as [Lt|Z]; [exact Lt|]. exfalso. apply N.
  assert (S := proj1 C3 (eq_sym Z) "PP"%string _ (PI / 4)%R (or_introl eq_refl)). rewrite !wave_value, !wave_a, <- !RtoC_mult in S. apply RtoC_inj in S.
  apply Rmult_eq_reg_r in S; [exact S|]. apply Rgt_not_eq, Rmult_lt_0_compat; [apply cos_gt_0|apply sin_gt_0]; pose proof PI_RGT_0; lra.
Qed.
