(** Properties C109 and C110: Fourier data of real signals and of intensities. *)
From Coq Require Import String List Arith ZArith Reals QArith Qreals Lra Lia.
From Coquelicot Require Import Complex.
Import ListNotations.
From Verif Require Import PyBase CBase RMod FourierBase Expr ExprProofs DataModel SpecData DataProofs2 FDataModel SpecFData FDataProofs FDataProofs2 PropertiesFData
  SpecForm FormModel FormProofs2 FormProofs3 PropertiesForm FitModel SpecFit FitProofs FitProofs3 PipeProofs SymProofs2
  UtilModel SpecFormgen FformgenModel SpecFformgen PropertiesFformgen PropertiesFit SpecHerm HermProofs SpecMean MeanProofs.
From Verif Require Import SpecTensor TensorModel.
Local Open Scope nat_scope.

(* ================================================================== *)
(** * C109: real signals *)

(** Coefficients are Hermitian exactly when their series is real everywhere. *)
Theorem C109_real : forall M v, hermitian M v <-> forall x, Im (series M v x) = 0%R.
Proof. exact hermitian_iff. Qed.
Print Assumptions C109_real.

(** Transformed measurements are. *)
Theorem C109_transform : forall interp d M f, reachable d -> dat_to_fdat interp d M = Ok f -> real_signals f.
Proof. intros interp d M f R. exact (transform_hermitian interp d M f (reachable_wf d R)). Qed.
Print Assumptions C109_transform.

(** They stay so whatever is done to the container. *)
Theorem C109_history : forall f h, freachable f -> real_signals f -> real_signals (frun f h).
Proof. intros f h R. exact (run_signals h f (freachable_wf f R)). Qed.
Print Assumptions C109_history.

(** Sampling such a container loses nothing: the values are those of the series. *)
Theorem C109_samples : forall f n, freachable f -> 0 < n -> real_signals f ->
  exists d, fdat_to_dat f n = Ok d /\
    forall k v p x y, fget_pc f k = Ok v -> get_pc d k "radians" = Ok p -> In (x, y) p -> series (fget_M f) v x = RtoC y.
Proof.
  intros f n R N H. pose proof (freachable_wf f R) as W.
  destruct (fdat_to_dat f n) as [d|e] eqn:E; [|rewrite (fdat_to_dat_spec f n W N) in E; discriminate]. exists d. split; [reflexivity|].
  intros k v p x y G D I. assert (U : dget k (dc_data d) = Some p).
  { change (match dget k (dc_data d) with Some q => Ok q | None => Raise KeyError end = Ok p) in D. destruct (dget k (dc_data d)); congruence. }
  exact (samples_whole f n d W N H E k v p x y G U I).
Qed.
Print Assumptions C109_samples.

(** Evaluating a Fourier formula that is real at the given parameters. *)
Theorem C109_evaluated : forall ev F d rho, sound_ev ev -> ff_reachable ev F -> symbolic F -> ff_M F = 16 ->
  (forall s, ff_occurs F s -> In s (dkeys d)) -> respects rho -> agrees rho d -> real_formula F rho ->
  exists f, fform_to_fdat ev F d = Ok f /\ real_signals f.
Proof.
  intros ev F d rho EV R S M16 O Hr Ha RF. destruct (C20_evaluation_partial ev F d EV R S M16 O) as (fd & E & K & M & _ & V).
  exists fd. split; [exact E|]. intros k v G. unfold real_signals in *. rewrite M. 
  assert (I : exists r, In (k, r) (ff_rows F)).
  { assert (J : In k (fget_keys fd)). { unfold fget_pc, dgetr in G. destruct (dget k (fd_data fd)) eqn:D; [|discriminate]. apply dget_keys. congruence. }
    rewrite K in J. apply in_map_iff in J as ([k' r] & <- & J). exists r. exact J. }
  destruct I as (r & I). pose proof (ff_reachable_wf ev F R) as W.
  assert (Gc : ff_get_pc F k = Ok (r_cells r)). { unfold ff_get_pc, dgetr. rewrite (In_dget k r (ff_rows F) (proj1 W) I). reflexivity. }
  destruct (V k (r_cells r) Gc) as (v' & G' & L & Ev). rewrite G in G'. injection G' as <-. specialize (Ev rho Hr Ha).
  intros m B. pose proof (formula_hermitian F rho k r RF I m) as Hm. unfold fcell in Hm. rewrite M16 in Hm.
  assert (C : forall m, (Z.abs m <= Z.of_nat 16)%Z -> coef 16 v m = eval rho (nth (Z.to_nat (m + Z.of_nat 16)) (r_cells r) (num 0))).
  { intros m' B'. unfold coef. rewrite Ev. rewrite (nth_indep _ (RtoC 0) (eval rho (num 0))) by (rewrite <- Ev; lia). apply map_nth. }
  rewrite !C by lia. apply Hm. apply In_freqs. lia.
Qed.
Print Assumptions C109_evaluated.

(** The formulas of the Fourier generator, at all admissible values of the parameters. *)
Theorem C109_generated : forall ev expand prefix fs d q, sound_ev ev -> good_tensors d q ->
  exists fs' row, generate_uncontracted_fourier_transforms_symb ev prefix 16 fs = Ok fs' /\ yields ev expand prefix fs' d q row /\
    forall inp out rho th, respects rho -> rho theta_sym = RtoC th -> hermitian 16 (map (eval rho) (row inp out)).
Proof.
  intros ev expand prefix fs d q EV G. destruct (C50_intensity ev expand prefix fs d q EV G) as (fs' & row & E & Y & V).
  exists fs', row. split; [exact E|]. split; [exact Y|]. intros inp out rho th R T. destruct (V inp out rho th R T) as (L & S).
  apply hermitian_iff. intros x. rewrite <- synth_series by (rewrite map_length; exact L). rewrite <- fseries_R, S. reflexivity.
Qed.
Print Assumptions C109_generated.

(** The Fourier transform of a formula that is real for real phi. *)
Theorem C109_formula : forall ev f M, sound_ev ev -> (exists it, form_construct it = Ok f) ->
  (forall k e, In (k, e) f -> covered e) -> M <= 16 ->
  exists F, form_to_fform ev f M = Ok F /\
    forall k e cells rho, form_get_pc f k = Ok e -> ff_get_pc F k = Ok cells -> respects rho ->
      (forall x, Im (eval (at_phi rho x) e) = 0%R) -> hermitian M (map (eval rho) cells).
Proof.
  intros ev f M EV Cf H L. destruct (C23_coefficients_partial ev f M EV Cf H L) as (F & E & K & _ & V). exists F. split; [exact E|].
  intros k e cells rho G Gc Hr Re_. destruct (V k e G) as (cells' & Gc' & Lc & _ & Vc). rewrite Gc in Gc'. injection Gc' as <-.
  rewrite (Vc rho Hr). intros m B. rewrite !coef_map_freqs by lia.
  assert (I : In (k, e) f). { unfold form_get_pc, dgetr in G. destruct (dget k f) as [e'|] eqn:D; [|discriminate]. injection G as ->. apply dget_In, D. }
  apply (fourier_real _ (fourier_coefficient (fun y => eval (at_phi rho y) e)) 16); [|exact Re_|lia].
  intros x. symmetry. exact (covered_series ev EV rho e 16 (H k e I) Hr ltac:(lia) x).
Qed.
Print Assumptions C109_formula.

(** In the cost the negative frequencies only repeat the positive ones. *)
Theorem C109_cost : forall kev F D free, sound_kev kev -> matching F D -> argument_list F free -> real_signals D ->
  exists lib, gen_cost_func kev F D (Some free) false None [] = ([], Ok lib) /\
    forall xs rho, length free <= length xs -> assigns free xs rho -> real_formula F rho -> call lib xs = Some (half_misfit F D rho).
Proof.
  intros kev F D free K Mt A R. destruct (C52_cost kev F D free false None [] K Mt A) as (lib & E & V); [discriminate|].
  exists lib. split; [exact E|]. intros xs rho L As RF. rewrite <- (misfit_half F D rho Mt RF R). exact (V xs rho L As).
Qed.
Print Assumptions C109_cost.

(** Cases: the coefficients of cos x; a formula a + 2 b cos x fitted to 3 + 2 cos x; its cost. *)
Lemma Fx_real rho : respects rho -> real_formula Fx rho.
Proof.
  intros R k r x I. unfold formula_at. assert (A : Im (rho sa) = 0%R) by (apply (R sa); reflexivity). assert (B : Im (rho sb) = 0%R) by (apply (R sb); reflexivity).
  assert (N : cis (-1 * x) = Cconj (cis (1 * x))) by (replace (-1 * x)%R with (- (1 * x))%R by ring; apply cis_opp).
  change (ff_M Fx) with 1. change (freqs 1) with [-1; 0; 1]%Z. unfold Csum. cbn [map fold_right].
  change (IZR (-1)) with (-1)%R. rewrite N. rewrite Rmult_0_l, cis_0. set (c := cis (1 * x)). clearbody c.
  cbn in I. destruct I as [E|[E|[]]]; injection E as <- <-; unfold fcell; cbn; posn; cbn; unfold Im, Re in *; simpl; rewrite ?A, ?B; unfold Q2R; simpl; nra.
Qed.
Lemma Dx_signals : real_signals Dx.
Proof.
  intros k v G. unfold fget_pc, dgetr in G. destruct (dget k (fd_data Dx)) as [w|] eqn:D; [|discriminate]. injection G as <-. apply dget_In in D.
  destruct D as [D|[D|[]]]; injection D as <- <-; intros m B; change (fget_M Dx) with 1 in *;
  assert (M : m = (-1)%Z \/ m = 0%Z \/ m = 1%Z) by lia; destruct M as [-> |[-> | ->]]; apply C_ext; unfold Re, Im; simpl; ring.
Qed.
Example C109_cost_case : exists lib, gen_cost_func (fun e => e) Fx Dx (Some [sa; sb]) false None [] = ([], Ok lib) /\
  call lib [1; 5]%R = Some (half_misfit Fx Dx (reading [sa; sb] [1; 5]%R)).
Proof.
  destruct (C109_cost (fun e => e) Fx Dx [sa; sb] FitProofs5.id_sound Fx_matching (free_argument_list _ _ Fx_free) Dx_signals) as (lib & E & V).
  exists lib. split; [exact E|]. apply V; [cbn; lia|apply two_assigns|]. apply Fx_real. apply reading_respects.
Qed.
Example C109_case : freachable cos_fdat /\ real_signals cos_fdat /\ real_signals (frun cos_fdat [FScale 2; FPhase 1 false "radians"%string; FNormalize 1]).
Proof.
  assert (H : real_signals cos_fdat) by exact (proj1 (proj2 C18_case)). split; [exact cos_fdat_reach|]. split; [exact H|].
  apply C109_history; [exact cos_fdat_reach|exact H].
Qed.
Example C109_transform_case : exists f, dat_to_fdat table_interp cos_dat 1 = Ok f /\ real_signals f.
Proof.
  destruct (C17_phase_sign_partial table_interp cos_dat 4 1 1 false table_exact (table_accepts 4) ltac:(lia) cos_dat_reach cos_dat_pcs) as (f & _ & E & _).
  exists f. split; [exact E|]. exact (C109_transform _ _ _ _ cos_dat_reach E).
Qed.
Example C109_generated_case : exists fs' row, yields (fun e => e) (fun e => e) "u"%string fs' PropertiesFormgen.full3 PropertiesFormgen.full4 row /\
  hermitian 16 (map (eval PropertiesFormgen.half) (row Pin Sin)).
Proof.
  destruct (C109_generated (fun e => e) (fun e => e) "u"%string [] PropertiesFormgen.full3 PropertiesFormgen.full4 PropertiesFormgen.same_sound full_good) as (fs' & row & _ & Y & H).
  exists fs', row. split; [exact Y|]. exact (H Pin Sin PropertiesFormgen.half (1 / 2)%R PropertiesFormgen.half_respects eq_refl).
Qed.

(* ================================================================== *)
(** * C110: intensities *)

(** For a signal that is real and never negative the coefficient at frequency
    zero is real and the largest of all. *)
Theorem C110_intensities : forall f, freachable f -> intensities f -> forall k v, fget_pc f k = Ok v -> dominated (fget_M f) v.
Proof. intros f R H k v G. apply intensity_dominated; [exact (fget_pc_length f k v (freachable_wf f R) G)|exact (H k v G)]. Qed.
Print Assumptions C110_intensities.

(** The same for transformed nonnegative data, whatever lies between the points; the coefficient is the mean of the measured values. *)
Theorem C110_data : forall interp d n M, exact_at_nodes interp -> accepts interp n -> 2 <= n -> reachable d ->
  (forall k p, get_pc d k "radians" = Ok p -> length p = n /\ equally_spaced p) ->
  (forall k p x y, get_pc d k "radians" = Ok p -> In (x, y) p -> (0 <= y)%R) ->
  exists f, dat_to_fdat interp d M = Ok f /\ fget_keys f = get_keys d /\ fget_M f = M /\
    forall k p, get_pc d k "radians" = Ok p -> exists v, fget_pc f k = Ok v /\ dominated M v /\ coef M v 0 = RtoC (mean p).
Proof.
  intros interp d n M X A N R S P. pose proof (reachable_wf d R) as W. pose proof (fun k p => get_pc_In d k p W) as G.
  destruct (data_mean interp d n M X A N W) as (f & E & K & EM & V).
  - intros k p I. apply (S k p), G, I.
  - intros k p x y I. apply (P k p), G, I.
  - exists f. split; [exact E|]. split; [exact K|]. split; [exact EM|]. intros k p I. apply V, G, I.
Qed.
Print Assumptions C110_data.

(** It stays so under every operation of the container. *)
Theorem C110_history : forall f h, freachable f -> (forall k v, fget_pc f k = Ok v -> dominated (fget_M f) v) ->
  forall k v, fget_pc (frun f h) k = Ok v -> dominated (fget_M (frun f h)) v.
Proof. intros f h R H. exact (run_rows h f (freachable_wf f R) H). Qed.
Print Assumptions C110_history.

(** get_maxval then returns the largest mean, and normalize_fdata makes it the given number. *)
Theorem C110_largest : forall f, freachable f -> fget_keys f <> [] -> (forall k v, fget_pc f k = Ok v -> dominated (fget_M f) v) ->
  exists k v, fget_maxval f = Ok (Some (k, Re (coef (fget_M f) v 0))) /\ fget_pc f k = Ok v /\
    forall k' v', fget_pc f k' = Ok v' -> (Re (coef (fget_M f) v' 0) <= Re (coef (fget_M f) v 0))%R.
Proof.
  intros f R N H. destruct (largest_mean f (freachable_wf f R)) as (k & v & E & G & L & _); [|exact H|].
  - intros E. apply N. unfold fget_keys. rewrite E. reflexivity.
  - exists k, v. auto.
Qed.
Print Assumptions C110_largest.

Theorem C110_normalize : forall f x k0 v0, freachable f -> (forall k v, fget_pc f k = Ok v -> dominated (fget_M f) v) ->
  fget_pc f k0 = Ok v0 -> (0 < Re (coef (fget_M f) v0 0))%R -> (0 <= x)%R ->
  exists f', normalize_fdata f x = (f', Ok tt) /\ fget_M f' = fget_M f /\
    (exists k v, fget_pc f' k = Ok v /\ coef (fget_M f) v 0 = RtoC x) /\
    forall k v, fget_pc f' k = Ok v -> Im (coef (fget_M f) v 0) = 0%R /\ (0 <= Re (coef (fget_M f) v 0) <= x)%R.
Proof. intros f x k0 v0 R. exact (normalize_mean f x k0 v0 (freachable_wf f R)). Qed.
Print Assumptions C110_normalize.

(** What the Fourier generator produces is an intensity. *)
Theorem C110_generated : forall ev expand prefix fs d q, sound_ev ev -> good_tensors d q ->
  exists fs' row, generate_uncontracted_fourier_transforms_symb ev prefix 16 fs = Ok fs' /\ yields ev expand prefix fs' d q row /\
    forall inp out rho th, respects rho -> rho theta_sym = RtoC th -> dominated 16 (map (eval rho) (row inp out)).
Proof.
  intros ev expand prefix fs d q EV G. destruct (C50_intensity ev expand prefix fs d q EV G) as (fs' & row & E & Y & V).
  exists fs', row. split; [exact E|]. split; [exact Y|]. intros inp out rho th R T. destruct (V inp out rho th R T) as (L & S).
  apply intensity_dominated; [rewrite map_length; exact L|]. intros x.
  rewrite <- synth_series by (rewrite map_length; exact L). rewrite <- fseries_R, S. split; [reflexivity|].
  change (0 <= setup_intensity (fformgen_setup th) (val3 rho (Some d)) (val4 rho (Some q)) inp out x)%R.
  unfold setup_intensity, detected. destruct out; [apply Rplus_le_le_0_compat|]; apply pow2_ge_0.
Qed.
Print Assumptions C110_generated.

(** Data that take negative values have no such mean: normalising cos x leaves its mean zero. *)
Theorem C110_negative : exists f f', freachable f /\ real_signals f /\ normalize_fdata f 1 = (f', Ok tt) /\
  fget_maxval f' = Ok (Some ("PP"%string, 1%R)) /\ forall v, fget_pc f' "PP" = Ok v -> coef (fget_M f') v 0 = RtoC 0.
Proof.
  assert (Mx : is_max (mag_of (fd_data cos_fdat)) (1 / 2)%R).
  { split.
    - exists "PP"%string, cos_row, (RtoC (1 / 2)). split; [left; reflexivity|]. split; [left; reflexivity|]. rewrite Cmod_R, Rabs_right; lra.
    - intros y (k & v & z & I & Z & ->). destruct I as [I|[]]. injection I as <- <-.
      destruct Z as [<-|[<-|[<-|[]]]]; rewrite Cmod_R, Rabs_right; lra. }
  destruct (normalize_fspec cos_fdat (1 / 2) 1 (freachable_wf _ cos_fdat_reach) Mx ltac:(lra) ltac:(lra)) as (f' & E & Mx' & D & _).
  assert (M : fd_M f' = 1).
  { change f' with (fst (f', Ok tt : res unit)). rewrite <- E. exact (proj2 (fstep_wf cos_fdat (FNormalize 1) (freachable_wf _ cos_fdat_reach))). }
  assert (W : fwf f'). { change f' with (fst (f', Ok tt : res unit)). rewrite <- E. exact (proj1 (fstep_wf cos_fdat (FNormalize 1) (freachable_wf _ cos_fdat_reach))). }
  assert (N : fd_data f' <> []) by (rewrite D; discriminate).
  exists cos_fdat, f'. split; [exact cos_fdat_reach|]. split; [exact (proj1 (proj2 C18_case))|]. split; [exact E|]. split.
  - destruct (fget_maxval_spec f' W N) as (k & m & Em & (_ & d1 & p & d2 & Ed & _) & Mm). rewrite Em.
    assert (m = 1%R) as -> by (apply Rle_antisym; [apply Mx', Mm|apply Mm, Mx']).
    rewrite D in Ed. destruct d1 as [|x d1]; [|destruct d1; discriminate]. cbn in Ed. injection Ed as <- _ _. reflexivity.
  - intros v G. unfold fget_pc, dgetr in G. rewrite D in G. cbn [dmap map cos_fdat fd_data] in G. cbn in G. injection G as <-.
    unfold fget_M. rewrite M. unfold coef. cbn. apply C_ext; unfold Re, Im; simpl; ring.
Qed.
Print Assumptions C110_negative.

Example C110_case : freachable Dx /\ intensities Dx.
Proof.
  split.
  { exists (fitems (fd_data Dx)), 1, Dx, []. split; [|reflexivity]. apply fconstruct_items. split; [repeat constructor; cbn; intuition discriminate|repeat constructor]. }
  intros k v G x. unfold fget_pc, dgetr in G. destruct (dget k (fd_data Dx)) as [w|] eqn:D; [|discriminate]. injection G as <-. apply dget_In in D.
  assert (N : cis (-1 * x) = Cconj (cis (1 * x))) by (replace (-1 * x)%R with (- (1 * x))%R by ring; apply cis_opp).
  unfold series. change (fget_M Dx) with 1. change (freqs 1) with [-1; 0; 1]%Z. unfold Csum. cbn [map fold_right].
  change (IZR (-1)) with (-1)%R. rewrite N. rewrite Rmult_0_l, cis_0. pose proof (COS_bound (1 * x)) as B.
  destruct D as [D|[D|[]]]; injection D as <- <-; unfold coef; cbn -[cos sin Rmult]; unfold Im, Re; simpl; split; lra.
Qed.
Definition ramp_dat := mkdat [("PP"%string, sampled 4 (fun x => x))] 1 0 0 "radians" false.
Lemma ramp_reach : reachable ramp_dat.
Proof.
  exists (input DFloat [("PP"%string, sampled 4 (fun x => x))]), "radians"%string, false. eexists _, []. split.
  - rewrite construct_input; [reflexivity|repeat constructor; simpl; tauto|].
    constructor; [|constructor]. unfold sampled, grid; discriminate.
  - unfold run. simpl. unfold ramp_dat. now rewrite finish_sampled.
Qed.
Example C110_data_case : exists f v, dat_to_fdat table_interp ramp_dat 1 = Ok f /\ fget_pc f "PP" = Ok v /\
  dominated 1 v /\ coef 1 v 0 = RtoC (3 * PI / 4).
Proof.
  assert (G : forall k p, get_pc ramp_dat k "radians" = Ok p -> p = sampled 4 (fun x => x)).
  { intros k p E. apply (get_pc_In _ _ _ (reachable_wf _ ramp_reach)) in E. destruct E as [E|[]]. injection E as <- <-. reflexivity. }
  destruct (C110_data table_interp ramp_dat 4 1 table_exact (table_accepts 4) ltac:(lia) ramp_reach) as (f & E & _ & _ & V).
  - intros k p I. rewrite (G k p I). split; [unfold sampled; rewrite map_length, grid_length; reflexivity|exact (sampled_fst 4 (fun x => x))].
  - intros k p x y I J. rewrite (G k p I) in J. unfold sampled in J. apply in_map_iff in J as (t & X & T). injection X as <- <-.
    apply in_map_iff in T as (j & <- & _). pose proof PI_RGT_0. pose proof (pos_INR j). unfold node. apply Rmult_le_pos; [nra|]. simpl. lra.
  - destruct (V "PP"%string (sampled 4 (fun x => x)) eq_refl) as (v & Gv & Dv & Cv). exists f, v. split; [exact E|]. split; [exact Gv|]. split; [exact Dv|].
    rewrite Cv. f_equal. unfold mean, sampled, grid, node, rsum. simpl. field.
Qed.
