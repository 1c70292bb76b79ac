(** Proofs for property C150. *)
From Coq Require Import String List Arith ZArith Bool Lia Reals QArith Qreals Lra.
From Coquelicot Require Import Complex.
Import ListNotations.
From Verif Require Import PyBase DataModel SpecData DataProofs DataProofs2 CBase FourierBase TrigPoly Expr ExprProofs SpecForm FDataModel SpecFData FDataProofs FDataProofs2
  FormModel FormProofs FormProofs2 FormProofs3 LookupTable TableProofs SpecFformgen FformgenProofs5 FitModel SpecFit FitProofs SpecBand BandProofs SpecMeas MeasProofs SpecCurve.
Local Open Scope nat_scope.

Lemma cells_cell rho (cells : list expr) g m : map (eval rho) cells = map g (freqs 16) -> In m (freqs 16) -> cell rho cells m = g m.
Proof. intros E I. rewrite <- row_coef, E. apply In_freqs in I. apply coef_map_freqs. lia. Qed.

Section Curves.
Variable ev : expr -> expr.
Hypothesis EV : sound_ev ev.

Lemma cells_curve rho e (cells : list expr) : covered e -> respects rho -> length cells = 33 ->
  map (eval rho) cells = map (fourier_coefficient (fun x => eval (at_phi rho x) e)) (freqs 16) ->
  forall x, series_function rho cells x = eval (at_phi rho x) e.
Proof.
  intros Hc Hr L E x. rewrite <- row_series by exact L. unfold series.
  rewrite (tp_expand 16 (fun x => eval (at_phi rho x) e)) by (apply (tp_le 8); [lia|apply (covered_trigpoly ev EV); assumption]).
  apply Csum_ext_in. intros m I. rewrite row_coef, (cells_cell rho cells _ m E I). reflexivity.
Qed.

Lemma curves_chain f : (exists it, form_construct it = Ok f) -> (forall k e, In (k, e) f -> covered e) ->
  exists F, form_to_fform ev f 16 = Ok F /\ (ff_M F = 16 /\ dkeys (ff_rows F) = dkeys f /\ formula_ok F) /\
    forall interp dat rho, exact_at_nodes interp -> reachable dat -> well_sampled interp dat -> respects rho ->
      real_curves f rho -> on_curves f rho dat ->
      exists D, dat_to_fdat interp dat 16 = Ok D /\ matching F D /\
        forall rho', respects rho' -> (misfit F D rho' = 0%R <-> same_curves f rho' rho).
Proof.
  intros [it Cn] H. apply form_construct_inv in Cn.
  destruct (form_to_fform_get ev EV f 16 Cn H (le_n _)) as (F & E & [Wf Lf] & M & K & G).
  assert (OK : formula_ok F) by (split; [exact Wf|exact Lf]).
  exists F. split; [exact E|]. split; [auto|]. intros interp dat rho X Rd Ws Rs Rl On.
  pose proof (reachable_wf dat Rd) as W.
  assert (Cells : forall k e r, In (k, e) f -> In (k, r) (ff_rows F) -> length (r_cells r) = 33 /\
    forall rho, respects rho -> map (eval rho) (r_cells r) = map (fourier_coefficient (fun x => eval (at_phi rho x) e)) (freqs 16)).
  { intros k e r I J. destruct (G k e I) as (cells & Eg & L & _ & V). unfold ff_get_pc, dgetr in Eg.
    rewrite (In_dget _ _ _ Wf J) in Eg. cbn in Eg. injection Eg as <-. split; [exact L|exact V]. }
  assert (Row : forall k r, In (k, r) (ff_rows F) -> exists e, In (k, e) f).
  { intros k r J. assert (Ik : In k (dkeys f)) by (rewrite <- K; apply (in_map fst) in J; exact J).
    apply in_map_iff in Ik as ([k' e] & Ek & I). cbn [fst] in Ek. subst k'. exists e. exact I. }
  assert (Col : forall k e, In (k, e) f -> exists r, In (k, r) (ff_rows F)).
  { intros k e I. assert (Ik : In k (dkeys (ff_rows F))) by (rewrite K; apply (in_map fst) in I; exact I).
    apply in_map_iff in Ik as ([k' r] & Ek & J). cbn [fst] in Ek. subst k'. exists r. exact J. }
  eexists. split.
  { apply dat_to_fdat_spec; [exact X|exact W|]. intros k p I. apply (get_pc_In dat k p W) in I. destruct (Ws k p I) as (L & S & Ip).
    split; [exact S|]. split; [lia|exact Ip]. }
  set (D := mkfdat _ _ _ _).
  assert (DV : forall k e r m, In (k, e) f -> In (k, r) (ff_rows F) -> In m (freqs 16) -> dvalue D k m = cell rho (r_cells r) m).
  { intros k e r m If Jr Im. destruct (On k e If) as [Ik Pt]. apply get_pc_key in Ik as [p Ep]. pose proof (proj1 (get_pc_In dat _ p W) Ep) as I.
    destruct (Ws _ p Ep) as (L & S & _). unfold dvalue. cbn [D fd_data fd_M]. rewrite dget_dmap, (In_dget _ p _ W I). cbn [option_map].
    rewrite coef_map_freqs by (apply In_freqs in Im; lia).
    destruct (Cells k e r If Jr) as [Lc V]. specialize (V rho Rs). pose proof (H k e If) as Hc.
    pose proof (cells_curve rho e (r_cells r) Hc Rs Lc V) as Cv.
    rewrite (points_sampled (fun x => Re (eval (at_phi rho x) e)) p S) by (intros x y J; rewrite <- (Pt p x y Ep J); reflexivity).
    apply In_freqs in Im. apply row_dft; [exact Lc| | |exact L|lia].
    - apply (tp_ext 8 (fun x => eval (at_phi rho x) e)); [intros x; symmetry; apply Cv|]. apply (covered_trigpoly ev EV); assumption.
    - intros x. rewrite Cv. apply injective_projections; [reflexivity|]. exact (Rl k e x If). }
  split.
  { split; [exact OK|]. split; [split|split].
    - change (NoDup (dkeys (dmap (fun p => map (dft p) (freqs 16)) (dc_data dat)))). rewrite dkeys_dmap. exact W.
    - intros k v I. cbn [D fd_data] in I. apply In_dmap in I as (p & _ & ->). cbn [D fd_M]. rewrite map_length, length_freqs. reflexivity.
    - symmetry. exact M.
    - intros k I. apply in_map_iff in I as ([k' r] & Ek & J). cbn [fst] in Ek. subst k'. destruct (Row k r J) as [e If].
      change (In k (dkeys (dmap (fun p => map (dft p) (freqs 16)) (dc_data dat)))). rewrite dkeys_dmap. apply (On k e If). }
  intros rho' Rs'. rewrite misfit_zero. split.
  - intros Rp k e x If. destruct (Col k e If) as [r Jr]. destruct (Cells k e r If Jr) as [Lc V]. pose proof (H k e If) as Hc.
    rewrite <- (cells_curve rho' e (r_cells r) Hc Rs' Lc (V _ Rs')), <- (cells_curve rho e (r_cells r) Hc Rs Lc (V _ Rs)).
    rewrite <- !row_series by exact Lc. unfold series. apply Csum_ext_in. intros m Im. rewrite !row_coef. f_equal.
    rewrite <- (DV k e r m If Jr Im). rewrite <- (Rp k r m Jr) by (rewrite M; exact Im). rewrite M. reflexivity.
  - intros S k r m Jr Im. rewrite M in Im |- *. destruct (Row k r Jr) as [e If]. destruct (Cells k e r If Jr) as [Lc V].
    rewrite (DV k e r m If Jr Im). change (eval rho' (fcell 16 r m)) with (cell rho' (r_cells r) m).
    rewrite (cells_cell rho' _ _ m (V _ Rs') Im), (cells_cell rho _ _ m (V _ Rs) Im). apply fourier_coefficient_ext. intros x. exact (S k e x If).
Qed.
End Curves.
