(** Proofs for property C146. *)
From Coq Require Import String List Arith ZArith Bool Lia Reals QArith Qreals Lra.
From Coquelicot Require Import Complex.
Import ListNotations.
From Verif Require Import PyBase DataModel SpecData DataProofs DataProofs2 CBase FourierBase Expr ExprProofs SpecForm FDataModel SpecFData FDataProofs FDataProofs2 FormModel FormProofs3 LookupTable TableProofs
  TensorInst TensorProofs UtilModel SpecUtil UtilProofs SpecFormgen TrigPoly FormgenModel FformgenModel SpecFformgen TensorDefs SpecGroups GroupProofs PropertiesTensor
  FormgenProofs FormgenProofs2 FormgenProofs3 FormgenProofs4 FormgenPhys FormgenThms FormgenThms2 FormgenTables
  FformgenProofs FformgenProofs2 FformgenProofs3 FformgenProofs4 FformgenProofs5 FformgenThms PropertiesFformgen SpecPhys PhysProofs PhysThms
  FitModel SpecFit FitProofs FitProofs2 FitProofs3 PropertiesFit LsqProofs2 SymProofs2 OrderProofs TurnProofs PipeProofs SpecBand BandProofs SpecMeas ForbidProofs.
From Verif Require Import SpecTensor TensorModel.
Local Open Scope nat_scope.

Lemma points_sampled (h : R -> R) p : map fst p = grid (length p) -> (forall x y, In (x, y) p -> y = h x) -> p = sampled (length p) h.
Proof.
  intros G H. unfold sampled. rewrite <- G, map_map. rewrite <- (map_id p) at 1. apply map_ext_in. intros [x y] I. cbn [fst].
  rewrite (H x y I). reflexivity.
Qed.

(** A row of coefficients whose curve is a real one without orders beyond 8. *)
Lemma row_coef rho (row : list expr) m : coef 16 (map (eval rho) row) m = cell rho row m.
Proof. unfold coef, cell. rewrite <- (eval_num0 rho), map_nth. reflexivity. Qed.
Lemma row_series rho (row : list expr) x : length row = 33 -> series 16 (map (eval rho) row) x = series_function rho row x.
Proof. intros L. unfold series_function. rewrite fseries_R, synth_series by (rewrite map_length; lia). reflexivity. Qed.
Lemma row_dft rho (row : list expr) (h : R -> R) n m : length row = 33 -> trigpoly 8 (series_function rho row) ->
  (forall x, series_function rho row x = RtoC (h x)) -> 24 < n -> (Z.abs m <= 16)%Z ->
  dft (sampled n h) m = cell rho row m.
Proof.
  intros L T V Ln B. rewrite <- row_coef.
  rewrite <- (no_alias_band 8 16 (map (eval rho) row) n m); [| lia | lia | | | exact B].
  - f_equal. unfold sampled. apply map_ext. intros x. rewrite row_series by exact L. rewrite V. reflexivity.
  - intros k Bk. rewrite !row_coef. change (Z.of_nat 16) with 16%Z in Bk.
    rewrite !cell_fourier by (first [exact L|apply In_freqs; change (Z.of_nat 16) with 16%Z; lia]).
    apply (fourier_real _ (fourier_coefficient (series_function rho row)) 16).
    + apply tp_expand, (tp_le 8); [lia|exact T].
    + intros x. rewrite V. reflexivity.
    + exact Bk.
  - intros k [A Bk]. rewrite row_coef, cell_fourier by (first [exact L|apply In_freqs; lia]). apply (tp_beyond 8 _ k T A).
Qed.

Lemma some_key F k r : dkeys (ff_rows F) = ["PP"; "PS"; "SP"; "SS"]%string -> In (k, r) (ff_rows F) -> exists inp out, key inp out = k.
Proof.
  intros K I. assert (Ik : In k (dkeys (ff_rows F))) by (apply (in_map fst) in I; exact I). rewrite K in Ik.
  destruct Ik as [<-|[<-|[<-|[<-|[]]]]]; [exists Pin, Pin|exists Pin, Sin|exists Sin, Pin|exists Sin, Sin]; reflexivity.
Qed.

Section Chain.
Variable ev expand : expr -> expr.
Hypothesis EV : sound_ev ev.

Lemma measured_chain aoi prefix fs d q srepr parse : good_tensors d q -> (forall e, parse (srepr e) = Ok e) ->
  exists fs' file F, generate_uncontracted_fourier_transforms ev aoi prefix 16 fs = Ok fs' /\
    generate_contracted_fourier_transforms ev expand srepr prefix fs' d q 16 None = Ok file /\ load_fform parse file = Ok F /\
    (ff_M F = 16 /\ dkeys (ff_rows F) = ["PP"; "PS"; "SP"; "SS"]%string /\ formula_ok F) /\
    forall interp dat rho, exact_at_nodes interp -> reachable dat -> well_sampled interp dat -> respects rho ->
      measured_on (Q2R aoi) (val3 rho (Some d)) (val4 rho (Some q)) dat ->
      exists D, dat_to_fdat interp dat 16 = Ok D /\ matching F D /\
        forall rho', respects rho' -> (misfit F D rho' = 0%R <->
          same_patterns (Q2R aoi) (val3 rho' (Some d)) (val3 rho (Some d)) (val4 rho' (Some q)) (val4 rho (Some q))).
Proof.
  intros G P.
  destruct (chain_pair ev expand EV aoi prefix fs d q d q srepr parse G G P)
    as (fs' & file & F & file' & F' & row & row' & E1 & E2 & E3 & E4 & E5 & (M & K & OK) & _ & Rw & _ & V & _).
  exists fs', file, F. do 3 (split; [assumption|]). split; [auto|]. intros interp dat rho X Rd Ws Rs Ms.
  pose proof (reachable_wf dat Rd) as W.
  assert (T : forall inp out rho, respects rho -> trigpoly 8 (series_function rho (row inp out))).
  { clear rho Rs Ms. intros inp out rho Rs. assert (T0 := tp_intensity (Q2R aoi) (val3 rho (Some d)) (fun _ _ _ => RtoC 0) (val4 rho (Some q)) inp out).
    apply (tp_ext 8 (fun x => RtoC (intensity (Q2R aoi) (val3 rho (Some d)) (fun _ _ _ => RtoC 0) (val4 rho (Some q)) inp out (x + PI)))).
    - intros x. rewrite V by exact Rs. rewrite intensity_half. reflexivity.
    - apply (tp_shift 8 (fun x => RtoC (intensity (Q2R aoi) (val3 rho (Some d)) (fun _ _ _ => RtoC 0) (val4 rho (Some q)) inp out x))). exact T0. }
  eexists. split.
  { apply dat_to_fdat_spec; [exact X|exact W|]. intros k p I. apply (get_pc_In dat k p W) in I. destruct (Ws k p I) as (L & S & Ip).
    split; [exact S|]. split; [lia|exact Ip]. }
  set (D := mkfdat _ _ _ _).
  assert (KD : forall inp out, In (key inp out) (map fst (fd_data D))).
  { intros inp out. change (In (key inp out) (dkeys (dmap (fun p => map (dft p) (freqs 16)) (dc_data dat)))). rewrite dkeys_dmap. apply (Ms inp out). }
  assert (DV : forall inp out m, In m (freqs 16) -> dvalue D (key inp out) m = cell rho (row inp out) m).
  { intros inp out m Im. destruct (Ms inp out) as [Ik Pt]. apply get_pc_key in Ik as [p Ep]. pose proof (proj1 (get_pc_In dat _ p W) Ep) as I.
    destruct (Ws _ p Ep) as (L & S & _). unfold dvalue. cbn [D fd_data fd_M]. rewrite dget_dmap, (In_dget _ p _ W I). cbn [option_map].
    rewrite coef_map_freqs by (apply In_freqs in Im; lia).
    rewrite (points_sampled _ p S (fun x y J => Pt p x y Ep J)).
    apply In_freqs in Im. apply row_dft; [apply Rw|apply T, Rs|intros x; apply V, Rs|exact L|lia]. }
  assert (Wf : wf_dict (ff_rows F)) by (unfold wf_dict; rewrite K; repeat constructor; cbn; intuition discriminate).
  split.
  { split; [exact OK|]. split; [split|split].
    - change (NoDup (dkeys (dmap (fun p => map (dft p) (freqs 16)) (dc_data dat)))). rewrite dkeys_dmap. exact W.
    - intros k v I. cbn [D fd_data] in I. apply In_dmap in I as (p & _ & ->). cbn [D fd_M]. rewrite map_length, length_freqs. reflexivity.
    - symmetry. exact M.
    - intros k I. change (In k (dkeys (ff_rows F))) in I. rewrite K in I.
      destruct I as [<-|[<-|[<-|[<-|[]]]]]; [apply (KD Pin Pin)|apply (KD Pin Sin)|apply (KD Sin Pin)|apply (KD Sin Sin)]. }
  intros rho' Rs'. rewrite misfit_zero.
  assert (Cells : forall inp out r, In (key inp out, r) (ff_rows F) -> r_cells r = row inp out).
  { intros inp out r I. destruct (Rw inp out) as [Er _]. unfold ff_get_pc, dgetr in Er. rewrite (In_dget _ _ _ Wf I) in Er. cbn in Er. injection Er as <-. reflexivity. }
  split.
  - intros Rp inp out x. apply RtoC_inj. rewrite <- !V by assumption.
    rewrite <- !row_series by apply Rw. unfold series. apply Csum_ext_in. intros m Im. rewrite !row_coef. f_equal.
    assert (Ik : exists r, In (key inp out, r) (ff_rows F)).
    { assert (J : In (key inp out) (dkeys (ff_rows F))) by (rewrite K; destruct inp, out; cbn; tauto).
      apply in_map_iff in J as ([k r] & Ek & J). cbn [fst] in Ek. subst k. exists r. exact J. }
    destruct Ik as [r Ir]. rewrite <- DV by exact Im. rewrite <- (Rp _ r m Ir) by (rewrite M; exact Im). rewrite M.
    unfold fcell, cell. rewrite (Cells inp out r Ir). reflexivity.
  - intros S k r m I Im. rewrite M in Im |- *. destruct (some_key F k r K I) as (inp & out & <-).
    rewrite (DV inp out m Im). unfold fcell. rewrite (Cells inp out r I). change (Z.of_nat 16) with 16%Z.
    change (eval rho' (nth (Z.to_nat (m + 16)) (row inp out) (num 0))) with (cell rho' (row inp out) m).
    rewrite !cell_fourier by (first [apply Rw|exact Im]). apply fourier_coefficient_ext. intros x. rewrite !V by assumption. f_equal. apply S.
Qed.
End Chain.
