(** Proofs for property C148. *)
From Coq Require Import String List Arith ZArith Bool Lia Reals QArith Qreals Lra.
From Coquelicot Require Import Complex.
Import ListNotations.
From Verif Require Import PyBase DataModel SpecData DataProofs DataProofs2 CBase Expr ExprProofs SpecForm FDataModel SpecFData FDataProofs FormModel
  UtilModel SpecFormgen FormgenModel FformgenModel SpecFformgen FformgenThms PropertiesFformgen
  FitModel SpecFit FitProofs FitProofs2 FitProofs3 SpecLsq LsqProofs SymProofs2 TurnProofs SpecLoop SpecTruth NoiseProofs TruthProofs PipeProofs FDataProofs2 SpecMeas MeasProofs SpecOne OneProofs SpecErr.
From Verif Require Import SpecTensor TensorModel.
Local Open Scope nat_scope.

Definition points_of (d : dat) (k : string) : list (R * R) := match get_pc d k "radians" with Ok p => p | Raise _ => [] end.

Lemma deviation_le f p e : (forall x y, In (x, y) p -> (Cmod (Cminus (f x) (RtoC y)) <= e)%R) -> p <> [] -> (deviation f p <= e ^ 2)%R.
Proof.
  intros H N. unfold deviation. assert (L : (0 < INR (length p))%R) by (apply lt_0_INR; destruct p; [congruence|cbn; lia]).
  apply (Rmult_le_reg_l (INR (length p))); [exact L|]. rewrite <- Rmult_assoc, Rinv_r, Rmult_1_l by lra.
  rewrite <- (rsum_const (e ^ 2)%R p). apply rsum_le. intros [x y] I. cbn [fst snd]. apply pow_incr. split; [apply Cmod_ge_0|apply H, I].
Qed.

Section Chain.
Variable ev expand : expr -> expr.
Hypothesis EV : sound_ev ev.

(** The curves of the loaded formula are the intensities. *)
Lemma formula_chain aoi prefix fs d q srepr parse : good_tensors d q -> (forall e, parse (srepr e) = Ok e) ->
  exists fs' file F, generate_uncontracted_fourier_transforms ev aoi prefix 16 fs = Ok fs' /\
    generate_contracted_fourier_transforms ev expand srepr prefix fs' d q 16 None = Ok file /\ load_fform parse file = Ok F /\
    (ff_M F = 16 /\ dkeys (ff_rows F) = ["PP"; "PS"; "SP"; "SS"]%string /\ formula_ok F) /\
    (forall inp out, exists r, In (key inp out, r) (ff_rows F)) /\
    (forall inp out r rho x, In (key inp out, r) (ff_rows F) -> respects rho ->
      formula_at F rho r x = RtoC (setup_intensity (fformgen_setup (Q2R aoi)) (val3 rho (Some d)) (val4 rho (Some q)) inp out x)).
Proof.
  intros G P.
  destruct (chain_pair ev expand EV aoi prefix fs d q d q srepr parse G G P)
    as (fs' & file & F & file' & F' & row & row' & E1 & E2 & E3 & E4 & E5 & (M & K & OK) & _ & Rw & _ & V & _).
  exists fs', file, F. do 3 (split; [assumption|]). split; [auto|].
  assert (Wf : wf_dict (ff_rows F)) by (unfold wf_dict; rewrite K; repeat constructor; cbn; intuition discriminate).
  split.
  - intros inp out. assert (J : In (key inp out) (dkeys (ff_rows F))) by (rewrite K; destruct inp, out; cbn; tauto).
    apply in_map_iff in J as ([k r] & Ek & J). cbn [fst] in Ek. subst k. exists r. exact J.
  - intros inp out r rho x I Rs. rewrite <- V by exact Rs. rewrite <- row_series by apply Rw.
    assert (Cr : r_cells r = row inp out).
    { destruct (Rw inp out) as [Er _]. unfold ff_get_pc, dgetr in Er. rewrite (In_dget _ _ _ Wf I) in Er. cbn in Er. injection Er as <-. reflexivity. }
    unfold formula_at, series. rewrite M. apply Csum_ext_in. intros m Im. rewrite row_coef. unfold fcell, cell. rewrite Cr. reflexivity.
Qed.
End Chain.

Lemma four_rows F (f : string * row -> R) e : dkeys (ff_rows F) = ["PP"; "PS"; "SP"; "SS"]%string -> (forall kr, In kr (ff_rows F) -> (f kr <= e)%R) ->
  (rsum f (ff_rows F) <= 4 * e)%R.
Proof.
  intros K H. apply (Rle_trans _ (rsum (fun _ => e) (ff_rows F))); [apply rsum_le; exact H|]. rewrite rsum_const.
  assert (L : length (ff_rows F) = 4) by (rewrite <- (map_length fst); change (map fst (ff_rows F)) with (dkeys (ff_rows F)); rewrite K; reflexivity).
  rewrite L. cbn [INR]. lra.
Qed.

(** From the distance between formula and points to the distance of the patterns. *)
Lemma close_patterns th d q F free ts x xd dat e : ff_M F = 16 -> dkeys (ff_rows F) = ["PP"; "PS"; "SP"; "SS"]%string ->
  (forall inp out, exists r, In (key inp out, r) (ff_rows F)) ->
  (forall inp out r rho x, In (key inp out, r) (ff_rows F) -> respects rho ->
      formula_at F rho r x = RtoC (setup_intensity (fformgen_setup th) (val3 rho (Some d)) (val4 rho (Some q)) inp out x)) ->
  (forall k p, get_pc dat k "radians" = Ok p -> 32 < length p) -> (0 <= e)%R ->
  measured_within e th (val3 (reading free ts) (Some d)) (val4 (reading free ts) (Some q)) dat ->
  close F free (points_of dat) ts x xd ->
  patterns_within (23 * e) th (val3 (reading free x) (Some d)) (val3 (reading free ts) (Some d)) (val4 (reading free x) (Some q)) (val4 (reading free ts) (Some q)).
Proof.
  intros M K Ex V Ln Pe Ms (_ & _ & _ & _ & Cl) inp out phi.
  assert (Sm : (sample_misfit F (points_of dat) (reading free ts) <= 4 * e ^ 2)%R).
  { unfold sample_misfit. apply four_rows; [exact K|]. intros [k r] I. cbn [fst snd]. destruct (some_key F k r K I) as (i & o & <-).
    destruct (Ms i o) as [Ik Pt]. apply get_pc_key in Ik as [p Ep]. unfold points_of. rewrite Ep. apply deviation_le.
    - intros y z J. rewrite (V i o r _ y I (reading_respects free ts)), <- RtoC_minus, Cmod_R, Rabs_minus_sym. exact (Pt p y z Ep J).
    - intros ->. specialize (Ln _ _ Ep). cbn in Ln. lia. }
  destruct (Ex inp out) as [r I]. specialize (Cl _ r phi I). rewrite !(V inp out r _ phi I (reading_respects free _)) in Cl.
  rewrite <- RtoC_minus, Cmod_R in Cl. rewrite M in Cl. set (D := Rabs _) in *. assert (PD : (0 <= D)%R) by apply Rabs_pos.
  assert (N : INR (2 * 16 + 1) = 33%R) by (change (2 * 16 + 1) with 33; rewrite INR_IZR_INZ; reflexivity). rewrite N in Cl.
  apply Rsqr_incr_0_var; [|lra]. unfold Rsqr. nra.
Qed.

(** One parameter *)
Lemma one_within th s d q E Q free ts x b i : sreal s = Some true -> NoDup free -> length ts = length free -> length x = length free -> nth_error free i = Some s ->
  one_parameter s d q E Q ->
  patterns_within b th (val3 (reading free x) (Some d)) (val3 (reading free ts) (Some d)) (val4 (reading free x) (Some q)) (val4 (reading free ts) (Some q)) ->
  forall inp out phi, (Rabs (nth i x 0 ^ 2 - nth i ts 0 ^ 2) * Rabs (setup_intensity (fformgen_setup th) E Q inp out phi) <= b)%R.
Proof.
  intros Rs ND L Lx Ni O H inp out phi. specialize (H inp out phi).
  destruct (O (reading free ts)) as [O3 O4], (O (reading free x)) as [O3' O4'].
  rewrite (setup_intensity_scale th E Q _ _ _ inp out phi O3 O4), (setup_intensity_scale th E Q _ _ _ inp out phi O3' O4') in H.
  rewrite (reading_assigns free x ND ltac:(lia) i s Ni), (reading_assigns free ts ND ltac:(lia) i s Ni), !Cmod_R, !pow2_abs in H.
  rewrite <- Rmult_minus_distr_r, Rabs_mult in H. exact H.
Qed.
