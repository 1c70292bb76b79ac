(** Proofs for C129: what a mirror plane does not allow. *)
From Coq Require Import String List Arith ZArith Bool Lia Reals QArith Qreals Lra.
From Coquelicot Require Import Complex.
Import ListNotations.
From Verif Require Import PyBase DataProofs2 CBase FourierBase Expr ExprProofs SpecForm SpecFData FDataModel FDataProofs FormModel FormProofs3 LookupTable TableProofs
  TensorInst TensorProofs UtilModel SpecUtil UtilProofs SpecFormgen TrigPoly FormgenModel FformgenModel SpecFformgen TensorDefs SpecGroups GroupProofs PropertiesTensor
  FormgenProofs FormgenProofs2 FormgenProofs3 FormgenProofs4 FormgenPhys FormgenThms FormgenThms2 FormgenTables
  FformgenProofs FformgenProofs2 FformgenProofs3 FformgenProofs4 FformgenProofs5 FformgenThms PropertiesFformgen SpecPhys PhysProofs PhysThms PipeProofs HermProofs
  FitModel SpecFit FitProofs FitProofs2 FitProofs3 LsqProofs2 NoiseProofs SymProofs2 OrderProofs TurnProofs SpecForbid ForbidProofs SpecMirror.
From Verif Require Import SpecTensor TensorModel.
Local Open Scope nat_scope.

Lemma real_of_conj w : w = Cconj w -> Im w = 0%R.
Proof. destruct w as [u v]. intros E. apply (f_equal snd) in E. unfold Im. cbn in *. lra. Qed.

(** The coefficients of a real function that is even about -a. *)
Lemma tp_even n f a m : trigpoly n f -> (forall x, Im (f x) = 0%R) -> (forall x, f (- x - 2 * a)%R = f x) ->
  Im (fourier_coefficient f m * cis (- (IZR m * a)))%C = 0%R.
Proof.
  intros T Re0 Ev. pose proof (tp_expand n f T) as X. set (c := fourier_coefficient f) in *.
  destruct (in_dec Z.eq_dec m (freqs n)) as [I|N].
  - assert (Y : forall x, f x = Csum (fun k => (Cconj (c k) * cis (IZR k * (2 * a))) * cis (IZR k * x))%C (freqs n)).
    { intros x. rewrite <- Ev. assert (Cf : f (- x - 2 * a)%R = Cconj (f (- x - 2 * a)%R)).
      { specialize (Re0 (- x - 2 * a)%R). destruct (f (- x - 2 * a)%R) as [u v]. unfold Im in Re0. cbn in Re0. subst v. unfold Cconj. cbn. f_equal. ring. }
      rewrite Cf, X, Csum_conj. apply Csum_ext_in. intros k _. rewrite Cconj_mult, Cconj_cis.
      replace (- (IZR k * (- x - 2 * a)))%R with (IZR k * (2 * a) + IZR k * x)%R by ring. rewrite cis_plus. ring. }
    assert (E : c m = (Cconj (c m) * cis (IZR m * (2 * a)))%C).
    { unfold c at 1. rewrite (fourier_coefficient_ext _ _ m Y), (coefficient_trig (fun k => (Cconj (c k) * cis (IZR k * (2 * a)))%C)) by apply NoDup_freqs.
      destruct (in_dec Z.eq_dec m (freqs n)); [reflexivity|contradiction]. }
    apply real_of_conj. rewrite Cconj_mult, Cconj_cis. rewrite E at 1. rewrite <- Cmult_assoc, <- cis_plus. f_equal. f_equal. ring.
  - unfold c. rewrite (tp_beyond n f m T); [unfold Im; cbn; ring|]. rewrite In_freqs in N. lia.
Qed.
Lemma series_period rho row x : length row = 33 -> series_function rho row (x - 2 * PI) = series_function rho row x.
Proof.
  intros L. unfold series_function. rewrite !fseries_R, !synth_series by (rewrite map_length; lia). unfold series. apply Csum_ext_in. intros k _. f_equal.
  replace (IZR k * x)%R with (IZR k * (x - 2 * PI) + IZR k * (2 * PI))%R by ring. rewrite cis_plus.
  rewrite cis_2pi_Z. ring.
Qed.

Lemma Im_part a b w : Im (a * w)%C = 0%R -> Cmod w = 1%R -> (Im (b * w)%C ^ 2 <= Cmod (a - b)%C ^ 2)%R.
Proof.
  intros H W. assert (E : Cmod (a - b)%C = Cmod ((a - b) * w)%C) by (rewrite Cmod_mult, W; ring). rewrite E.
  assert (X : Im ((a - b) * w)%C = (- Im (b * w)%C)%R).
  { transitivity (Im (a * w)%C - Im (b * w)%C)%R; [unfold Im; destruct a, b, w; cbn; ring|rewrite H; ring]. }
  replace (Im (b * w)%C ^ 2)%R with (Im ((a - b) * w)%C ^ 2)%R by (rewrite X; ring).
  set (z := ((a - b) * w)%C). unfold Cmod. rewrite pow2_sqrt by nra. unfold Im. nra.
Qed.

Section Chain.
Variable ev expand : expr -> expr.
Hypothesis EV : sound_ev ev.

Lemma mirror_chain aoi prefix fs d q srepr parse : good_tensors d q -> (forall e, parse (srepr e) = Ok e) ->
  exists fs' file F, generate_uncontracted_fourier_transforms ev aoi prefix 16 fs = Ok fs' /\
    generate_contracted_fourier_transforms ev expand srepr prefix fs' d q 16 None = Ok file /\ load_fform parse file = Ok F /\
    (ff_M F = 16 /\ dkeys (ff_rows F) = ["PP"; "PS"; "SP"; "SS"]%string /\ formula_ok F) /\
    forall rho a, respects rho -> opt_invariant rho (Some d) (mirror_z a) -> opt_invariant rho (Some q) (mirror_z a) ->
      (forall inp out r m, ff_get_pc F (key inp out) = Ok r -> In m (freqs 16) -> Im (cell rho r m * cis (- (IZR m * a)))%C = 0%R) /\
      forall D, (odd_power D a <= misfit F D rho)%R.
Proof.
  intros G P.
  destruct (chain_pair ev expand EV aoi prefix fs d q d q srepr parse G G P)
    as (fs' & file & F & file' & F' & row & row' & E1 & E2 & E3 & E4 & E5 & (M & K & OK) & _ & Rw & _ & V & _).
  exists fs', file, F. do 3 (split; [assumption|]). split; [auto|]. intros rho a Rs Id Iq.
  assert (Z : forall inp out r m, ff_get_pc F (key inp out) = Ok r -> In m (freqs 16) -> Im (cell rho r m * cis (- (IZR m * a)))%C = 0%R).
  { intros inp out r m Er I. destruct (Rw inp out) as (Er' & L). assert (r = row inp out) by congruence. subst r.
    rewrite cell_fourier by assumption. apply (tp_even 8).
    - assert (T0 := tp_intensity (Q2R aoi) (val3 rho (Some d)) (fun _ _ _ => RtoC 0) (val4 rho (Some q)) inp out).
      apply (tp_ext 8 (fun x => RtoC (intensity (Q2R aoi) (val3 rho (Some d)) (fun _ _ _ => RtoC 0) (val4 rho (Some q)) inp out (x + PI)))).
      + intros x. rewrite V by exact Rs. rewrite intensity_half. reflexivity.
      + apply (tp_shift 8 (fun x => RtoC (intensity (Q2R aoi) (val3 rho (Some d)) (fun _ _ _ => RtoC 0) (val4 rho (Some q)) inp out x))). exact T0.
    - intros x. rewrite V by exact Rs. reflexivity.
    - intros x. rewrite <- (series_period rho (row inp out) (- x - 2 * a)) by exact L. rewrite !V by exact Rs. f_equal. rewrite !intensity_half.
      replace (- x - 2 * a - 2 * PI + PI)%R with (- (x + PI) - 2 * a)%R by ring. symmetry. destruct G as (Sd & Sq & _).
      apply intensity_mirror.
      + exact (invariant3_turn rho (Some d) (mirror_z a) (mirror_at a) Sd eq_refl Id (mirror_z_entry a)).
      + intros i j k _ _ _. rewrite gnest3. unfold sum3. ring.
      + exact (invariant4_turn rho (Some q) (mirror_z a) (mirror_at a) Sq eq_refl Iq (mirror_z_entry a)). }
  split; [exact Z|]. intros D. unfold odd_power, misfit. rewrite <- K. apply (rsum_fst _ _ (ff_rows F)). intros k r I. cbn [fst snd]. rewrite M.
  apply NoiseProofs.rsum_le. intros m Im_.
  assert (W : wf_dict (ff_rows F)) by (unfold wf_dict; rewrite K; repeat constructor; cbn; intuition discriminate).
  assert (X : exists inp out, key inp out = k).
  { assert (Ik : In k (dkeys (ff_rows F))) by (apply (in_map fst) in I; exact I). rewrite K in Ik.
    destruct Ik as [<-|[<-|[<-|[<-|[]]]]]; [exists Pin, Pin|exists Pin, Sin|exists Sin, Pin|exists Sin, Sin]; reflexivity. }
  destruct X as (inp & out & <-).
  assert (Er : ff_get_pc F (key inp out) = Ok (r_cells r)) by (unfold ff_get_pc, dgetr; rewrite (In_dget _ _ _ W I); reflexivity).
  specialize (Z inp out _ m Er Im_). unfold cell in Z. unfold fcell, seen. change (Z.of_nat 16) with 16%Z.
  apply Im_part; [exact Z|apply Cmod_cis].
Qed.
End Chain.

(** Crystals of the tables. *)
Lemma mirror_invariant t n gens a rho u : shape t = repeat 3 (S n) -> invariant_table t gens -> has_mirror a gens ->
  (exists rho', teq (instance rho u) (instance rho' t)) -> invariant (instance rho u) (mirror_z a).
Proof.
  intros St Inv (R & G & T) (rho' & E).
  assert (SR : shape R = [3; 3]) by (destruct T as [S _]; rewrite S; reflexivity).
  apply (invariant_same _ (instance rho' t) _ n); [destruct E as [E _]; rewrite E; exact St|reflexivity|exact E|].
  apply (invariant_teq _ R _ n); [exact St|exact SR|exact T|]. apply Inv. exact G.
Qed.
Lemma prepared_mirror order nd nq a d0 q0 d q gens gens' ord ord' rho : iterates order -> dipole nd = Ok d0 -> quadrupole nq = Ok q0 ->
  dget nd dipole_groups = Some (gens, ord) -> dget nq quadrupole_groups = Some (gens', ord') -> has_mirror a gens -> has_mirror a gens' ->
  prepared order d0 d -> prepared order q0 q ->
  good_tensors d q /\ opt_invariant rho (Some d) (mirror_z a) /\ opt_invariant rho (Some q) (mirror_z a).
Proof.
  intros Ho D Q G G' A A' Pd Pq. destruct plain_tables as (T1 & _ & T3).
  destruct (plain_lookup _ _ _ _ T1 D) as [Pld Sd]. destruct (plain_lookup _ _ _ _ T3 Q) as [Plq Sq].
  destruct (C38_dipole nd d0 D) as (g1 & o1 & G1 & I1). rewrite G in G1. injection G1 as <- <-.
  assert (NI : nq <> "Isotropic"%string) by (intros ->; vm_compute in G'; discriminate).
  destruct (C40_invariant nq q0 Q NI) as (g2 & o2 & G2 & I2 & _). rewrite G' in G2. injection G2 as <- <-.
  destruct (prepared_ready order d0 d 3 Ho Pld Sd Pd) as (Sd' & Rd & _ & _).
  destruct (prepared_ready order q0 q 4 Ho Plq Sq Pq) as (Sq' & Rq & _ & _).
  split; [split; [exact Sd'|split; [exact Sq'|split; [exact Rd|exact Rq]]]|]. split.
  - exact (mirror_invariant d0 2 gens a rho d Sd I1 A (prepared_instance order d0 d rho Ho Pld Pd)).
  - exact (mirror_invariant q0 3 gens' a rho q Sq I2 A' (prepared_instance order q0 q rho Ho Plq Pq)).
Qed.
