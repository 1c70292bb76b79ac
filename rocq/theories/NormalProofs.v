(** Proofs for C132: normal incidence. *)
From Coq Require Import String List Arith ZArith Bool Lia Reals QArith Qreals Lra.
From Coquelicot Require Import Complex.
Import ListNotations.
From Verif Require Import PyBase DataProofs2 CBase FourierBase Expr ExprProofs SpecForm SpecFData FDataModel FDataProofs FormModel FormProofs3 LookupTable TableProofs
  TensorInst TensorProofs UtilModel SpecUtil UtilProofs SpecFormgen TrigPoly FormgenModel FformgenModel SpecFformgen TensorDefs SpecGroups GroupProofs PropertiesTensor
  FormgenProofs FormgenProofs2 FormgenProofs3 FormgenProofs4 FormgenPhys FormgenThms FormgenThms2 FormgenTables
  FformgenProofs FformgenProofs2 FformgenProofs3 FformgenProofs4 FformgenProofs5 FformgenThms PropertiesFformgen SpecPhys PhysProofs PhysThms PipeProofs HermProofs
  FitModel SpecFit FitProofs FitProofs2 FitProofs3 LsqProofs LsqProofs2 NoiseProofs SymProofs2 OrderProofs TurnProofs SpecForbid ForbidProofs SpecNormal.
From Verif Require Import SpecTensor TensorModel.
Local Open Scope nat_scope.

Lemma Cmod_sq z : (Cmod z ^ 2 = fst z ^ 2 + snd z ^ 2)%R.
Proof. unfold Cmod. rewrite pow2_sqrt by nra. reflexivity. Qed.
Lemma unit_sq a b w : Cmod w = 1%R -> (Cmod (a - b)%C ^ 2 = Cmod (a * w - b * w)%C ^ 2)%R.
Proof. intros W. replace (a * w - b * w)%C with ((a - b) * w)%C by ring. rewrite Cmod_mult, W, Rmult_1_r. reflexivity. Qed.
(** Two data for one number. *)
Lemma two_sided a b b' w : Cmod w = 1%R -> (Cmod (b' - b * w)%C ^ 2 / 2 <= Cmod (a - b)%C ^ 2 + Cmod (a * w - b')%C ^ 2)%R.
Proof.
  intros W. rewrite (unit_sq a b w W). generalize (a * w)%C (b * w)%C. intros c e. rewrite !Cmod_sq.
  destruct c as [c c'], e as [e e'], b' as [g g']. cbn [fst snd Cminus Cplus Copp].
  assert (X : (0 <= ((c - e) + (c - g)) ^ 2)%R) by (apply pow2_ge_0). assert (Y : (0 <= ((c' - e') + (c' - g')) ^ 2)%R) by (apply pow2_ge_0). nra.
Qed.
Lemma four_rows (rows : list (string * row)) : map fst rows = ["PP"; "PS"; "SP"; "SS"]%string ->
  exists r1 r2 r3 r4, rows = [("PP", r1); ("PS", r2); ("SP", r3); ("SS", r4)]%string.
Proof.
  intros K. destruct rows as [|[k1 r1] [|[k2 r2] [|[k3 r3] [|[k4 r4] [|]]]]]; try discriminate K. injection K as -> -> -> ->. exists r1, r2, r3, r4. reflexivity.
Qed.

Section Chain.
Variable ev expand : expr -> expr.
Hypothesis EV : sound_ev ev.

Lemma normal_chain aoi prefix fs d q srepr parse : Q2R aoi = 0%R -> good_tensors d q -> (forall e, parse (srepr e) = Ok e) ->
  exists fs' file F, generate_uncontracted_fourier_transforms ev aoi prefix 16 fs = Ok fs' /\
    generate_contracted_fourier_transforms ev expand srepr prefix fs' d q 16 None = Ok file /\ load_fform parse file = Ok F /\
    (ff_M F = 16 /\ dkeys (ff_rows F) = ["PP"; "PS"; "SP"; "SS"]%string /\ formula_ok F) /\
    forall rho, respects rho ->
      (forall inp out r r' m, ff_get_pc F (key inp out) = Ok r -> ff_get_pc F (key (opposite inp) (opposite out)) = Ok r' -> In m (freqs 16) ->
         cell rho r m = (cell rho r' m * cis (IZR m * (PI / 2)))%C /\ (Z.odd m = true -> cell rho r m = RtoC 0)) /\
      (forall D, (disagreement D <= misfit F D rho)%R /\ (odd_orders D <= misfit F D rho)%R) /\
      (forall D rp rs, copies D -> ff_get_pc F "PP" = Ok rp -> ff_get_pc F "PS" = Ok rs ->
         misfit F D rho = (2 * rsum (fun m => Cmod (cell rho rp m - dvalue D "PP" m)%C ^ 2 + Cmod (cell rho rs m - dvalue D "PS" m)%C ^ 2) (freqs 16))%R).
Proof.
  intros A0 G P.
  destruct (chain_pair ev expand EV aoi prefix fs d q d q srepr parse G G P)
    as (fs' & file & F & file' & F' & row & row' & E1 & E2 & E3 & E4 & E5 & (M & K & OK) & _ & Rw & _ & V & _).
  exists fs', file, F. do 3 (split; [assumption|]). split; [auto|]. intros rho Rs.
  assert (T : forall inp out, trigpoly 8 (series_function rho (row inp out))).
  { intros inp out. assert (T0 := tp_intensity (Q2R aoi) (val3 rho (Some d)) (fun _ _ _ => RtoC 0) (val4 rho (Some q)) inp out).
    apply (tp_ext 8 (fun x => RtoC (intensity (Q2R aoi) (val3 rho (Some d)) (fun _ _ _ => RtoC 0) (val4 rho (Some q)) inp out (x + PI)))).
    - intros x. rewrite V by exact Rs. rewrite intensity_half. reflexivity.
    - apply (tp_shift 8 (fun x => RtoC (intensity (Q2R aoi) (val3 rho (Some d)) (fun _ _ _ => RtoC 0) (val4 rho (Some q)) inp out x))). exact T0. }
  assert (Z : forall inp out m, In m (freqs 16) -> cell rho (row inp out) m = (cell rho (row (other inp) (other out)) m * cis (IZR m * (PI / 2)))%C).
  { intros inp out m I. destruct (Rw inp out) as (_ & L). destruct (Rw (other inp) (other out)) as (_ & L').
    rewrite !cell_fourier by assumption. rewrite <- (tp_shift_coefficient 8 _ (PI / 2) m (T (other inp) (other out))).
    apply fourier_coefficient_ext. intros x. rewrite !V by exact Rs. f_equal. rewrite !intensity_half, A0.
    replace (x + PI / 2 + PI)%R with (x + PI + PI / 2)%R by ring. symmetry. apply normal_incidence. }
  assert (O : forall inp out m, In m (freqs 16) -> Z.odd m = true -> cell rho (row inp out) m = RtoC 0).
  { intros inp out m I Od. pose proof (Z inp out m I) as X. rewrite (Z (other inp) (other out) m I) in X.
    replace (other (other inp)) with inp in X by (destruct inp; reflexivity). replace (other (other out)) with out in X by (destruct out; reflexivity).
    rewrite <- Cmult_assoc, <- cis_plus in X. replace (IZR m * (PI / 2) + IZR m * (PI / 2))%R with (IZR m * PI)%R in X by field.
    apply Z.odd_spec in Od. destruct Od as (n & ->).
    assert (W : cis (IZR (2 * n + 1) * PI) = RtoC (-1)).
    { rewrite plus_IZR, mult_IZR. replace ((2 * IZR n + 1) * PI)%R with (IZR n * (2 * PI) + PI)%R by ring. rewrite cis_plus, cis_2pi_Z. unfold cis.
      rewrite cos_PI, sin_PI. apply C_ext; unfold Re, Im; simpl; ring. }
    rewrite W in X. destruct (cell rho (row inp out) (2 * n + 1)) as [u v]. injection X as X1 X2. unfold RtoC. f_equal; cbn in X1, X2; lra. }
  assert (Q : forall inp out r, ff_get_pc F (key inp out) = Ok r -> r = row inp out).
  { intros inp out r E. destruct (Rw inp out) as (E' & _). congruence. }
  destruct (four_rows (ff_rows F) K) as (r1 & r2 & r3 & r4 & R4).
  assert (P1 : ff_get_pc F "PP" = Ok (r_cells r1)) by (unfold ff_get_pc, dgetr; rewrite R4; reflexivity).
  assert (P2 : ff_get_pc F "PS" = Ok (r_cells r2)) by (unfold ff_get_pc, dgetr; rewrite R4; reflexivity).
  assert (P3 : ff_get_pc F "SP" = Ok (r_cells r3)) by (unfold ff_get_pc, dgetr; rewrite R4; reflexivity).
  assert (P4 : ff_get_pc F "SS" = Ok (r_cells r4)) by (unfold ff_get_pc, dgetr; rewrite R4; reflexivity).
  pose proof (Q Pin Pin _ P1) as Q1. pose proof (Q Pin Sin _ P2) as Q2. pose proof (Q Sin Pin _ P3) as Q3. pose proof (Q Sin Sin _ P4) as Q4.
  assert (U : forall m, Cmod (cis (IZR m * (PI / 2))) = 1%R) by (intros; apply Cmod_cis).
  assert (S4 : forall D, misfit F D rho = rsum (fun m => (Cmod (cell rho (row Pin Pin) m - dvalue D "PP" m)%C ^ 2 + Cmod (cell rho (row Pin Sin) m - dvalue D "PS" m)%C ^ 2 +
      (Cmod (cell rho (row Sin Pin) m - dvalue D "SP" m)%C ^ 2 + Cmod (cell rho (row Sin Sin) m - dvalue D "SS" m)%C ^ 2))%R) (freqs 16)).
  { intros D. unfold misfit. rewrite R4, M. rewrite !LsqProofs.rsum_plus. unfold rsum at 1. cbn [fold_right fst snd].
    unfold fcell. change (Z.of_nat 16) with 16%Z. rewrite Q1, Q2, Q3, Q4. unfold cell. ring. }
  split; [|split].
  - intros inp out r r' m Er Er' I. change opposite with other in Er'. rewrite (Q _ _ _ Er), (Q _ _ _ Er'). split; [apply Z|apply O]; exact I.
  - intros D. split.
    + rewrite S4. unfold disagreement. apply NoiseProofs.rsum_le. intros m I.
      pose proof (two_sided (cell rho (row Sin Sin) m) (dvalue D "SS" m) (dvalue D "PP" m) _ (U m)) as B1.
      pose proof (two_sided (cell rho (row Sin Pin) m) (dvalue D "SP" m) (dvalue D "PS" m) _ (U m)) as B2.
      rewrite (Z Pin Pin m I), (Z Pin Sin m I). cbn [other]. unfold turned_value. lra.
    + unfold odd_orders, misfit. rewrite <- K. apply (rsum_fst _ _ (ff_rows F)). intros k r I. cbn [fst snd]. rewrite M.
      apply rsum_filter; [|intros m; apply pow2_ge_0]. intros m Im_ Od.
      assert (X : exists inp out, r_cells r = row inp out).
      { rewrite R4 in I. repeat destruct I as [I|I]; try contradiction; injection I as _ <-;
          [exists Pin, Pin|exists Pin, Sin|exists Sin, Pin|exists Sin, Sin]; assumption. }
      destruct X as (inp & out & X). pose proof (O inp out m Im_ Od) as Y. unfold fcell. change (Z.of_nat 16) with 16%Z. rewrite X. unfold cell in Y. rewrite Y.
      replace (RtoC 0 - dvalue D k m)%C with (- dvalue D k m)%C by ring. rewrite Cmod_opp. reflexivity.
  - intros D rp rs Cp Ep Es. rewrite S4, (Q Pin Pin _ Ep), (Q Pin Sin _ Es), LsqProofs.rsum_plus.
    assert (X : rsum (fun m => (Cmod (cell rho (row Sin Pin) m - dvalue D "SP" m)%C ^ 2 + Cmod (cell rho (row Sin Sin) m - dvalue D "SS" m)%C ^ 2)%R) (freqs 16) =
      rsum (fun m => (Cmod (cell rho (row Pin Pin) m - dvalue D "PP" m)%C ^ 2 + Cmod (cell rho (row Pin Sin) m - dvalue D "PS" m)%C ^ 2)%R) (freqs 16)).
    { apply rsum_ext. intros m I. destruct (Cp m I) as [C1 C2]. rewrite (Z Pin Pin m I), (Z Pin Sin m I), C1, C2. cbn [other]. unfold turned_value.
      rewrite <- !unit_sq by apply U. ring. }
    rewrite X. ring.
Qed.
End Chain.
