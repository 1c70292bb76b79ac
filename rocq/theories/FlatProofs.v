(** Proofs for property C149. *)
From Coq Require Import String List Arith ZArith Bool Lia Reals QArith Qreals Lra.
From Coquelicot Require Import Complex.
Import ListNotations.
From Verif Require Import PyBase CBase FourierBase Expr ExprProofs SpecForm FDataModel SpecFData FormModel
  UtilModel SpecFormgen FormgenModel FformgenModel SpecFformgen FformgenThms PropertiesFformgen
  FitModel SpecFit FitProofs SymProofs2 TurnProofs SpecMeas MeasProofs SpecFlat.
From Verif Require Import SpecTensor TensorModel.
Local Open Scope nat_scope.

Lemma turned3_flat x E E' i j k : (forall i j k, i < 2 -> j < 2 -> k < 2 -> E i j k = E' i j k) -> i < 2 -> j < 2 -> k < 2 -> turned3 x E i j k = turned3 x E' i j k.
Proof.
  intros H I J K. unfold turned3, sum3. rewrite (H 0 0 0), (H 0 0 1), (H 0 1 0), (H 0 1 1), (H 1 0 0), (H 1 0 1), (H 1 1 0), (H 1 1 1) by lia.
  destruct i as [|[|i]]; try lia; destruct j as [|[|j]]; try lia; destruct k as [|[|k]]; try lia; unfold Rz; ring.
Qed.
Lemma turned4_flat x Q Q' i k h : (forall i k h, i < 2 -> k < 2 -> h < 2 -> Q i 2 k h = Q' i 2 k h) -> i < 2 -> k < 2 -> h < 2 -> turned4 x Q i 2 k h = turned4 x Q' i 2 k h.
Proof.
  intros H I J K. unfold turned4, sum3. rewrite (H 0 0 0), (H 0 0 1), (H 0 1 0), (H 0 1 1), (H 1 0 0), (H 1 0 1), (H 1 1 0), (H 1 1 1) by lia.
  destruct i as [|[|i]]; try lia; destruct k as [|[|k]]; try lia; destruct h as [|[|h]]; try lia; unfold Rz; ring.
Qed.

Lemma flat_source E E' Q Q' p x i : flat_same E E' Q Q' -> i < 2 ->
  setup_source (fformgen_setup 0) E Q p x i = setup_source (fformgen_setup 0) E' Q' p x i.
Proof.
  intros [HE HQ] I. unfold setup_source, moment3, moment4, sum3.
  rewrite (turned3_flat x E E' i 0 0 HE), (turned3_flat x E E' i 0 1 HE), (turned3_flat x E E' i 1 0 HE), (turned3_flat x E E' i 1 1 HE) by lia.
  rewrite (turned4_flat x Q Q' i 0 0 HQ), (turned4_flat x Q Q' i 0 1 HQ), (turned4_flat x Q Q' i 1 0 HQ), (turned4_flat x Q Q' i 1 1 HQ) by lia.
  destruct p; cbn [fformgen_setup s_field s_in triple]; rewrite ?cos_0, ?sin_0, ?Ropp_0; ring.
Qed.
Lemma flat_intensity E E' Q Q' inp out x : flat_same E E' Q Q' ->
  setup_intensity (fformgen_setup 0) E Q inp out x = setup_intensity (fformgen_setup 0) E' Q' inp out x.
Proof.
  intros H. unfold setup_intensity, detected, setup_transverse, dot3, sum3.
  rewrite !(flat_source E E' Q Q' inp x 0 H), !(flat_source E E' Q Q' inp x 1 H) by lia.
  set (a := setup_source _ E' Q' inp x 0). set (b := setup_source _ E' Q' inp x 1). set (c := setup_source _ E Q inp x 2). set (c' := setup_source _ E' Q' inp x 2).
  cbn [fformgen_setup s_out triple]. rewrite cos_0, sin_0, Ropp_0.
  rewrite RtoC_opp. destruct out; [apply (f_equal2 Rplus)|]; apply (f_equal (fun z => (Cmod z ^ 2)%R)); ring.
Qed.

Lemma upright_flat s d q rho rho' : upright s d q -> (forall t, t <> s -> rho t = rho' t) ->
  flat_same (val3 rho (Some d)) (val3 rho' (Some d)) (val4 rho (Some q)) (val4 rho' (Some q)).
Proof.
  intros [U3 U4] H. split.
  - intros i j k I J K. apply eval_ext. intros t It. apply H. intros ->. exact (U3 i j k I J K It).
  - intros i k h I K L. apply eval_ext. intros t It. apply H. intros ->. exact (U4 i k h I K L It).
Qed.

Section Chain.
Variable ev expand : expr -> expr.
Hypothesis EV : sound_ev ev.
Lemma same_misfit aoi prefix fs d q srepr parse : good_tensors d q -> (forall e, parse (srepr e) = Ok e) ->
  exists fs' file F, generate_uncontracted_fourier_transforms ev aoi prefix 16 fs = Ok fs' /\
    generate_contracted_fourier_transforms ev expand srepr prefix fs' d q 16 None = Ok file /\ load_fform parse file = Ok F /\
    (ff_M F = 16 /\ dkeys (ff_rows F) = ["PP"; "PS"; "SP"; "SS"]%string /\ formula_ok F) /\
    forall D rho rho', respects rho -> respects rho' ->
      same_patterns (Q2R aoi) (val3 rho (Some d)) (val3 rho' (Some d)) (val4 rho (Some q)) (val4 rho' (Some q)) -> misfit F D rho = misfit F D rho'.
Proof.
  intros G P.
  destruct (chain_pair ev expand EV aoi prefix fs d q d q srepr parse G G P)
    as (fs' & file & F & file' & F' & row & row' & E1 & E2 & E3 & E4 & E5 & (M & K & OK) & _ & Rw & _ & V & _).
  exists fs', file, F. do 3 (split; [assumption|]). split; [auto|]. intros D rho rho' Rs Rs' S.
  assert (Wf : wf_dict (ff_rows F)) by (unfold wf_dict; rewrite K; repeat constructor; cbn; intuition discriminate).
  apply misfit_same. intros k r m I Im. rewrite M in Im |- *. destruct (some_key F k r K I) as (inp & out & <-).
  assert (Cr : r_cells r = row inp out).
  { destruct (Rw inp out) as [Er _]. unfold ff_get_pc, dgetr in Er. rewrite (In_dget _ _ _ Wf I) in Er. cbn in Er. injection Er as <-. reflexivity. }
  unfold fcell. rewrite Cr. change (Z.of_nat 16) with 16%Z.
  change (cell rho (row inp out) m = cell rho' (row inp out) m).
  rewrite !cell_fourier by (first [apply Rw|exact Im]). apply FourierBase.fourier_coefficient_ext. intros x. rewrite !V by assumption. f_equal. apply S.
Qed.
End Chain.

Lemma reading_other free : forall xs ys i s t, length xs = length free -> length ys = length free -> nth_error free i = Some s -> t <> s ->
  (forall j, j <> i -> nth j xs 0%R = nth j ys 0%R) -> reading free xs t = reading free ys t.
Proof.
  induction free as [|f free IH]; intros xs ys i s t Lx Ly Ni N H; [destruct i; discriminate|].
  destruct xs as [|x xs], ys as [|y ys]; try discriminate. cbn [reading]. destruct (sym_eqb_spec t f) as [->|Nf].
  - destruct i as [|i]; [injection Ni as ->; congruence|]. specialize (H 0 ltac:(lia)). cbn in H. subst y. reflexivity.
  - destruct i as [|i].
    + assert (xs = ys); [|subst; reflexivity]. apply (nth_ext xs ys 0%R 0%R); [cbn in Lx, Ly; lia|]. intros n _. exact (H (S n) ltac:(lia)).
    + apply (IH xs ys i s t); cbn in Lx, Ly; try lia; try assumption. intros j Nj. exact (H (S j) ltac:(lia)).
Qed.
