(** Proofs for C118: a turned crystal and turned data. *)
From Coq Require Import String List Arith ZArith Bool Lia Reals QArith Qreals Lra.
From Coquelicot Require Import Complex.
Import ListNotations.
From Verif Require Import PyBase DataProofs2 CBase FourierBase Expr ExprProofs SpecForm SpecFData FDataModel FDataProofs FormModel FormProofs3 LookupTable TableProofs
  TensorInst TensorProofs UtilModel SpecUtil UtilProofs SpecFormgen TrigPoly FormgenModel FformgenModel SpecFformgen TensorDefs SpecGroups
  FormgenProofs FormgenProofs2 FormgenProofs3 FormgenProofs4 FormgenPhys FormgenThms FormgenThms2 FormgenTables
  FformgenProofs FformgenProofs2 FformgenProofs3 FformgenProofs4 FformgenProofs5 FformgenThms PropertiesFformgen SpecPhys PhysProofs PhysThms
  FitModel SpecFit FitProofs FitProofs2 FitProofs3 LsqProofs2 SymProofs2 OrderProofs FormgenProofs5.
From Verif Require Import SpecTensor TensorModel.
Local Open Scope nat_scope.

(** Two formulas and two sets of data whose differences have the same size. *)
Lemma rows_misfit2 F F' D D' rho rho' row row' : ff_M F = 16 -> ff_M F' = 16 ->
  dkeys (ff_rows F) = ["PP"; "PS"; "SP"; "SS"]%string -> dkeys (ff_rows F') = ["PP"; "PS"; "SP"; "SS"]%string ->
  (forall inp out, ff_get_pc F (key inp out) = Ok (row inp out)) -> (forall inp out, ff_get_pc F' (key inp out) = Ok (row' inp out)) ->
  (forall inp out m, In m (freqs 16) -> Cmod (Cminus (cell rho (row inp out) m) (dvalue D (key inp out) m)) = Cmod (Cminus (cell rho' (row' inp out) m) (dvalue D' (key inp out) m))) ->
  (misfit F D rho <= misfit F' D' rho')%R.
Proof.
  intros M M' K K' G G' H. unfold misfit. apply rsum_rows.
  - change (dkeys (ff_rows F) = dkeys (ff_rows F')). congruence.
  - change (NoDup (dkeys (ff_rows F))). rewrite K. repeat constructor; cbn; intuition discriminate.
  - intros k r r' I I'. cbn [fst snd]. right. rewrite M, M'.
    assert (W : wf_dict (ff_rows F)) by (unfold wf_dict; rewrite K; repeat constructor; cbn; intuition discriminate).
    assert (W' : wf_dict (ff_rows F')) by (unfold wf_dict; rewrite K'; repeat constructor; cbn; intuition discriminate).
    assert (X : exists inp out, key inp out = k).
    { assert (Ik : In k (dkeys (ff_rows F))) by (apply (in_map fst) in I; exact I). rewrite K in Ik.
      destruct Ik as [<-|[<-|[<-|[<-|[]]]]]; [exists Pin, Pin|exists Pin, Sin|exists Sin, Pin|exists Sin, Sin]; reflexivity. }
    destruct X as (inp & out & <-). specialize (G inp out). specialize (G' inp out).
    unfold ff_get_pc, dgetr in G, G'. rewrite (In_dget _ _ _ W I) in G. rewrite (In_dget _ _ _ W' I') in G'. cbn [bind] in G, G'.
    apply rsum_ext. intros m Im. specialize (H inp out m Im). unfold fcell. change (Z.of_nat 16) with 16%Z.
    assert (E1 : r_cells r = row inp out) by congruence. assert (E2 : r_cells r' = row' inp out) by congruence. rewrite E1, E2.
    unfold cell in H. unfold Cminus in *. rewrite H. reflexivity.
Qed.

(** Shifting a series by an angle multiplies its coefficients by phases. *)
Lemma series_cells rho row x : length row = 33 -> series_function rho row x = Csum (fun n => cell rho row n * cis (IZR n * x))%C (freqs 16).
Proof.
  intros L. unfold series_function. rewrite fseries_R, synth_series by (rewrite map_length; lia). unfold series.
  apply Csum_ext_in. intros n In_. f_equal. unfold coef, cell. rewrite <- (eval_num0 rho), map_nth. reflexivity.
Qed.
Lemma cells_turned rho rho' row row' a m : length row = 33 -> length row' = 33 -> In m (freqs 16) ->
  (forall x, series_function rho' row' x = series_function rho row (x + a)) -> cell rho' row' m = (cell rho row m * cis (IZR m * a))%C.
Proof.
  intros L L' I H. rewrite cell_fourier by assumption.
  rewrite (fourier_coefficient_ext _ (fun x => Csum (fun n => (cell rho row n * cis (IZR n * a)) * cis (IZR n * x))%C (freqs 16)) m).
  - rewrite coefficient_trig by apply NoDup_freqs. destruct (in_dec Z.eq_dec m (freqs 16)); [reflexivity|contradiction].
  - intros x. rewrite H, series_cells by exact L. apply Csum_ext_in. intros n _. rewrite Rmult_plus_distr_l, cis_plus. ring.
Qed.

Lemma reading_real free xs s : exists x, reading free xs s = RtoC x.
Proof.
  revert xs. induction free as [|f free IH]; intros [|x xs]; cbn [reading]; try (eexists; reflexivity).
  destruct (sym_eqb s f); [eexists; reflexivity|apply IH].
Qed.

Lemma dvalue_shift D a np k m : data_ok D -> (Z.abs m <= Z.of_nat (fd_M D))%Z ->
  dvalue (fst (phase_shift_fdata D a np "radians")) k m = (dvalue D k m * cis (IZR m * a))%C.
Proof.
  intros [Nd Ld] J.
  assert (Ed : fd_data (fst (phase_shift_fdata D a np "radians")) = dmap (shift_row (fd_M D) a) (fd_data D) /\ fd_M (fst (phase_shift_fdata D a np "radians")) = fd_M D).
  { unfold phase_shift_fdata. cbn. destruct (phase_add _ _ _); split; reflexivity. }
  destruct Ed as [Ed Em]. unfold dvalue. rewrite Ed, Em, dget_dmap. destruct (dget k (fd_data D)) as [v|] eqn:G; cbn [option_map].
  - apply shift_row_coef; [apply (Ld k v), dget_In, G|exact J].
  - ring.
Qed.
Lemma matching_shift F F' D a np : matching F D -> formula_ok F' -> ff_M F' = ff_M F -> dkeys (ff_rows F') = dkeys (ff_rows F) ->
  matching F' (fst (phase_shift_fdata D a np "radians")).
Proof.
  intros (FO & [Nd Ld] & EM & K) FO' M' K'.
  assert (Ed : fd_data (fst (phase_shift_fdata D a np "radians")) = dmap (shift_row (fd_M D) a) (fd_data D) /\ fd_M (fst (phase_shift_fdata D a np "radians")) = fd_M D).
  { unfold phase_shift_fdata. cbn. destruct (phase_add _ _ _); split; reflexivity. }
  destruct Ed as [Ed Em]. split; [exact FO'|]. split; [split|split].
  - rewrite Ed. change (NoDup (dkeys (dmap (shift_row (fd_M D) a) (fd_data D)))). rewrite dkeys_dmap. exact Nd.
  - intros k v I. rewrite Ed in I. apply In_dmap in I as (w & I & ->). rewrite Em. apply shift_row_length. apply (Ld k w I).
  - congruence.
  - intros k I. rewrite Ed. change (In k (dkeys (dmap (shift_row (fd_M D) a) (fd_data D)))). rewrite dkeys_dmap. apply K.
    change (In k (dkeys (ff_rows F))). change (In k (dkeys (ff_rows F'))) in I. congruence.
Qed.

Section Chain.
Variable ev expand : expr -> expr.
Hypothesis EV : sound_ev ev.

(** What two pairs of tensors are turned into. *)
Lemma chain_pair aoi prefix fs d q d' q' srepr parse : good_tensors d q -> good_tensors d' q' -> (forall e, parse (srepr e) = Ok e) ->
  exists fs' file F file' F' row row', generate_uncontracted_fourier_transforms ev aoi prefix 16 fs = Ok fs' /\
    generate_contracted_fourier_transforms ev expand srepr prefix fs' d q 16 None = Ok file /\ load_fform parse file = Ok F /\
    generate_contracted_fourier_transforms ev expand srepr prefix fs' d' q' 16 None = Ok file' /\ load_fform parse file' = Ok F' /\
    (ff_M F = 16 /\ dkeys (ff_rows F) = ["PP"; "PS"; "SP"; "SS"]%string /\ formula_ok F) /\
    (ff_M F' = 16 /\ dkeys (ff_rows F') = ["PP"; "PS"; "SP"; "SS"]%string /\ formula_ok F') /\
    (forall inp out, ff_get_pc F (key inp out) = Ok (row inp out) /\ length (row inp out) = 33) /\
    (forall inp out, ff_get_pc F' (key inp out) = Ok (row' inp out) /\ length (row' inp out) = 33) /\
    (forall inp out rho x, respects rho -> series_function rho (row inp out) x =
       RtoC (setup_intensity (fformgen_setup (Q2R aoi)) (val3 rho (Some d)) (val4 rho (Some q)) inp out x)) /\
    (forall inp out rho x, respects rho -> series_function rho (row' inp out) x =
       RtoC (setup_intensity (fformgen_setup (Q2R aoi)) (val3 rho (Some d')) (val4 rho (Some q')) inp out x)).
Proof.
  intros Gd Gd' P. destruct (C50_intensity_numeric ev expand aoi prefix fs d q EV Gd) as (fs' & row & E & Y & V).
  destruct (C50_intensity_numeric ev expand aoi prefix fs d' q' EV Gd') as (fs2 & row' & E2 & Y' & V').
  assert (fs2 = fs') by congruence. subst fs2.
  assert (L : forall inp out, length (row inp out) = 33) by (intros inp out; apply (V inp out rho1 rho1_respects)).
  assert (L' : forall inp out, length (row' inp out) = 33) by (intros inp out; apply (V' inp out rho1 rho1_respects)).
  destruct (chain_phase ev expand EV aoi prefix fs d q srepr parse Gd P) as (fs1 & file & F & X1 & X2 & X3 & M1 & K1 & O1 & _).
  destruct (chain_phase ev expand EV aoi prefix fs d' q' srepr parse Gd' P) as (fs2 & file' & F' & Y1 & Y2 & Y3 & M2 & K2 & O2 & _).
  assert (fs1 = fs') by congruence. assert (fs2 = fs') by congruence. subst fs1 fs2.
  exists fs', file, F, file', F', row, row'. do 5 (split; [assumption|]). do 2 (split; [auto|]). split; [|split; [|split]].
  - destruct Y as (_ & _ & _ & _ & Y). destruct (Y srepr parse P) as (fl & F0 & E0 & L0 & _ & G0). assert (fl = file) by congruence. subst fl.
    assert (F0 = F) by congruence. subst F0. intros inp out. split; [apply G0|apply L].
  - destruct Y' as (_ & _ & _ & _ & Y'). destruct (Y' srepr parse P) as (fl & F0 & E0 & L0 & _ & G0). assert (fl = file') by congruence. subst fl.
    assert (F0 = F') by congruence. subst F0. intros inp out. split; [apply G0|apply L'].
  - intros inp out rho x R. apply (proj2 (V inp out rho R)).
  - intros inp out rho x R. apply (proj2 (V' inp out rho R)).
Qed.

Lemma good_transformed d q R : good_tensors d q -> shape R = [3; 3] -> real_params (Some R) ->
  exists d' q', @transform expr (Sig_ev ev) d R = Ok d' /\ @transform expr (Sig_ev ev) q R = Ok q' /\ good_tensors d' q'.
Proof.
  intros (Sd & Sq & Rd & Rq) SR RR.
  assert (HR : forall i, fits [3; 3] i -> only (fun s => sreal s = Some true) (at_ R i)).
  { intros i F s I. apply (RR i s); [|exact I]. apply in_indices. rewrite SR. exact F. }
  destruct (transform_only ev EV (fun s => sreal s = Some true) d R SR HR (or_introl Sd)) as (d' & Ed & Sd' & Pd').
  { intros i F s I. apply (Rd i s); [|exact I]. apply in_indices. exact F. }
  destruct (transform_only ev EV (fun s => sreal s = Some true) q R SR HR (or_intror Sq)) as (q' & Eq & Sq' & Pq').
  { intros i F s I. apply (Rq i s); [|exact I]. apply in_indices. exact F. }
  exists d', q'. split; [exact Ed|]. split; [exact Eq|]. split; [congruence|]. split; [congruence|]. split.
  - intros i s I Is. apply in_indices in I. apply (Pd' i); [rewrite <- Sd'; exact I|exact Is].
  - intros i s I Is. apply in_indices in I. apply (Pq' i); [rewrite <- Sq'; exact I|exact Is].
Qed.

Lemma turned_chain aoi prefix fs d q R srepr parse : good_tensors d q -> shape R = [3; 3] -> real_params (Some R) -> (forall e, parse (srepr e) = Ok e) ->
  exists d' q' fs' file F file' F', @transform expr (Sig_ev ev) d R = Ok d' /\ @transform expr (Sig_ev ev) q R = Ok q' /\
    generate_uncontracted_fourier_transforms ev aoi prefix 16 fs = Ok fs' /\
    generate_contracted_fourier_transforms ev expand srepr prefix fs' d q 16 None = Ok file /\ load_fform parse file = Ok F /\
    generate_contracted_fourier_transforms ev expand srepr prefix fs' d' q' 16 None = Ok file' /\ load_fform parse file' = Ok F' /\
    (ff_M F = 16 /\ dkeys (ff_rows F) = ["PP"; "PS"; "SP"; "SS"]%string /\ formula_ok F) /\
    (ff_M F' = 16 /\ dkeys (ff_rows F') = ["PP"; "PS"; "SP"; "SS"]%string /\ formula_ok F') /\
    forall rho a, respects rho -> teq (instance rho R) (rot_z a) ->
      (forall inp out, exists r r', ff_get_pc F (key inp out) = Ok r /\ ff_get_pc F' (key inp out) = Ok r' /\
         forall m, In m (freqs 16) -> cell rho r' m = (cell rho r m * cis (IZR m * a))%C) /\
      forall D np, matching F D -> misfit F' (fst (phase_shift_fdata D a np "radians")) rho = misfit F D rho.
Proof.
  intros G SR RR P. destruct (good_transformed d q R G SR RR) as (d' & q' & Td & Tq & G').
  destruct (chain_pair aoi prefix fs d q d' q' srepr parse G G' P)
    as (fs' & file & F & file' & F' & row & row' & E1 & E2 & E3 & E4 & E5 & (M & K & OK) & (M' & K' & OK') & Rw & Rw' & V & V').
  exists d', q', fs', file, F, file', F'. do 7 (split; [assumption|]). do 2 (split; [auto|]). intros rho a Rs HR.
  assert (T : forall inp out x, series_function rho (row' inp out) x = series_function rho (row inp out) (x + a)).
  { intros inp out x. rewrite V, V' by exact Rs. f_equal. rewrite !intensity_half.
    replace (x + a + PI)%R with ((x + PI) + a)%R by ring. destruct G as (Sd & Sq & _). apply intensity_turned.
    - exact (transformed_val3 ev EV rho R (Some d) (Some d') a Rs Sd SR HR Td).
    - intros. rewrite nest3. unfold sum3. ring.
    - exact (transformed_val4 ev EV rho R (Some q) (Some q') a Rs Sq SR HR Tq). }
  assert (Cc : forall inp out m, In m (freqs 16) -> cell rho (row' inp out) m = (cell rho (row inp out) m * cis (IZR m * a))%C).
  { intros inp out m I. apply cells_turned; [apply Rw|apply Rw'|exact I|]. intros x. apply T. }
  split.
  - intros inp out. exists (row inp out), (row' inp out). split; [apply Rw|]. split; [apply Rw'|]. intros m I. apply Cc, I.
  - intros D np (FO & DO & EM & KK).
    assert (S : forall inp out m, In m (freqs 16) ->
      Cmod (Cminus (cell rho (row' inp out) m) (dvalue (fst (phase_shift_fdata D a np "radians")) (key inp out) m)) = Cmod (Cminus (cell rho (row inp out) m) (dvalue D (key inp out) m))).
    { intros inp out m I. rewrite Cc by exact I. rewrite dvalue_shift by (auto; apply In_freqs in I; lia).
      replace (cell rho (row inp out) m * cis (IZR m * a) - dvalue D (key inp out) m * cis (IZR m * a))%C
        with ((cell rho (row inp out) m - dvalue D (key inp out) m) * cis (IZR m * a))%C by ring.
      rewrite Cmod_mult, Cmod_cis. ring. }
    apply Rle_antisym; [apply (rows_misfit2 _ _ _ _ _ _ row' row)|apply (rows_misfit2 _ _ _ _ _ _ row row')]; auto;
      try (intros inp out; apply Rw); try (intros inp out; apply Rw').
    intros inp out m I. symmetry. apply S, I.
Qed.
End Chain.
