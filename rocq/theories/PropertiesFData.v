(** Properties C15-C19, C30, C60-C63: Fourier-space data, conversions, arithmetic,
    tables, sharing, plots and loading. *)
From Coq Require Import String List ZArith Reals Lra Lia Bool Sorted.
From Coquelicot Require Import Complex.
From Verif Require Import PyBase RMod DataModel SpecData DataProofs DataProofs2 DataProofs3 PropertiesData
  CBase FDataModel SpecFData FDataProofs FDataProofs2 MiscModel SpecMisc MiscProofs HeapModel SpecHeap HeapProofs.
Import ListNotations.
Open Scope R_scope.

(* ================================================================== *)
(** * C15 (data containers; form containers are in PropertiesForm) *)

Theorem C15_data_copy_refuted : exists it d,
  construct it "radians" false = Ok d /\ copy_dat d = Raise AttributeError.
Proof.
  exists (input DFloat [("PP"%string, [(1, 5); (0, 3); (2 * PI, 4)])]). eexists. split; [apply good_witness|reflexivity].
Qed.
Print Assumptions C15_data_copy_refuted.

Definition one_row : list (pykey * fval) := fitems [("PP"%string, [RtoC 0; RtoC 1; RtoC 0])].
Lemma one_row_ok : fconstruct one_row 1 = Ok (mkfdat [("PP"%string, [RtoC 0; RtoC 1; RtoC 0])] 1 (PNum 0) 1).
Proof. apply fconstruct_items. split; [repeat constructor; simpl; tauto|repeat constructor]. Qed.

(** The copy of a Fourier container reports its phase shift as a tuple, and
    raises (after changing its data) when it is phase shifted. *)
Theorem C15_fdata_copy_refuted : exists f g, freachable f /\ fcopy f = Ok g /\
  fget_phase_shift f "radians" <> fget_phase_shift g "radians" /\
  snd (phase_shift_fdata f 1 false "radians") = Ok tt /\
  snd (phase_shift_fdata g 1 false "radians") = Raise TypeError.
Proof.
  eexists _, _. split; [exists one_row, 1%nat; eexists _, []; split; [apply one_row_ok|reflexivity]|].
  split; [apply fcopy_spec; split; [repeat constructor; simpl; tauto|repeat constructor]|].
  split; [discriminate|]. split; reflexivity.
Qed.
Print Assumptions C15_fdata_copy_refuted.

(** Apart from the recorded phase shift, copy and original agree after every
    history; outcomes agree for scaling and normalizing. *)
Theorem C15_fdata_copy_partial : forall f, freachable f -> exists g, fcopy f = Ok g /\
  forall h, fget_items (frun g h) = fget_items (frun f h) /\ fget_scale (frun g h) = fget_scale (frun f h) /\
    fget_M (frun g h) = fget_M (frun f h) /\
    (forall s, snd (scale_fdata (frun g h) s) = snd (scale_fdata (frun f h) s)) /\
    (forall x, snd (normalize_fdata (frun g h) x) = snd (normalize_fdata (frun f h) x)).
Proof.
  intros f R. apply freachable_wf in R. eexists. split; [apply fcopy_spec; auto|]. intros h.
  set (g := mkfdat (fd_data f) (fd_scale f) (PTup (fd_phase f)) (fd_M f)).
  assert (SB : same_but_phase g f) by (repeat split).
  destruct (frun_same h g f SB) as (D & S & M). clear SB.
  split; [exact D|]. split; [exact S|]. split; [exact M|]. split.
  - intros s. unfold scale_fdata. destruct (Rltb s 0); reflexivity.
  - intros x. unfold normalize_fdata, fget_maxval. rewrite D.
    destruct (fmaxval_loop _ None) as [[[k m]|]|e]; [| |reflexivity].
    2:{ unfold scale_fdata. destruct (Rltb 0 0); reflexivity. }
    destruct (Reqb m 0); [destruct (Rltb x 0); reflexivity|]. unfold scale_fdata. destruct (Rltb _ 0); reflexivity.
Qed.
Print Assumptions C15_fdata_copy_partial.

Example C15_case : freachable (mkfdat [("PP"%string, [RtoC 0; RtoC 1; RtoC 0])] 1 (PNum 0) 1).
Proof. exists one_row, 1%nat; eexists _, []; split; [apply one_row_ok|reflexivity]. Qed.

(* ================================================================== *)
(** * C16 *)

(** After any history of calls, failed ones included, the data are the original
    data times the recorded scale, turned by the recorded phase shift. *)
Theorem C16_history : forall it M f0 h, fconstruct it M = Ok f0 ->
  fget_keys (frun f0 h) = fget_keys f0 /\ fget_M (frun f0 h) = M /\
  exists a, fget_phase_shift (frun f0 h) "radians" = Ok (PNum a) /\
  forall k v0, fget_pc f0 k = Ok v0 -> exists v, fget_pc (frun f0 h) k = Ok v /\
    forall m, (Z.abs m <= Z.of_nat M)%Z ->
      coef M v m = Cmult (Cmult (RtoC (fget_scale (frun f0 h))) (coef M v0 m)) (cis (IZR m * a)).
Proof.
  intros it M f0 h C. destruct (fconstruct_wf _ _ _ C) as (W0 & M0 & S0 & P0).
  assert (H0 : forall h f, fwf f -> fget_keys f = fget_keys f0 -> fd_M f = M -> (exists a, fd_phase f = PNum a /\
     forall k v0, fget_pc f0 k = Ok v0 -> exists v, fget_pc f k = Ok v /\
       forall m, (Z.abs m <= Z.of_nat M)%Z ->
      coef M v m = Cmult (Cmult (RtoC (fd_scale f)) (coef M v0 m)) (cis (IZR m * a))) ->
    fget_keys (frun f h) = fget_keys f0 /\ fd_M (frun f h) = M /\
    (exists a, fd_phase (frun f h) = PNum a /\
     forall k v0, fget_pc f0 k = Ok v0 -> exists v, fget_pc (frun f h) k = Ok v /\
       forall m, (Z.abs m <= Z.of_nat M)%Z ->
      coef M v m = Cmult (Cmult (RtoC (fd_scale (frun f h))) (coef M v0 m)) (cis (IZR m * a)))).
  { clear h C. induction h as [|o h IH]; intros f W K Mf (a & Pa & Q); simpl; [split; auto; split; auto; exists a; auto|].
    destruct (fstep_wf f o W) as [W' Mf']. 
    assert (SC : forall s, fget_keys (fst (scale_fdata f s)) = fget_keys f0 /\ exists a, fd_phase (fst (scale_fdata f s)) = PNum a /\
       forall k v0, fget_pc f0 k = Ok v0 -> exists v, fget_pc (fst (scale_fdata f s)) k = Ok v /\
       forall m, (Z.abs m <= Z.of_nat M)%Z ->
       coef M v m = Cmult (Cmult (RtoC (fd_scale (fst (scale_fdata f s)))) (coef M v0 m)) (cis (IZR m * a))).
    { intros s. unfold scale_fdata. destruct (Rltb s 0); cbn [fst]; [split; auto; exists a; auto|]. split; [unfold fget_keys; cbn [fd_data]; rewrite dkeys_dmap; apply K|].
      exists a. split; auto. intros k v0 E. destruct (Q k v0 E) as (v & Ev & Hv).
      exists (map (Cmult (RtoC s)) v). rewrite fget_pc_dmap, Ev. split; auto. intros m L. cbn [fd_scale].
      pose proof (fget_pc_length f k v W Ev) as Lv. rewrite Mf in Lv.
      rewrite coef_scale, Hv, RtoC_mult by auto. ring. }
    apply IH; auto; [|congruence|]; destruct o as [s|x|b n u]; cbn [fstep].
    - apply SC.
    - unfold normalize_fdata. destruct (fget_maxval f) as [[[k m]|]|e]; cbn [fst]; auto; [|apply SC].
      destruct (Reqb m 0); [destruct (Rltb x 0); cbn [fst]; auto|apply SC].
    - unfold phase_shift_fdata. destruct (check_angle_units (lower u)); [|cbn [fst]; auto].
      rewrite Pa. cbn [phase_add fst]. unfold fget_keys. cbn [fd_data]. rewrite dkeys_dmap. apply K.
    - apply SC.
    - unfold normalize_fdata. destruct (fget_maxval f) as [[[k m]|]|e]; cbn [fst]; eauto; [|apply SC].
      destruct (Reqb m 0); [destruct (Rltb x 0); cbn [fst]; eauto|apply SC].
    - unfold phase_shift_fdata. destruct (check_angle_units (lower u)); [|cbn [fst]; eauto].
      rewrite Pa. cbn [phase_add fst fd_phase]. set (b' := if (_ =? _)%string then _ else _).
      exists (a + b'). split; auto. intros k v0 E. destruct (Q k v0 E) as (v & Ev & Hv).
      exists (shift_row (fd_M f) b' v). rewrite fget_pc_dmap, Ev. split; auto. intros m L. cbn [fd_scale].
      pose proof (fget_pc_length f k v W Ev) as Lv. rewrite Mf in *.
      rewrite shift_row_coef, Hv by auto. rewrite Rmult_plus_distr_l, cis_plus. ring. }
  destruct (H0 h f0 W0 eq_refl M0) as (A & B & a & Pa & Q).
  { exists 0. split; auto. intros k v0 E. exists v0. split; auto. intros m L. rewrite S0, Rmult_0_r, cis_0. ring. }
  split; auto. split; auto. exists a. split; auto. unfold fget_phase_shift. simpl. now rewrite Pa.
Qed.
Print Assumptions C16_history.

(** The recorded phase shift in either unit, in any spelling of it; other units
    are refused. *)
Theorem C16_units : forall f, freachable f -> exists a, fget_phase_shift f "radians" = Ok (PNum a) /\
  (forall u, lower u = "radians"%string -> fget_phase_shift f u = Ok (PNum a)) /\
  (forall u, lower u = "degrees"%string -> fget_phase_shift f u = Ok (PNum (180 / PI * a))) /\
  (forall u b np, lower u <> "radians"%string -> lower u <> "degrees"%string ->
     fget_phase_shift f u = Raise ValueError /\ phase_shift_fdata f b np u = (f, Raise ValueError)).
Proof.
  intros f (it & M & f0 & h & C & ->). destruct (C16_history it M f0 h C) as (_ & _ & a & Pa & _). exists a. split; [exact Pa|].
  unfold fget_phase_shift in *. change (lower "radians") with "radians"%string in Pa. cbn [bind check_angle_units String.eqb] in Pa.
  change (Ok (fd_phase (frun f0 h)) = Ok (PNum a)) in Pa. injection Pa as Pa. rewrite Pa.
  split; [intros u ->; reflexivity|]. split; [intros u ->; cbn; unfold rad2deg; do 2 f_equal; field; apply PI_neq0|].
  intros u b np N1 N2. assert (E : check_angle_units (lower u) = Raise ValueError).
  { unfold check_angle_units. apply String.eqb_neq in N1, N2. rewrite N1, N2. reflexivity. }
  unfold phase_shift_fdata. rewrite E. split; reflexivity.
Qed.
Print Assumptions C16_units.

(** One phase shift: component m is multiplied by exp(i m a); magnitudes stay. *)
Theorem C16_phase_shift : forall f a np u, freachable f -> (u = "radians" \/ u = "degrees")%string ->
  let a' := if String.eqb u "degrees" then a * PI / 180 else a in
  let (f', r) := phase_shift_fdata f a np u in
  r = Ok tt /\ forall k v, fget_pc f k = Ok v -> exists v', fget_pc f' k = Ok v' /\
    forall m, (Z.abs m <= Z.of_nat (fget_M f))%Z ->
      coef (fget_M f) v' m = Cmult (coef (fget_M f) v m) (cis (IZR m * a')) /\
      Cmod (coef (fget_M f) v' m) = Cmod (coef (fget_M f) v m).
Proof.
  intros f a np u (it & M & f0 & h & C & ->) U. 
  destruct (C16_history it M f0 h C) as (_ & MM & p & Ph & _). unfold fget_phase_shift in Ph. simpl in Ph. injection Ph as Ph.
  assert (W : fwf (frun f0 h)) by (apply frun_wf; apply (fconstruct_wf _ _ _ C)).
  set (f := frun f0 h) in *. clearbody f.
  assert (E : phase_shift_fdata f a np u = (mkfdat (dmap (shift_row (fd_M f) (if (u =? "degrees")%string then a * PI / 180 else a)) (fd_data f))
     (fd_scale f) (PNum (p + (if (u =? "degrees")%string then a * PI / 180 else a))) (fd_M f), Ok tt)).
  { destruct U as [-> | ->]; unfold phase_shift_fdata; simpl; rewrite Ph; simpl; auto.
    unfold deg2rad. replace (a * (PI / 180)) with (a * PI / 180) by field. reflexivity. }
  cbv zeta. rewrite E. split; auto. intros k v Ev. 
  pose proof (fget_pc_length f k v W Ev) as L. eexists. split; [rewrite fget_pc_dmap, Ev; reflexivity|].
  intros m Lm. unfold fget_M in *. rewrite shift_row_coef by auto. split; auto.
  rewrite Cmod_mult, Cmod_cis. ring.
Qed.
Print Assumptions C16_phase_shift.

Theorem C16_phase_group : forall f a b k np, freachable f ->
  fget_items (fst (phase_shift_fdata (fst (phase_shift_fdata f a np "radians")) b np "radians")) =
    fget_items (fst (phase_shift_fdata f (a + b) np "radians")) /\
  fget_items (fst (phase_shift_fdata f (IZR k * (2 * PI)) np "radians")) = fget_items f.
Proof.
  intros f a b k np R. 
  assert (P : forall f c, freachable f -> fd_data (fst (phase_shift_fdata f c np "radians")) = dmap (shift_row (fd_M f) c) (fd_data f)
     /\ fd_M (fst (phase_shift_fdata f c np "radians")) = fd_M f).
  { intros f1 c R1. unfold phase_shift_fdata; simpl. destruct (phase_add _ _ _); auto. }
  assert (R' : freachable (fst (phase_shift_fdata f a np "radians"))).
  { destruct R as (it & M & f0 & h & C & ->). exists it, M, f0, (h ++ [FPhase a np "radians"]). split; auto.
    clear. revert f0. induction h; intros f0; simpl; auto. }
  unfold fget_items. rewrite (proj1 (P _ b R')), (proj2 (P f a R)), (proj1 (P f a R)), !(proj1 (P f _ R)).
  pose proof (freachable_wf f R) as W. rewrite dmap_dmap. split.
  - apply (dmap_ext_wf _ _ _ W). intros v L. apply shift_row_twice; auto.
  - apply dmap_id. intros k0 v I. apply shift_row_turn. destruct W as [_ F]. rewrite Forall_forall in F. apply (F _ I).
Qed.
Print Assumptions C16_phase_group.

Theorem C16_normalize : forall f m x, freachable f -> is_max (mag_of (fget_items f)) m -> 0 < m -> 0 <= x ->
  snd (normalize_fdata f x) = Ok tt /\ is_max (mag_of (fget_items (fst (normalize_fdata f x)))) x /\
  fget_scale (fst (normalize_fdata f x)) = fget_scale f * (x / m).
Proof.
  intros f m x R Mx P X. destruct (normalize_fspec f m x (freachable_wf f R) Mx P X) as (f' & E & A & _ & S).
  rewrite E. auto.
Qed.
Print Assumptions C16_normalize.

(** The largest magnitude, over all polarizations (ties go to the first) and over one. *)
Theorem C16_extrema : forall f, freachable f -> fget_keys f <> [] ->
  (exists k m, fget_maxval f = Ok (Some (k, m)) /\ is_max (mag_of (fget_items f)) m /\
     exists f1 v f2, fget_items f = f1 ++ (k, v) :: f2 /\ (exists z, In z v /\ Cmod z = m) /\
       forall k' v' z, In (k', v') f1 -> In z v' -> Cmod z < m) /\
  forall k, (forall v, fget_pc f k = Ok v -> exists m, fget_pc_maxval f k = Ok m /\ is_max (fun y => exists z, In z v /\ y = Cmod z) m) /\
    (forall e, fget_pc f k = Raise e -> fget_pc_maxval f k = Raise e).
Proof.
  intros f R K. destruct (freachable_wf f R) as [W F]. 
  assert (D : fd_data f <> []) by (intros E; apply K; unfold fget_keys; rewrite E; auto).
  destruct (fget_maxval_spec f (conj W F) D) as (k & m & E & Fm & Mx). split.
  - exists k, m. split; [exact E|]. split; [exact Mx|]. destruct Fm as (Le & d1 & p & d2 & Ed & (x & Ix) & Nf).
    unfold dmap in Ed. apply map_eq_app in Ed as (f1 & f2' & Ef & E1 & E2).
    destruct f2' as [|[k0 v] f2]; [discriminate|]. cbn [map] in E2. injection E2 as Ek Ep E2. cbn [fst snd] in *. subst k0.
    exists f1, v, f2. split; [exact Ef|]. split.
    + rewrite <- Ep in Ix. unfold as_pts in Ix. apply in_map_iff in Ix as (z & Ez & Iz). exists z. split; [exact Iz|]. congruence.
    + intros k' v' z I J. destruct (Rle_lt_or_eq_dec (Cmod z) m) as [L|Q]; [|exact L|].
      * apply Mx. exists k', v', z. split; [unfold fget_items; rewrite Ef; apply in_or_app; left; exact I|]. split; auto.
      * exfalso. apply (Nf k' (as_pts v')); [rewrite <- E1; apply in_map_iff; exists (k', v'); auto|].
        unfold as_pts. rewrite <- Q. eexists. apply in_map_iff. exists z. split; [reflexivity|exact J].
  - intros k0. split; unfold fget_pc, fget_pc_maxval.
    + intros v Ev. rewrite Ev. cbn [bind].
      assert (Nv : v <> []) by (intros ->; pose proof (fget_pc_length f k0 [] (conj W F) Ev) as L; cbn in L; lia).
      destruct (py_max_spec (map (fun z => (0, Cmod z)) v)) as (m0 & Em & Is).
      { intros X. apply Nv. destruct v; [reflexivity|discriminate]. }
      rewrite map_map in Em. cbn [snd] in Em. exists m0. split; [exact Em|]. destruct Is as [A B]. split.
      * destruct A as (x & A). apply in_map_iff in A as (z & Ez & Iz). exists z. split; [exact Iz|congruence].
      * intros y (z & Iz & ->). apply B. exists 0. apply in_map_iff. exists z. auto.
    + intros e ->. reflexivity.
Qed.
Print Assumptions C16_extrema.

Example C16_case : exists f, freachable f /\ is_max (mag_of (fget_items f)) 1.
Proof.
  eexists. split; [apply C15_case|]. split.
  - exists "PP"%string. eexists _, (RtoC 1). split; [left; reflexivity|]. split; [simpl; auto|]. now rewrite Cmod_1.
  - intros y (k & v & z & [E|[]] & I & ->). injection E as <- <-.
    destruct I as [<-|[<-|[<-|[]]]]; rewrite ?Cmod_0, ?Cmod_1; lra.
Qed.

(* ================================================================== *)
(** * C17 *)

Lemma spaced_grid p : equally_spaced p <-> map fst p = grid (length p).
Proof. reflexivity. Qed.

Theorem C17_phase_sign_partial : forall interp d n k M np,
  let a := 2 * PI * IZR k / INR n in
  exact_at_nodes interp -> accepts interp n -> (2 <= n)%nat -> reachable d ->
  (forall pc p, get_pc d pc "radians" = Ok p -> length p = n /\ equally_spaced p) ->
  exists f f', dat_to_fdat interp d M = Ok f /\
    dat_to_fdat interp (fst (phase_shift_data d a "radians")) M = Ok f' /\
    snd (phase_shift_fdata f (- a) np "radians") = Ok tt /\
    fget_items f' = fget_items (fst (phase_shift_fdata f (- a) np "radians")).
Proof.
  intros interp d n k M np a X Ac L R H. apply transform_shifted; auto; [apply reachable_wf; auto|].
  intros k0 p I. apply (get_pc_In d k0 p (reachable_wf d R)) in I. destruct (H k0 p I) as [E S].
  split; auto. apply (proj1 (spaced_grid _)) in S. rewrite E in S; auto.
Qed.
Print Assumptions C17_phase_sign_partial.

Definition cos_row : list C := [RtoC (1/2); RtoC 0; RtoC (1/2)].
Definition cos_fdat := mkfdat [("PP"%string, cos_row)] 1 (PNum 0) 1.
Lemma cos_fdat_ok : fconstruct (fitems [("PP"%string, cos_row)]) 1 = Ok cos_fdat.
Proof. apply fconstruct_items. split; [repeat constructor; simpl; tauto|repeat constructor]. Qed.
Lemma cos_fdat_reach : freachable cos_fdat.
Proof. exists (fitems [("PP"%string, cos_row)]), 1%nat; eexists _, []; split; [apply cos_fdat_ok|reflexivity]. Qed.
Lemma cos_row_herm : hermitian 1 cos_row.
Proof.
  intros m L. assert (m = -1 \/ m = 0 \/ m = 1)%Z as [->|[->| ->]] by lia; apply C_ext; simpl; unfold Re, Im; simpl; lra.
Qed.
Definition cos_dat := mkdat [("PP"%string, sampled 4 (fun x => Re (series 1 cos_row x)))] 1 0 0 "radians" false.
Lemma cos_dat_reach : reachable cos_dat.
Proof.
  exists (input DFloat [("PP"%string, sampled 4 (fun x => Re (series 1 cos_row x)))]), "radians"%string, false. eexists _, []. split.
  - rewrite construct_input; [reflexivity|repeat constructor; simpl; tauto|].
    constructor; [|constructor]. unfold sampled, grid; discriminate.
  - unfold run. simpl. unfold cos_dat. now rewrite finish_sampled.
Qed.
Lemma cos_dat_pcs pc p : get_pc cos_dat pc "radians" = Ok p -> length p = 4%nat /\ equally_spaced p.
Proof.
  intros E. apply (get_pc_In _ _ _ (reachable_wf _ cos_dat_reach)) in E. destruct E as [E|[]]. injection E as <- <-.
  assert (L : length (sampled 4 (fun x => Re (series 1 cos_row x))) = 4%nat) by (unfold sampled; rewrite map_length, grid_length; auto).
  split; auto. exact (sampled_fst 4 (fun x => Re (series 1 cos_row x))).
Qed.

Example C17_case : reachable cos_dat /\ forall pc p, get_pc cos_dat pc "radians" = Ok p -> length p = 4%nat /\ equally_spaced p.
Proof. split; [apply cos_dat_reach|apply cos_dat_pcs]. Qed.

(** The two methods do not agree with the same sign. *)
Theorem C17_phase_sign_refuted : exists interp d a f f',
  exact_at_nodes interp /\ accepts interp 4 /\ reachable d /\
  dat_to_fdat interp d 1 = Ok f /\
  dat_to_fdat interp (fst (phase_shift_data d a "radians")) 1 = Ok f' /\
  fget_items f' <> fget_items (fst (phase_shift_fdata f a false "radians")).
Proof.
  destruct (C17_phase_sign_partial table_interp cos_dat 4 1 1 false table_exact (table_accepts 4) ltac:(lia) cos_dat_reach cos_dat_pcs)
    as (f & f' & E & E' & _ & Sh).
  exists table_interp, cos_dat, (2 * PI * IZR 1 / INR 4), f, f'.
  split; [apply table_exact|]. split; [apply table_accepts|]. split; [apply cos_dat_reach|]. split; auto. split; auto.
  rewrite Sh. clear Sh E'.
  rewrite dat_to_fdat_spec in E; auto using table_exact, reachable_wf, cos_dat_reach.
  2:{ intros k p I. apply (get_pc_In _ _ _ (reachable_wf _ cos_dat_reach)) in I. apply cos_dat_pcs in I as [L S].
      split; [exact S|]. rewrite L. split; [lia|eexists; reflexivity]. }
  injection E as <-. set (p := sampled 4 (fun x => Re (series 1 cos_row x))).
  intros E.
  assert (E' : coef 1 (shift_row 1 (- (2 * PI * IZR 1 / INR 4)) (map (dft p) (freqs 1))) 1 =
               coef 1 (shift_row 1 (2 * PI * IZR 1 / INR 4) (map (dft p) (freqs 1))) 1)
    by exact (f_equal (fun d : list (string * list C) => coef 1 (match d with (_, v) :: _ => v | [] => [] end) 1) E).
  clear E. rename E' into E.
  rewrite !shift_row_coef in E by (rewrite ?map_length, ?length_freqs; simpl; lia).
  replace (INR 4) with 4 in E by (simpl; lra).
  rewrite coef_map_freqs in E by (simpl; lia). unfold p in E.
  rewrite no_alias in E; [|lia|apply cos_row_herm|simpl; lia].
  replace (1 * - (2 * PI * 1 / 4)) with (- (PI / 2)) in E by field.
  replace (1 * (2 * PI * 1 / 4)) with (PI / 2) in E by field.
  unfold coef, cis in E. simpl in E. rewrite cos_neg, sin_neg, cos_PI2, sin_PI2 in E.
  apply (f_equal snd) in E. simpl in E. lra.
Qed.
Print Assumptions C17_phase_sign_refuted.

(* ================================================================== *)
(** * C18 *)

Theorem C18_round_trip : forall interp f n,
  exact_at_nodes interp -> accepts interp n -> freachable f -> (2 <= n)%nat -> (2 * fget_M f < n)%nat ->
  (forall k v, fget_pc f k = Ok v -> hermitian (fget_M f) v) ->
  exists d f', fdat_to_dat f n = Ok d /\ dat_to_fdat interp d (fget_M f) = Ok f' /\
    fget_items f' = fget_items f.
Proof.
  intros interp f n X Ac R L2 L H. pose proof (freachable_wf f R) as W. pose proof W as [Wd F].
  eexists _, _. split; [apply fdat_to_dat_spec; auto; lia|]. split.
  - apply dat_to_fdat_spec; auto; [apply wf_dmap; auto|]. intros k p I. apply In_dmap in I as (v & _ & ->).
    assert (Lp : length (sampled n (fun x => Re (series (fd_M f) v x))) = n) by (unfold sampled; rewrite map_length, grid_length; auto).
    rewrite Lp. split; [apply sampled_fst|]. split; auto. apply Ac; auto. rewrite sampled_fst. apply grid_NoDup.
  - unfold fget_items, fget_M in *. simpl. rewrite dmap_dmap. apply dmap_id. intros k v I.
    assert (Lv : length v = (2 * fd_M f + 1)%nat) by (rewrite Forall_forall in F; apply (F _ I)).
    transitivity (map (coef (fd_M f) v) (freqs (fd_M f))); [|symmetry; apply list_by_coef; auto]. apply map_ext_in. intros m J. apply In_freqs in J. apply no_alias; auto; [|lia].
    apply (H k). unfold fget_pc, dgetr. rewrite (In_dget _ _ _ Wd I). reflexivity.
Qed.
Print Assumptions C18_round_trip.

Example C18_case : freachable cos_fdat /\ (forall k v, fget_pc cos_fdat k = Ok v -> hermitian 1 v) /\
  exact_at_nodes table_interp /\ accepts table_interp 3.
Proof.
  split; [apply cos_fdat_reach|]. split; [|split; [apply table_exact|apply table_accepts]].
  intros k v E. unfold fget_pc, dgetr in E. destruct (dget k (fd_data cos_fdat)) eqn:G; [|discriminate].
  injection E as <-. apply dget_In in G. destruct G as [G|[]]. injection G as <- <-. apply cos_row_herm.
Qed.

(* ================================================================== *)
(** * C19 *)

Theorem C19_aliasing : forall interp f n M',
  exact_at_nodes interp -> accepts interp n -> freachable f -> (2 <= n)%nat ->
  exists d f', fdat_to_dat f n = Ok d /\ dat_to_fdat interp d M' = Ok f' /\ fget_keys f' = fget_keys f /\
    forall k v, fget_pc f k = Ok v -> exists v', fget_pc f' k = Ok v' /\ length v' = (2 * M' + 1)%nat /\
      forall m, (Z.abs m <= Z.of_nat M')%Z -> coef M' v' m =
        Csum (fun m' => if ((m' - m) mod Z.of_nat n =? 0)%Z then herm_part (fget_M f) v m' else RtoC 0) (freqs (fget_M f)).
Proof.
  intros interp f n M' X Ac R L2. pose proof (freachable_wf f R) as W. pose proof W as [Wd F].
  eexists _, _. split; [apply fdat_to_dat_spec; auto; lia|]. split.
  - apply dat_to_fdat_spec; auto; [apply wf_dmap; auto|]. intros k p I. apply In_dmap in I as (v & _ & ->).
    assert (Lp : length (sampled n (fun x => Re (series (fd_M f) v x))) = n) by (unfold sampled; rewrite map_length, grid_length; auto).
    rewrite Lp. split; [apply sampled_fst|]. split; auto. apply Ac; auto. rewrite sampled_fst. apply grid_NoDup.
  - unfold fget_items, fget_keys, fget_M in *. simpl. rewrite dmap_dmap, dkeys_dmap. split; auto.
    intros k v E. eexists. split; [unfold fget_pc, dgetr; simpl; rewrite dget_dmap|].
    + unfold fget_pc, dgetr in E. destruct (dget k (fd_data f)); [|discriminate]. injection E as ->. reflexivity.
    + split; [rewrite map_length, length_freqs; auto|]. intros m L. rewrite coef_map_freqs by auto. apply dft_sampled. lia.
Qed.
Print Assumptions C19_aliasing.

(** With N <= 2M samples the information is lost: no algorithm could recover the
    coefficients. *)
Theorem C19_sharp : forall M n, (0 < n)%nat -> (n <= 2 * M)%nat -> exists f g,
  freachable f /\ freachable g /\ fget_M f = M /\ fget_M g = M /\
  (forall k v, fget_pc f k = Ok v -> hermitian M v) /\ (forall k v, fget_pc g k = Ok v -> hermitian M v) /\
  fget_items f <> fget_items g /\ fdat_to_dat f n = fdat_to_dat g n /\ is_ok (fdat_to_dat f n).
Proof.
  intros M n P L. destruct (indistinguishable M n P L) as (v & w & Lv & Lw & Hv & Hw & N & E).
  assert (WF : forall v, length v = (2 * M + 1)%nat -> fwf (mkfdat [("PP"%string, v)] 1 (PNum 0) M)).
  { intros v0 L0. split; simpl; [repeat constructor; simpl; tauto|]. constructor; auto. }
  assert (RE : forall v, length v = (2 * M + 1)%nat -> freachable (mkfdat [("PP"%string, v)] 1 (PNum 0) M)).
  { intros v0 L0. exists (fitems [("PP"%string, v0)]), M. eexists _, []. split; [apply fconstruct_items, (WF v0 L0)|reflexivity]. }
  assert (HE : forall v0 k v1, hermitian M v0 -> fget_pc (mkfdat [("PP"%string, v0)] 1 (PNum 0) M) k = Ok v1 -> hermitian M v1).
  { intros v0 k v1 H0 G. unfold fget_pc, dgetr in G. destruct (dget k _) eqn:E0; [|discriminate].
    injection G as <-. apply dget_In in E0. destruct E0 as [E0|[]]. injection E0 as <- <-; auto. }
  exists (mkfdat [("PP"%string, v)] 1 (PNum 0) M), (mkfdat [("PP"%string, w)] 1 (PNum 0) M).
  split; auto. split; auto. split; auto. split; auto. split; [eauto|]. split; [eauto|].
  split; [intros Q; injection Q; auto|]. rewrite !fdat_to_dat_spec by auto. cbn [fd_data fd_M dmap map fst snd].
  split; [|eexists; reflexivity]. unfold dmap; simpl. rewrite E. reflexivity.
Qed.
Print Assumptions C19_sharp.

(** With a single sample dat_to_fdat always fails. *)
Theorem C19_single_sample : forall interp f M', freachable f -> fget_keys f <> [] -> accepts interp 1 ->
  exists d, fdat_to_dat f 1 = Ok d /\ dat_to_fdat interp d M' = Raise IndexError.
Proof.
  intros interp f M' R N Ac. pose proof (freachable_wf f R) as W. eexists. split; [apply fdat_to_dat_spec; auto|].
  unfold fget_keys in N. unfold dat_to_fdat. cbn [dc_data].
  destruct (fd_data f) as [|[k v] r]; [contradiction|]. unfold dmap. cbn [map fst snd dmapM].
  set (p := sampled 1 _).
  assert (E : mapM (fourier_entry interp p) (freqs M') = Raise IndexError).
  { assert (Fe : forall m, fourier_entry interp p m = Raise IndexError).
    { intros m. unfold fourier_entry. destruct (Ac p) as [g ->]; [reflexivity|unfold p; rewrite sampled_fst; apply grid_NoDup|].
      reflexivity. }
    destruct (freqs M') as [|m l] eqn:Q; [exfalso; pose proof (length_freqs M') as Z; rewrite Q in Z; simpl in Z; lia|].
    simpl. now rewrite Fe. }
  rewrite E. reflexivity.
Qed.
Print Assumptions C19_single_sample.

Example C19_case : (0 < 2)%nat /\ (2 <= 2 * 1)%nat /\ fget_keys cos_fdat <> [] /\ accepts table_interp 1.
Proof. repeat split; try lia; [discriminate|apply table_accepts]. Qed.

(* ================================================================== *)
(** * C30 *)

Theorem C30_conditions : forall d1 d2, reachable d1 -> reachable d2 -> forall op,
  op = Rplus \/ op = Rminus ->
  (is_ok (dat_arith op d1 d2) -> can_combine d1 d2) /\
  (~ is_ok (dat_arith op d1 d2) -> dat_arith op d1 d2 = Raise ValueError \/
     get_keys d1 = [] /\ dat_arith op d1 d2 = Raise IndexError).
Proof. intros. apply dat_arith_conv; apply reachable_wf; auto. Qed.
Print Assumptions C30_conditions.

Theorem C30_pointwise : forall d1 d2 op, reachable d1 -> all_distinct d1 -> can_combine d1 d2 ->
  exists d, dat_arith op d1 d2 = Ok d /\ get_keys d = get_keys d1 /\
    forall k p1 p2, get_pc d1 k "radians" = Ok p1 -> get_pc d2 k "radians" = Ok p2 ->
      get_pc d k "radians" = Ok (pointwise op p1 p2).
Proof.
  intros d1 d2 op R D Cc. eexists. split; [apply dat_arith_ok; auto using reachable_wf, reachable_normal|]. split.
  - unfold get_keys, arith_data, dkeys. simpl. rewrite map_map. reflexivity.
  - intros k p1 p2 E1 E2. apply get_pc_In; [unfold wf_dict, dkeys, arith_data; simpl; rewrite map_map; apply (reachable_wf d1 R)|].
    simpl. unfold arith_data. apply in_map_iff. exists (k, p1). split; [|apply (get_pc_In d1 k p1 (reachable_wf _ R)); auto].
    simpl. unfold get_pc, view, dgetr in E2. simpl in E2. destruct (dget k (dc_data d2)); [|discriminate]. injection E2 as ->. reflexivity.
Qed.
Print Assumptions C30_pointwise.

Lemma minus_plus p1 p2 : length (stretch (length p1) p2) = length p1 ->
  pointwise Rminus (pointwise Rplus p1 p2) p2 = p1.
Proof.
  intros L. unfold pointwise at 1.
  assert (E : length (pointwise Rplus p1 p2) = length p1) by (unfold pointwise; rewrite map_length, combine_length; lia).
  rewrite E. unfold pointwise. revert L. generalize (stretch (length p1) p2) as q. clear.
  induction p1 as [|[x y] p1 IH]; intros [|[x' y'] q] L; simpl in *; auto; try lia. f_equal; [f_equal; ring|apply IH; lia].
Qed.

Lemma distinct_by_fst p q : map fst p = map fst q -> distinct_angles p -> distinct_angles q.
Proof.
  intros E D. revert q E. induction D as [|a p F D IH]; intros [|b q] E; simpl in E; try discriminate; constructor.
  - injection E as E0 E. apply Forall_forall. intros r I. rewrite <- E0.
    assert (J : In (fst r) (map fst p)) by (rewrite E; apply in_map; auto).
    apply in_map_iff in J as [s [Es J]]. rewrite <- Es. rewrite Forall_forall in F. apply F; auto.
  - apply IH. injection E; auto.
Qed.

Theorem C30_inverse_partial : forall d1 d2, reachable d1 -> reachable d2 -> all_distinct d1 -> can_combine d1 d2 ->
  exists s d, dat_add d1 d2 = Ok s /\ dat_subtract s d2 = Ok d /\ get_items d "radians" = get_items d1 "radians".
Proof.
  intros d1 d2 R R2 D Cc. pose proof Cc as (NE & K & V & Co). pose proof (reachable_wf d1 R) as W.
  assert (Wa : wf_dict (arith_data Rplus d1 d2)) by (unfold wf_dict, dkeys, arith_data; rewrite map_map; exact W).
  set (s := mkdat (arith_data Rplus d1 d2) 1 0 0 "radians" false).
  assert (Ks : get_keys s = get_keys d1) by (unfold get_keys, s, dkeys, arith_data; simpl; rewrite map_map; reflexivity).
  assert (Pair : forall k p1, In (k, p1) (dc_data d1) -> exists p2, dget k (dc_data d2) = Some p2 /\ compatible p1 p2 /\ get_pc d2 k "radians" = Ok p2).
  { intros k p1 I. apply (get_pc_In d1 k p1 W) in I.
    assert (Kk : In k (get_keys d2)) by (apply K; apply get_pc_key; eexists; eauto).
    apply get_pc_key in Kk as [q Q]. exists q. split; [|eauto].
    unfold get_pc, view, dgetr in Q. simpl in Q. destruct (dget k (dc_data d2)); [|discriminate]. injection Q as ->; auto. }
  assert (In_s : forall k p, get_pc s k "radians" = Ok p -> exists p1 p2, In (k, p1) (dc_data d1) /\ dget k (dc_data d2) = Some p2 /\ compatible p1 p2 /\ get_pc d2 k "radians" = Ok p2 /\ p = pointwise Rplus p1 p2).
  { intros k p E. apply (get_pc_In s k p Wa) in E. simpl in E. unfold arith_data in E. apply in_map_iff in E as [[k' p1] [E I]].
    simpl in E. injection E as -> <-. destruct (Pair k p1 I) as (p2 & G & C & G'). exists p1, p2. rewrite G. auto. }
  assert (CL : forall p1 p2, compatible p1 p2 -> length (stretch (length p1) p2) = length p1) by (intros; symmetry; apply (Forall2_length _ _ _ H)).
  assert (Ns : normal_dat s).
  { unfold normal_dat. apply Forall_forall. intros [k p] I. simpl. apply (get_pc_In s k p Wa) in I.
    apply In_s in I as (p1 & p2 & I & G & C & _ & ->). pose proof (reachable_normal d1 R) as N. unfold normal_dat in N.
    rewrite Forall_forall in N. specialize (N _ I). simpl in N. destruct N as (Na & Nt & Nl).
    unfold normal_form. rewrite (pointwise_fst _ _ _ (CL _ _ C)). split; auto.
    intros Z. apply (f_equal (map fst)) in Z. rewrite (pointwise_fst _ _ _ (CL _ _ C)) in Z. destruct p1; [contradiction|discriminate]. }
  assert (Ds : all_distinct s).
  { intros k p E. apply In_s in E as (p1 & p2 & I & G & C & _ & ->).
    apply (distinct_by_fst p1); [symmetry; apply pointwise_fst; auto|]. apply (D k). apply (get_pc_In d1 k p1 W); auto. }
  assert (Cs : can_combine s d2).
  { split; [rewrite Ks; auto|]. split; [intros k; rewrite Ks; apply K|]. split.
    - intros q1 q2 r1 r2 E1 E2. unfold get_values, view in *. simpl in *.
      destruct (dc_data d1) as [|[k1 p1] t1] eqn:Ed1; [exfalso; apply NE; unfold get_keys; rewrite Ed1; auto|].
      unfold arith_data in E1. rewrite Ed1 in E1. simpl in E1. injection E1 as <- _.
      assert (Lq : length p1 = length q2) by (apply (V p1 q2 (dvals t1) r2); auto).
      destruct (Pair k1 p1 (or_introl eq_refl)) as (p2 & G & C & _).
      rewrite G. unfold pointwise. rewrite map_length, combine_length, (CL _ _ C). lia.
    - intros k q1 q2 E1 E2. apply In_s in E1 as (p1 & p2 & I & G & C & G' & ->). rewrite G' in E2. injection E2 as <-.
      unfold compatible in *. assert (Lp : length (pointwise Rplus p1 p2) = length p1) by (unfold pointwise; rewrite map_length, combine_length, (CL _ _ C); lia).
      rewrite Lp. clear -C. unfold pointwise. revert C. generalize (stretch (length p1) p2) as q.
      induction p1 as [|a p1 IH]; intros q C; inversion C; subst; simpl; constructor; auto. }
  exists s. eexists. split; [apply dat_arith_ok; auto; apply reachable_normal; auto|].
  split; [apply dat_arith_ok; auto|]. unfold get_items, view. simpl. f_equal.
  unfold arith_data at 1. simpl. unfold arith_data. rewrite map_map. simpl.
  rewrite <- (map_id (dc_data d1)) at 2. apply map_ext_in. intros [k p1] I. simpl.
  destruct (Pair k p1 I) as (p2 & G & C & _). rewrite G. rewrite minus_plus by auto. reflexivity.
Qed.
Print Assumptions C30_inverse_partial.

(** With repeated directions (C02) dat_add loses points and the inverse law fails. *)
Theorem C30_inverse_refuted : exists d s, reachable d /\ can_combine d d /\
  dat_add d d = Ok s /\ dat_subtract s d = Raise ValueError.
Proof.
  set (d := mkdat [("PP"%string, [(0, 1); (0, 2)])] 1 0 0 "radians" false).
  assert (R : reachable d) by (eexists _, "radians"%string, false, _, []; split; [apply dup_witness|reflexivity]).
  assert (C : can_combine d d).
  { split; [discriminate|]. split; [tauto|]. split.
    - intros p1 p2 r1 r2 E1 E2. simpl in *. congruence.
    - intros k p1 p2 E1 E2. rewrite E1 in E2. injection E2 as <-.
      apply (get_pc_In d k p1 (reachable_wf d R)) in E1. destruct E1 as [E|[]]. injection E as <- <-.
      unfold compatible; simpl. repeat constructor; simpl; unfold close; rewrite Rminus_diag_eq, Rabs_R0; lra. }
  exists d, (mkdat [("PP"%string, [(0, 1 + 1)])] 1 0 0 "radians" false).
  split; auto. split; auto.
  assert (I0 : isclose 0 0 = true) by (apply isclose_spec; unfold close; rewrite Rminus_diag_eq, Rabs_R0; lra).
  assert (mod2pi_0 : mod2pi 0 = 0) by (apply mod2pi_unique with (k := 0%Z); unfold twopi; pose proof PI_bounds; lra).
  assert (E10 : Reqb 1 0 = false) by (apply Reqb_false; lra).
  split.
  - unfold dat_add, dat_arith. simpl. unfold combine_pc, get_pc, view, dgetr; simpl. unfold bcast; simpl. rewrite I0. simpl. rewrite E10. simpl.
    change (construct (input DFloat [("PP"%string, [(0, 1 + 1); (0, 2 + 2)])]) "radians" false = Ok (mkdat [("PP"%string, [(0, 1 + 1)])] 1 0 0 "radians" false)).
    rewrite construct_input; [|repeat constructor; simpl; tauto|constructor; [discriminate|constructor]].
    unfold dmap; simpl. unfold finish; simpl. unfold mem. simpl. rewrite !mod2pi_0.
    replace (Reqb 0 0) with true by (symmetry; apply Reqb_true; auto). simpl. rewrite ?mod2pi_0. reflexivity.
  - reflexivity.
Qed.
Print Assumptions C30_inverse_refuted.

Lemma sorted_distinct p : StronglySorted Rlt (map fst p) -> Forall in_turn (map fst p) -> distinct_angles p.
Proof.
  induction p as [|q p IH]; simpl; intros G T; [constructor|].
  inversion G as [|? ? G1 G2]; inversion T as [|? ? T1 T2]; subst. constructor; [|apply IH; auto].
  apply Forall_forall. intros r I A. rewrite Forall_forall in G2, T2.
  specialize (G2 _ (in_map fst _ _ I)). apply in_turn_same in A; auto; [lra|]. apply T2, in_map; auto.
Qed.

Example C30_case : reachable cos_dat /\ all_distinct cos_dat /\ can_combine cos_dat cos_dat.
Proof.
  pose proof (reachable_wf _ cos_dat_reach) as W.
  split; [apply cos_dat_reach|]. split.
  - intros k p E. apply cos_dat_pcs in E as [L S]. apply (proj1 (spaced_grid _)) in S. rewrite L in S.
    apply sorted_distinct; rewrite S; [apply grid_sorted|apply grid_turn].
  - split; [discriminate|]. split; [tauto|]. split; [intros p1 p2 r1 r2 E1 E2; congruence|].
    intros k p1 p2 E1 E2. rewrite E1 in E2. injection E2 as <-. apply cos_dat_pcs in E1 as [L _].
    unfold compatible. replace (stretch (length p1) p1) with p1 by (symmetry; apply stretch_same; auto).
    clear. induction p1; constructor; auto. unfold close. rewrite Rminus_diag_eq, Rabs_R0 by auto. pose proof (Rabs_pos (fst a)). lra.
Qed.

(* ================================================================== *)
(** * C60 *)

Theorem C60_none : forall d u v, reachable d -> get_items d u = Ok v -> v <> [] ->
  as_pandas d u "none" = Ok (points v).
Proof. intros. apply as_pandas_none; auto. apply reachable_wf; auto. Qed.
Print Assumptions C60_none.

(** The default index: exactly when it succeeds and when it is right. *)
Theorem C60_multi_partial : forall d u k0 p0 rest, reachable d -> get_items d u = Ok ((k0, p0) :: rest) ->
  ((forall kv, In kv rest -> length (snd kv) = length p0) ->
     exists rows, as_pandas d u "multi" = Ok rows /\
       (rows = points ((k0, p0) :: rest) <-> forall kv, In kv rest -> map fst (snd kv) = map fst p0)) /\
  (~ (forall kv, In kv rest -> length (snd kv) = length p0) -> as_pandas d u "multi" = Raise ValueError).
Proof.
  intros d u k0 p0 rest R V. rewrite (as_pandas_multi d u k0 p0 rest (reachable_wf d R) V).
  split; intros H.
  - replace (forallb _ rest) with true by (symmetry; apply forallb_forall; intros; apply Nat.eqb_eq; auto).
    eexists. split; [reflexivity|]. change (points ((k0, p0) :: rest)) with (flat_map labelled ((k0, p0) :: rest)).
    rewrite table_iff.
    + split; [intros A kv I; apply A; right; auto|]. intros A kv [<-|I]; auto.
    + intros kv [<-|I]; rewrite map_length; auto.
  - destruct (forallb _ rest) eqn:F; auto. exfalso. apply H. intros kv I. rewrite forallb_forall in F. apply Nat.eqb_eq, F; auto.
Qed.
Print Assumptions C60_multi_partial.

Theorem C60_multi_refuted : exists d rows k x y, reachable d /\ as_pandas d "radians" "multi" = Ok rows /\
  In (k, x, y) rows /\ forall p, get_pc d k "radians" = Ok p -> ~ In (x, y) p.
Proof.
  set (raw := [("PP"%string, [(0, 5)]); ("SS"%string, [(1, 7)])]).
  set (d := mkdat raw 1 0 0 "radians" false).
  assert (R : reachable d).
  { exists (input DFloat raw), "radians"%string, false. eexists _, []. split.
    - apply construct_input; [repeat constructor; simpl; intuition discriminate|repeat constructor; discriminate].
    - unfold d, raw. simpl. unfold finish; simpl. unfold mem; simpl.
      rewrite !mod2pi_small by (unfold twopi; pose proof PI_bounds; lra). reflexivity. }
  exists d, [("PP"%string, 0, 5); ("SS"%string, 0, 7)], "SS"%string, 0, 7.
  split; auto. split; [reflexivity|]. split; [simpl; auto|].
  intros p E. apply (get_pc_In d _ _ (reachable_wf d R)) in E. destruct E as [E|[E|[]]]; [discriminate|].
  injection E as <-. intros [E|[]]. injection E. lra.
Qed.
Print Assumptions C60_multi_refuted.

Theorem C60_fourier : forall f index, freachable f -> (index = "multi" \/ index = "none")%string ->
  fas_pandas f index = Ok (fpoints (fget_M f) (fget_items f)).
Proof.
  intros f index R [-> | ->]; apply freachable_wf in R; [apply fas_pandas_multi|apply fas_pandas_none]; auto.
Qed.
Print Assumptions C60_fourier.

(** The other outcomes. *)
Theorem C60_errors : forall d u index, reachable d ->
  (get_keys d = [] -> (u = "radians" \/ u = "degrees")%string -> as_pandas d u index = Raise IndexError) /\
  (get_keys d <> [] -> index <> "multi"%string -> index <> "none"%string -> forall v, get_items d u = Ok v ->
     as_pandas d u index = Raise UnboundLocalError).
Proof.
  intros d u index R. split.
  - intros K U. unfold as_pandas, get_values, view. unfold get_keys in K.
    destruct (dc_data d) eqn:E; [|discriminate]. destruct U as [-> | ->]; reflexivity.
  - intros K N1 N2 v V. unfold as_pandas, get_values. unfold get_items in V. rewrite V. cbn [bind].
    pose proof (view_keys d u v V) as Kv. destruct v as [|[k0 p0] r]; [simpl in Kv; congruence|].
    change (py_nth (dvals ((k0, p0) :: r)) 0) with (Ok p0). cbn [bind].
    destruct (String.eqb_spec index "multi"); [contradiction|]. destruct (String.eqb_spec index "none"); [contradiction|]. reflexivity.
Qed.
Print Assumptions C60_errors.

Example C60_case : exists v, get_items cos_dat "degrees" = Ok v /\ v <> [].
Proof. eexists. split; [reflexivity|discriminate]. Qed.

(* ================================================================== *)
(** * C61 *)

(** Programs that use only construction, methods, merging, get_pc and the degree
    accessors (and filters that return) cannot tell the containers from
    independent values. *)
Theorem C61_isolation_partial : forall (A Op : Type) mk method deg (l : list (act A Op)),
  forallb safe l = true ->
  forall c k, observe A (act_run A mk Op method deg (empty_world A) l) c k =
    (do d <- get_theirs (value_run mk method deg (mkvalues [] []) l) c; dgetr k d).
Proof.
  intros A Op mk method deg l S c k. unfold observe.
  rewrite (deref_sim mk _ _ _ (sim_run mk method deg l _ _ sim_empty S)). reflexivity.
Qed.
Print Assumptions C61_isolation_partial.

(** In particular a write never changes what a container shows. *)
Theorem C61_write_partial : forall (A Op : Type) mk method deg (l : list (act A Op)) i a,
  forallb safe l = true ->
  let w := act_run A mk Op method deg (empty_world A) l in
  forall c k, observe A (act_step A mk Op method deg w (AWrite A Op i a)) c k = observe A w c k.
Proof.
  intros A Op mk method deg l i a S w c k. unfold observe.
  pose proof (sim_run mk method deg l _ _ sim_empty S) as H. fold w in H.
  rewrite (deref_sim mk _ _ _ (sim_write mk method deg _ _ i a H)), (deref_sim mk _ _ _ H). reflexivity.
Qed.
Print Assumptions C61_write_partial.

Definition demo_mk (it : list (string * nat)) : res (dict string nat) := Ok (dict_of it).
Definition demo_method (o : unit) (d : dict string nat) : dict string nat := dmap S d.

(** get_values('radians') hands out the internal arrays. *)
Theorem C61_isolation_refuted : exists (l : list (act nat unit)),
  let run := act_run nat demo_mk unit demo_method S (empty_world nat) in
  observe nat (run l) 0%nat "PP" <> observe nat (run (l ++ [AWrite nat unit 1%nat 99%nat])) 0%nat "PP" /\
  In (AValuesRad nat unit 0%nat) l.
Proof.
  exists [ANew nat unit 5%nat; AConstruct nat unit [("PP"%string, 0%nat)]; AValuesRad nat unit 0%nat]. simpl.
  split; [discriminate|auto].
Qed.
Print Assumptions C61_isolation_refuted.

(** A filter that writes to its argument and raises also changes the container. *)
Theorem C61_filter_refuted : exists (l : list (act nat unit)),
  let run := act_run nat demo_mk unit demo_method S (empty_world nat) in
  observe nat (run l) 0%nat "PP" <> observe nat (run (l ++ [AFilterRaise nat unit 0%nat "PP" 99%nat])) 0%nat "PP".
Proof.
  exists [ANew nat unit 5%nat; AConstruct nat unit [("PP"%string, 0%nat)]]. simpl. discriminate.
Qed.
Print Assumptions C61_filter_refuted.

Example C61_case :
  let l := [ANew nat unit 5%nat; AConstruct nat unit [("PP"%string, 0%nat)]; AGetPc nat unit 0%nat "PP"; AMethod nat unit 0%nat tt;
            AMerge nat unit [0; 0]%nat (fun k i => if Nat.eqb i 0 then k else "SS"%string); AFilter nat unit 0%nat tt; AWrite nat unit 1%nat 99%nat] in
  forallb safe l = true /\ observe nat (act_run nat demo_mk unit demo_method S (empty_world nat) l) 0%nat "PP" = Ok 7%nat
  /\ observe nat (act_run nat demo_mk unit demo_method S (empty_world nat) l) 1%nat "SS" = Ok 6%nat.
Proof. repeat split. Qed.

(* ================================================================== *)
(** * C62 *)

Theorem C62_easy_plot : forall (P : Type) dats (params : list P) pcs,
  (1 <= length pcs <= 4)%nat -> (forall pc d, In pc pcs -> In d dats -> In pc (get_keys d)) ->
  exists fig, easy_plot dats params pcs = Ok fig /\ (rows fig * cols fig = length pcs)%nat /\
    Forall2 (shows dats params) pcs (axes fig).
Proof.
  intros P dats params pcs L H. unfold easy_plot.
  destruct (draw_all_spec dats params pcs (length pcs) eq_refl H) as (ax & E & F).
  assert (G : forall r c, (r * c = length pcs)%nat -> exists fig : figure P,
    (do ax <- draw_all dats params pcs (r * c); Ok (mkfig r c ax)) = Ok fig /\ (rows fig * cols fig = length pcs)%nat /\
    Forall2 (shows dats params) pcs (axes fig)).
  { intros r c Q. rewrite Q, E. cbn [bind]. eexists. split; [reflexivity|]. split; [exact Q|exact F]. }
  destruct pcs as [|a [|b [|c [|e [|]]]]]; simpl in L; try lia; clear E F.
  - apply (G 1 1)%nat; reflexivity.
  - apply (G 1 2)%nat; reflexivity.
  - apply (G 1 3)%nat; reflexivity.
  - apply (G 2 2)%nat; reflexivity.
Qed.
Print Assumptions C62_easy_plot.

Theorem C62_too_many : forall (P : Type) dats (params : list P) pcs, (4 < length pcs)%nat ->
  easy_plot dats params pcs = Raise ValueError.
Proof.
  intros P dats params pcs L. unfold easy_plot.
  replace (4 <? Z.of_nat (length pcs))%Z with true by (symmetry; apply Z.ltb_lt; lia). reflexivity.
Qed.
Print Assumptions C62_too_many.

Theorem C62_polar_partial : forall (P : Type) dats (params : list P) pcs,
  (2 <= length pcs)%nat -> dats <> [] -> (forall d, In d dats -> reachable d) ->
  (forall pc d, In pc pcs -> In d dats -> In pc (get_keys d)) ->
  exists fig, easy_polar_plot dats params pcs = Ok fig /\ (rows fig * cols fig = length pcs)%nat /\
    Forall2 (shows dats params) pcs (axes fig).
Proof.
  intros P dats params pcs L N R H.
  destruct (draw_all_spec dats params pcs (length pcs) eq_refl H) as (ax & E & F).
  exists (mkfig 1 (length pcs) ax). split; [|split; [simpl; lia|exact F]].
  unfold easy_polar_plot. destruct pcs as [|a [|b pcs]]; simpl in L; try lia. rewrite E. cbn [bind].
  assert (G : exists ms, mapM get_maxval dats = Ok ms /\ length ms = length dats /\
     forallb (fun m => match m with None => false | Some _ => true end) ms = true).
  { clear N E F. induction dats as [|d dats IH]; [exists []; auto|].
    destruct IH as (ms & E & Lm & A); [intros; apply R; right; auto|intros pc d' I J; apply (H pc d' I); right; auto|].
    assert (Rd : reachable d) by (apply R; left; auto).
    destruct (get_maxval_spec d) as (k & m & Em & _).
    - intros Z. pose proof (H a d (or_introl eq_refl) (or_introl eq_refl)) as K. unfold get_keys in K. rewrite Z in K. destruct K.
    - apply reachable_nonempty; auto.
    - exists (Some (k, m) :: ms). split; [cbn [mapM]; rewrite Em; cbn [bind]; rewrite E; reflexivity|]. split; simpl; auto. }
  destruct G as (ms & Em & Lm & A). rewrite Em. cbn [bind].
  destruct ms as [|m ms]; [destruct dats; [contradiction|discriminate]|]. cbn [bind]. rewrite A. reflexivity.
Qed.
Print Assumptions C62_polar_partial.

(** A single polarization always fails. *)
Theorem C62_polar_refuted : forall (P : Type) dats (params : list P) pc,
  easy_polar_plot dats params [pc] = Raise AttributeError.
Proof. reflexivity. Qed.
Print Assumptions C62_polar_refuted.

Example C62_case : exists fig, easy_plot [cos_dat] [tt] ["PP"%string] = Ok fig /\ rows fig = 1%nat /\ cols fig = 1%nat.
Proof. eexists. repeat split. Qed.

(* ================================================================== *)
(** * C63 *)

Theorem C63_transform_partial : forall files interp names u dark M ms n2o d f,
  load_data_and_fourier_transform files interp names u dark M ms 1 n2o = Ok (d, f) ->
  dat_to_fdat interp d M = Ok f /\
  exists d0, (match dark with
              | Some (dn, du) => load_data_and_dark_subtract files names u dn du n2o
              | None => load_data files names u n2o
              end) = Ok d0 /\ d = (if ms then fst (subtract_min d0) else d0).
Proof.
  intros files interp names u dark M ms n2o d f. unfold load_data_and_fourier_transform.
  destruct (match dark with Some (dn, du) => _ | None => _ end) as [d0|e] eqn:E0; [|discriminate]. cbn [bind].
  destruct (if ms then _ else Ok d0) as [d1|e] eqn:E1; [|discriminate]. cbn [bind].
  destruct (dat_to_fdat interp d1 M) as [f1|e] eqn:E2; [|discriminate]. cbn [bind].
  replace (Reqb 1 1) with true by (symmetry; apply Reqb_true; auto). intros E; injection E as <- <-.
  split; auto. exists d0. split; auto. destruct ms; [|congruence].
  destruct (subtract_min d0) as [d' r] eqn:S. destruct r; [|discriminate]. cbn [bind] in E1. simpl. congruence.
Qed.
Print Assumptions C63_transform_partial.

(** Every other scale fails, after the work is done. *)
Theorem C63_scale_refuted : forall files interp names u dark M ms n2o d f scale,
  load_data_and_fourier_transform files interp names u dark M ms 1 n2o = Ok (d, f) ->
  scale <> 1 -> 0 <= scale ->
  load_data_and_fourier_transform files interp names u dark M ms scale n2o = Raise AttributeError.
Proof.
  intros files interp names u dark M ms n2o d f scale. unfold load_data_and_fourier_transform.
  destruct (match dark with Some (dn, du) => _ | None => _ end) as [d0|e] eqn:E0; [|discriminate]. cbn [bind].
  destruct (if ms then _ else Ok d0) as [d1|e] eqn:E1; [|discriminate]. cbn [bind].
  destruct (dat_to_fdat interp d1 M) as [f1|e] eqn:E2; [|discriminate]. cbn [bind].
  intros _ N P. replace (Reqb scale 1) with false by (symmetry; apply Reqb_false; auto).
  unfold scale_data. replace (Rltb scale 0) with false by (symmetry; apply Rltb_false; lra). reflexivity.
Qed.
Print Assumptions C63_scale_refuted.

Example C63_case : exists d f,
  load_data_and_fourier_transform (fun _ => Ok (sampled 4 (fun x => x))) table_interp [("PP", "pp.csv")]%string "radians" None 1 true 1 false = Ok (d, f).
Proof.
  unfold load_data_and_fourier_transform, load_data, read_all. cbn [mapM bind fst snd].
  change [(KStr "PP", NDArray 2 DFloat [map fst (sampled 4 (fun x => x)); map snd (sampled 4 (fun x => x))])] with (input DFloat [("PP"%string, sampled 4 (fun x => x))]).
  rewrite construct_input; [|repeat constructor; simpl; tauto|repeat constructor; discriminate].
  unfold dmap. cbn [map fst snd bind]. rewrite finish_sampled.
  set (d := mkdat _ 1 0 0 _ _). 
  assert (Ne : nonempty_pcs (dc_data d)) by (repeat constructor; discriminate).
  destruct (get_minval_spec d ltac:(discriminate) Ne) as (k & m & Em & _).
  unfold subtract_min. rewrite Em. cbn [bind].
  set (d' := mkdat _ _ _ _ _ _).
  assert (E : exists f, dat_to_fdat table_interp d' 1 = Ok f).
  { eexists. apply dat_to_fdat_spec; [apply table_exact|repeat constructor; simpl; tauto|].
    intros k0 p I. apply In_dmap in I as (v & [J|[]] & ->).
    assert (v = sampled 4 (fun x => x)) by exact (eq_sym (f_equal snd J)). subst v. clear J.
    unfold map_y. rewrite map_length. change (length (sampled 4 (fun x => x))) with 4%nat. split; [|split; [lia|eexists; reflexivity]].
    rewrite map_map. apply (sampled_fst 4 (fun x => x)). }
  destruct E as [f E]. rewrite E. cbn [bind]. replace (Reqb 1 1) with true by (symmetry; apply Reqb_true; auto). eauto.
Qed.
