(** Lemmas on coefficients stored in single precision. *)
From Coq Require Import Reals ZArith List String Lia Lra.
From Flocq Require Import Core Relative.
From Coquelicot Require Import Complex.
From Verif Require Import PyBase RMod CBase SpecData DataModel DataProofs DataProofs2 FDataModel SpecFData FDataProofs LinProofs
  FloatModel FloatProofs FloatProofs2 SpecFloat SpecFloat2 FloatModel2.
Import ListNotations.
Local Open Scope R_scope.

#[global] Instance valid32 : Valid_exp exp32.
Proof. unfold exp32. apply FLT_exp_valid. reflexivity. Qed.

Lemma eps32_bpow : eps32 = bpow radix2 (-24).
Proof. unfold eps32. rewrite bpow_powerRZ. reflexivity. Qed.
Lemma eps32_num : eps32 = / 16777216.
Proof. unfold eps32. f_equal. lra. Qed.
Lemma tiny32 : 0 < bpow radix2 (-150) <= / 10 ^ 45.
Proof.
  split; [apply bpow_gt_0|]. rewrite bpow_powerRZ. change (powerRZ 2 (-150)) with (/ 2 ^ 150).
  apply Rinv_le_contravar; [apply pow_lt; lra|]. change 10 with (IZR 10). change 2 with (IZR 2). rewrite !pow_IZR. apply IZR_le. vm_compute. discriminate.
Qed.
Lemma rnd32_single x : single (rnd32 x).
Proof.
  assert (H : generic_format radix2 exp32 (rnd32 x)) by (apply generic_format_round; [apply valid32|apply valid_rnd_N]).
  apply FLT_format_generic in H; [|reflexivity]. destruct H as [[m e] E M K]. exists m, e. rewrite <- bpow_powerRZ. split; [exact E|]. split; [exact M|exact K].
Qed.
Lemma rnd32_id x : single x -> rnd32 x = x.
Proof.
  intros (m & e & -> & M & E). apply round_generic; [apply valid_rnd_N|]. apply generic_format_FLT.
  exists (Float radix2 m e); [unfold F2R; cbn [Fnum Fexp]; rewrite bpow_powerRZ; reflexivity|exact M|exact E].
Qed.
Lemma rnd32_relative x : Rabs (rnd32 x - x) <= eps32 * Rabs x + / 10 ^ 45.
Proof.
  pose proof tiny32 as [T0 T1]. rewrite eps32_bpow.
  assert (G : Rabs (rnd32 x - x) <= bpow radix2 (-24) * Rabs x + bpow radix2 (-150)); [|lra].
  destruct (Rle_lt_dec (bpow radix2 (-126)) (Rabs x)) as [L|L].
  - assert (H : Rabs (rnd32 x - x) <= / 2 * bpow radix2 (- (24) + 1) * Rabs x).
    { unfold rnd32, exp32. apply (relative_error_N_FLT radix2 (-149) 24 ltac:(reflexivity)). exact L. }
    replace (/ 2 * bpow radix2 (- (24) + 1)) with (bpow radix2 (-24)) in H by (replace (/ 2) with (bpow radix2 (-1)) by reflexivity; rewrite <- bpow_plus; reflexivity).
    lra.
  - assert (H : Rabs (rnd32 x - x) <= / 2 * ulp radix2 exp32 x) by (apply error_le_half_ulp; apply valid32).
    assert (U : / 2 * ulp radix2 exp32 x <= bpow radix2 (-150)).
    { replace (/ 2) with (bpow radix2 (-1)) by reflexivity. destruct (Req_dec x 0) as [->|N].
      - unfold exp32. rewrite ulp_FLT_0 by reflexivity. rewrite <- bpow_plus. apply bpow_le. lia.
      - rewrite ulp_neq_0 by exact N. unfold cexp. assert (M : (mag radix2 x <= -126)%Z) by (apply mag_le_bpow; assumption).
        rewrite <- bpow_plus. apply bpow_le. unfold exp32, FLT_exp. lia. }
    pose proof (Rabs_pos x). pose proof (bpow_gt_0 radix2 (-24)). nra.
Qed.
Lemma rnd32_le x y : x <= y -> rnd32 x <= rnd32 y.
Proof. apply round_le; [apply valid32|apply valid_rnd_N]. Qed.
Lemma limit32 : 2 * 10 ^ 38 <= 2 ^ 128.
Proof. change 10 with (IZR 10). change 2 with (IZR 2). rewrite !pow_IZR, <- mult_IZR. apply IZR_le. vm_compute. discriminate. Qed.

(** One part of a coefficient: [z] exact, [w] computed. *)
Lemma part32_near e z w : Rabs (w - z) <= e -> Rabs z + e <= 10 ^ 38 ->
  exists r, part32 w = Ok r /\ single r /\ Rabs (r - z) <= eps32 * Rabs z + 2 * e + / 10 ^ 45.
Proof.
  intros W B. pose proof (rnd32_relative w) as H. assert (Ep : 0 < eps32 <= / 4) by (rewrite eps32_num; lra).
  assert (T : 0 < / 10 ^ 45 <= 1) by (pose proof (pow_R1_Rle 10 45 ltac:(lra)); split; [apply Rinv_0_lt_compat, pow_lt; lra|rewrite <- Rinv_1; apply Rinv_le_contravar; lra]).
  assert (Wz : Rabs w <= Rabs z + e).
  { replace w with (z + (w - z)) by ring. eapply Rle_trans; [apply Rabs_triang|]. lra. }
  assert (E0 : 0 <= e) by (pose proof (Rabs_pos (w - z)); lra). pose proof (Rabs_pos w) as Pw. pose proof (Rabs_pos z) as Pz.
  assert (P38 : 2 <= 10 ^ 38) by (pose proof (pow_R1_Rle 10 37 ltac:(lra)); change (10 ^ 38) with (10 * 10 ^ 37); lra).
  pose proof limit32 as Li.
  exists (rnd32 w). unfold part32. assert (Rb : Rabs (rnd32 w) < 2 ^ 128).
  { replace (rnd32 w) with (w + (rnd32 w - w)) by ring. eapply Rle_lt_trans; [apply Rabs_triang|].
    assert (eps32 * Rabs w <= / 4 * Rabs w) by (apply Rmult_le_compat_r; lra). lra. }
  rewrite (proj2 (Rltb_true _ _) Rb). split; [reflexivity|]. split; [apply rnd32_single|].
  replace (rnd32 w - z) with ((rnd32 w - w) + (w - z)) by ring. eapply Rle_trans; [apply Rabs_triang|].
  assert (eps32 * Rabs w <= eps32 * (Rabs z + e)) by (apply Rmult_le_compat_l; lra).
  assert (eps32 * e <= / 4 * e) by (apply Rmult_le_compat_r; lra). lra.
Qed.
Lemma Re_le_Cmod (z : C) : Rabs (Re z) <= Cmod z /\ Rabs (Im z) <= Cmod z.
Proof.
  assert (H := Rmax_Cmod z). unfold Re, Im. pose proof (Rmax_l (Rabs (fst z)) (Rabs (snd z))). pose proof (Rmax_r (Rabs (fst z)) (Rabs (snd z))). lra.
Qed.
Lemma store32_near e z w : Cmod (Cminus w z) <= e -> Cmod z + e <= 10 ^ 38 -> exists r, store32 w = Ok r /\ in_single e z r.
Proof.
  intros W B. destruct (Re_le_Cmod (Cminus w z)) as [W1 W2]. destruct (Re_le_Cmod z) as [B1 B2].
  destruct (part32_near e (Re z) (Re w)) as (x & Ex & Sx & Nx); [replace (Re w - Re z) with (Re (Cminus w z)) by (unfold Re, Cminus, Cplus, Copp; simpl; ring); lra|lra|].
  destruct (part32_near e (Im z) (Im w)) as (y & Ey & Sy & Ny); [replace (Im w - Im z) with (Im (Cminus w z)) by (unfold Im, Cminus, Cplus, Copp; simpl; ring); lra|lra|].
  exists (x, y). unfold store32. rewrite Ex. cbn [bind]. rewrite Ey. cbn [bind]. split; [reflexivity|]. split; (split; [assumption|assumption]).
Qed.

Section Stored.
Variables (interp : list (R * R) -> res (R -> R)) (comp : list (R * R) -> Z -> C -> C) (e : R) (M : nat).

Lemma stored_row p v : mapM (fourier_entry interp p) (freqs M) = Ok v ->
  (forall m z, Cmod (Cminus (comp p m z) z) <= e) -> Forall (fun z => Cmod z + e <= 10 ^ 38) v ->
  exists v', mapM (entry32 interp comp p) (freqs M) = Ok v' /\ Forall2 (in_single e) v v'.
Proof.
  revert v. induction (freqs M) as [|m l IH]; cbn [mapM]; intros v H E B.
  - injection H as <-. exists []. split; [reflexivity|constructor].
  - unfold entry32 at 1. destruct (fourier_entry interp p m) as [z|x]; [|discriminate]. cbn [bind] in *.
    destruct (mapM (fourier_entry interp p) l) as [r|x] eqn:Er; [|discriminate]. cbn [bind] in H. injection H as <-.
    inversion B as [|? ? Bz Br]; subst. destruct (store32_near e z (comp p m z) (E m z) Bz) as (s & Es & Ns). rewrite Es. cbn [bind].
    destruct (IH r eq_refl E Br) as (v' & Ev & Nv). rewrite Ev. cbn [bind]. exists (s :: v'). split; [reflexivity|constructor; assumption].
Qed.
Lemma stored_rows l r : Forall2 (rows_of interp M) l r ->
  (forall k p, In (k, p) l -> forall m z, Cmod (Cminus (comp p m z) z) <= e) ->
  Forall (fun kv => Forall (fun z => Cmod z + e <= 10 ^ 38) (snd kv)) r ->
  exists r', dmapM (fun p => mapM (entry32 interp comp p) (freqs M)) l = Ok r' /\
    Forall2 (fun a b => fst b = fst a /\ Forall2 (in_single e) (snd a) (snd b)) r r'.
Proof.
  induction 1 as [|[k p] [k' v] l r [K T] F IH]; intros E B.
  - exists []. split; [reflexivity|constructor].
  - cbn [fst snd] in *. subst k'. inversion B as [|? ? Bv Br]; subst. cbn [snd] in Bv. apply mapM_entry in T.
    destruct (stored_row p v T (E k p (or_introl eq_refl)) Bv) as (v' & Ev & Nv). cbn [dmapM]. rewrite Ev. cbn [bind].
    destruct (IH (fun k0 p0 I => E k0 p0 (or_intror I)) Br) as (r' & Er & Nr). rewrite Er. cbn [bind].
    exists ((k, v') :: r'). split; [reflexivity|]. constructor; [split; [reflexivity|exact Nv]|exact Nr].
Qed.
Lemma stored_fdat d f : wf_dict (dc_data d) -> dat_to_fdat interp d M = Ok f ->
  (forall k p, In (k, p) (dc_data d) -> forall m z, Cmod (Cminus (comp p m z) z) <= e) ->
  Forall (fun kv => Forall (fun z => Cmod z + e <= 10 ^ 38) (snd kv)) (fd_data f) ->
  exists r', dat_to_fdat32 interp comp d M = Ok (mkfdat r' 1 (PNum 0) M) /\ fwf f /\ fd_M f = M /\ fwf (mkfdat r' 1 (PNum 0) M) /\
    Forall2 (fun a b => fst b = fst a /\ Forall2 (in_single e) (snd a) (snd b)) (fd_data f) r'.
Proof.
  intros W H E B. apply (transform_rows interp d M f W) in H as (r & F & ->). cbn [fd_data fd_M] in *.
  destruct (stored_rows _ _ F E B) as (r' & Er & Nr). exists r'. unfold dat_to_fdat32. rewrite Er. cbn [bind].
  assert (Wr : fwf (mkfdat r 1 (PNum 0) M)).
  { split; cbn [fd_data fd_M].
    - unfold wf_dict, dkeys in *. rewrite <- (rows_keys interp M _ _ F). exact W.
    - clear -F. induction F as [|a b l r [_ (g & _ & _ & Q)] _ IH]; constructor; auto. rewrite Q, map_length, length_freqs. reflexivity. }
  assert (Wr' : fwf (mkfdat r' 1 (PNum 0) M)).
  { destruct Wr as [W1 W2]. split; cbn [fd_data fd_M] in *.
    - unfold wf_dict, dkeys in *. replace (map fst r') with (map fst r); [exact W1|]. clear -Nr. induction Nr as [|a b l l' [Q _] _ IH]; [reflexivity|]. cbn [map]. now rewrite Q, IH.
    - clear -Nr W2. induction Nr as [|a b l l' [_ Q] _ IH]; constructor; inversion W2; subst; auto.
      assert (Lq : forall u u' : list C, Forall2 (in_single e) u u' -> List.length u' = List.length u) by (induction 1; cbn [List.length]; congruence).
      rewrite (Lq _ _ Q). assumption. }
  split; [apply fconstruct_items; exact Wr'|]. split; [exact Wr|]. split; [reflexivity|]. split; [exact Wr'|exact Nr].
Qed.
End Stored.

(** The two curves. *)
Lemma Cmod_Ci : Cmod Ci = 1.
Proof. unfold Cmod, Ci. cbn [fst snd]. replace (0 ^ 2 + 1 ^ 2) with 1 by ring. apply sqrt_1. Qed.
Lemma in_single_Cmod e z z' B : in_single e z z' -> Cmod z <= B -> Cmod (Cminus z' z) <= 2 * (eps32 * B + 2 * e + / 10 ^ 45).
Proof.
  intros [[_ H1] [_ H2]] L. destruct (Re_le_Cmod z) as [B1 B2]. assert (Ep : 0 < eps32) by (rewrite eps32_num; lra).
  assert (Q := Cmod_2Rmax (Cminus z' z)).
  assert (T : Cmod (Cminus z' z) <= Rabs (Re z' - Re z) + Rabs (Im z' - Im z)).
  { replace (Cminus z' z) with (Cplus (RtoC (Re z' - Re z)) (Cmult Ci (RtoC (Im z' - Im z)))).
    - eapply Rle_trans; [apply Cmod_triangle|]. rewrite Cmod_mult, !Cmod_R, Cmod_Ci. lra.
    - apply injective_projections; unfold Re, Im, Cminus, Cplus, Cmult, Copp, RtoC, Ci; simpl; ring. }
  assert (eps32 * Rabs (Re z) <= eps32 * B) by (apply Rmult_le_compat_l; lra).
  assert (eps32 * Rabs (Im z) <= eps32 * B) by (apply Rmult_le_compat_l; lra). lra.
Qed.
Lemma Csum_Cmod {A} (f : A -> C) b l : (forall a, In a l -> Cmod (f a) <= b) -> Cmod (Csum f l) <= INR (List.length l) * b.
Proof.
  induction l as [|a l IH]; intros H.
  - cbn [List.length INR]. rewrite Csum_nil, Cmod_0. lra.
  - rewrite Csum_cons. eapply Rle_trans; [apply Cmod_triangle|].
    change (List.length (a :: l)) with (S (List.length l)). rewrite S_INR. specialize (IH (fun a0 I => H a0 (or_intror I))). specialize (H a (or_introl eq_refl)). lra.
Qed.
Lemma Forall2_nth {A B} (P : A -> B -> Prop) l l' i a b : Forall2 P l l' -> (i < List.length l)%nat -> P (nth i l a) (nth i l' b).
Proof.
  intros F. revert i. induction F as [|x y l l' H _ IH]; intros [|i] L; cbn [List.length nth] in *; try lia; [exact H|]. apply IH. lia.
Qed.
Lemma series_near e M v v' B x : List.length v = (2 * M + 1)%nat -> Forall2 (in_single e) v v' -> Forall (fun z => Cmod z <= B) v ->
  Rabs (Re (series M v' x) - Re (series M v x)) <= INR (2 * M + 1) * (2 * (eps32 * B + 2 * e + / 10 ^ 45)).
Proof.
  intros L F Bd.
  replace (Re (series M v' x) - Re (series M v x)) with (Re (Csum (fun m => Cmult (Cminus (coef M v' m) (coef M v m)) (cis (IZR m * x))) (freqs M))).
  - eapply Rle_trans; [apply Re_le_Cmod|]. rewrite <- (length_freqs M). apply Csum_Cmod. intros m I. apply In_freqs in I.
    rewrite Cmod_mult, Cmod_cis, Rmult_1_r. unfold coef. apply in_single_Cmod.
    + apply Forall2_nth; [exact F|lia].
    + rewrite Forall_forall in Bd. apply Bd. apply nth_In. lia.
  - unfold series. replace (Csum (fun m => Cmult (Cminus (coef M v' m) (coef M v m)) (cis (IZR m * x))) (freqs M))
      with (Cminus (Csum (fun m => Cmult (coef M v' m) (cis (IZR m * x))) (freqs M)) (Csum (fun m => Cmult (coef M v m) (cis (IZR m * x))) (freqs M))).
    + unfold Re, Cminus, Cplus, Copp. simpl. ring.
    + unfold Cminus. rewrite <- Csum_opp, <- Csum_plus. apply Csum_ext. intros m. ring.
Qed.

(** With exact sums the stored row is the rounded row. *)
Lemma exact_row interp M p v v' : mapM (fourier_entry interp p) (freqs M) = Ok v -> mapM store32 v = v' ->
  mapM (entry32 interp (fun _ _ z => z) p) (freqs M) = v'.
Proof.
  revert v v'. induction (freqs M) as [|m l IH]; cbn [mapM]; intros v v' H E.
  - injection H as <-. exact E.
  - unfold entry32 at 1. destruct (fourier_entry interp p m) as [z|x]; [|discriminate]. cbn [bind] in *.
    destruct (mapM (fourier_entry interp p) l) as [r|x] eqn:Er; [|discriminate]. cbn [bind] in H. injection H as <-.
    cbn [mapM] in E. destruct (store32 z) as [s|x]; cbn [bind] in *; [|exact E].
    rewrite (IH r (mapM store32 r) eq_refl eq_refl). exact E.
Qed.
Lemma exact_one interp M d f k v : wf_dict (dc_data d) -> dat_to_fdat interp d M = Ok f -> fd_data f = [(k, v)] ->
  dat_to_fdat32 interp (fun _ _ z => z) d M = (do v' <- mapM store32 v; fconstruct (fitems [(k, v')]) M).
Proof.
  intros W H E. apply (transform_rows interp d M f W) in H as (r & F & ->). cbn [fd_data] in E. subst r.
  unfold dat_to_fdat32. inversion F as [|[k0 p] b l l' [K T] F' El Eb]; subst. inversion F'; subst. cbn [fst snd] in *. subst k0.
  apply mapM_entry in T. cbn [dmapM]. rewrite (exact_row interp M p v (mapM store32 v) T eq_refl). destruct (mapM store32 v); reflexivity.
Qed.
Lemma rnd32_close : rnd32 (1 + / 2 ^ 30) = 1.
Proof.
  replace (1 + / 2 ^ 30) with (1 + / 1073741824) by (f_equal; f_equal; lra).
  unfold rnd32, round, F2R, scaled_mantissa, cexp.
  assert (Mg : mag radix2 (1 + / 1073741824) = 1%Z :> Z).
  { apply mag_unique. rewrite Rabs_pos_eq by lra. change (bpow radix2 (1 - 1)) with 1. change (bpow radix2 1) with 2. lra. }
  rewrite Mg. change (exp32 1) with (-23)%Z. change (bpow radix2 (- (-23))) with 8388608. cbn [Fnum Fexp].
  assert (Z0 : ZnearestE ((1 + / 1073741824) * 8388608) = 8388608%Z) by (apply Znearest_imp; apply Rabs_def1; lra).
  rewrite Z0. change (bpow radix2 (-23)) with (/ 8388608). lra.
Qed.
Lemma rnd32_large : 2 ^ 128 <= rnd32 (10 ^ 39).
Proof.
  assert (E : rnd32 (2 ^ 128) = 2 ^ 128).
  { apply rnd32_id. exists 1%Z, 128%Z. split; [rewrite Rmult_1_l; reflexivity|]. split; [reflexivity|lia]. }
  rewrite <- E at 1. apply rnd32_le. change 10 with (IZR 10). change 2 with (IZR 2). rewrite !pow_IZR. apply IZR_le. vm_compute. discriminate.
Qed.
