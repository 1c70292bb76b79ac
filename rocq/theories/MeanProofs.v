(** The mean of a signal that is never negative bounds its Fourier coefficients. *)
From Coq Require Import String List Arith ZArith Reals Lra Lia Permutation.
From Coquelicot Require Import Complex.
Import ListNotations.
From Verif Require Import PyBase CBase RMod DataModel SpecData DataProofs2 FDataModel SpecFData FDataProofs FDataProofs2 SpecFit FitProofs SpecMean SpecHerm HermProofs.
Local Open Scope R_scope.

Lemma Csum_bound {A} (y : A -> R) (u : A -> C) l : (forall a, In a l -> 0 <= y a) -> (forall a, Cmod (u a) = 1) ->
  Cmod (Csum (fun a => Cmult (RtoC (y a)) (u a)) l) <= rsum y l.
Proof.
  intros P U. induction l as [|a l IH]; [rewrite Csum_nil, Cmod_0; cbn; lra|]. rewrite Csum_cons. change (rsum y (a :: l)) with (y a + rsum y l).
  eapply Rle_trans; [apply Cmod_triangle|]. apply Rplus_le_compat.
  - rewrite Cmod_mult, U, Cmod_R, Rabs_right; [lra|]. apply Rle_ge, P. left; reflexivity.
  - apply IH. intros b J. apply P. right; exact J.
Qed.

Lemma dft_zero p : dft p 0 = RtoC (mean p).
Proof.
  unfold dft, mean. rewrite (Csum_ext _ (fun q => RtoC (snd q))).
  - assert (E : forall l : list (R * R), Csum (fun q => RtoC (snd q)) l = RtoC (rsum snd l)).
    { induction l as [|q l IH]; [reflexivity|]. rewrite Csum_cons, IH, <- RtoC_plus. reflexivity. }
    rewrite E, <- RtoC_mult. f_equal. unfold Rdiv. ring.
  - intros q. replace (- 0 * fst q) with 0 by ring. rewrite cis_0. ring.
Qed.
Lemma dft_bound p m : (forall x y, In (x, y) p -> 0 <= y) -> Cmod (dft p m) <= mean p.
Proof.
  intros P. unfold dft, mean. rewrite Cmod_mult. destruct p as [|q p].
  - rewrite Csum_nil, Cmod_0. cbn. lra.
  - assert (L : 0 < INR (length (q :: p))) by (apply lt_0_INR; cbn; lia).
    rewrite Cmod_R, Rabs_right by (apply Rle_ge; left; apply Rinv_0_lt_compat, L). unfold Rdiv. rewrite (Rmult_comm (rsum _ _)).
    apply Rmult_le_compat_l; [left; apply Rinv_0_lt_compat, L|]. apply Csum_bound; [intros [x y] I; exact (P x y I)|intros a; apply Cmod_cis].
Qed.

Lemma intensity_dominated M v : (length v = 2 * M + 1)%nat -> (forall x, Im (series M v x) = 0 /\ 0 <= Re (series M v x)) -> dominated M v.
Proof.
  intros L H. assert (Hv : hermitian M v) by (apply hermitian_iff; intros x; apply H).
  set (p := sampled (2 * M + 1) (fun x => Re (series M v x))).
  assert (E : forall m, (Z.abs m <= Z.of_nat M)%Z -> dft p m = coef M v m) by (intros m B; apply no_alias; auto; lia).
  assert (P : forall x y, In (x, y) p -> 0 <= y).
  { intros x y I. unfold p, sampled in I. apply in_map_iff in I as (t & X & _). injection X as <- <-. apply H. }
  unfold dominated. rewrite <- (E 0%Z) by lia. rewrite dft_zero. split; [reflexivity|]. intros m B. rewrite <- (E m B). apply (dft_bound p m P).
Qed.

(** histories *)
Lemma scale_dominated M s v : 0 <= s -> (length v = 2 * M + 1)%nat -> dominated M v -> dominated M (map (Cmult (RtoC s)) v).
Proof.
  intros P L [I H]. unfold dominated. rewrite coef_scale by (auto; lia).
  assert (E : Re (Cmult (RtoC s) (coef M v 0)) = s * Re (coef M v 0)) by (unfold Re, Cmult, RtoC; cbn [fst snd]; ring). split.
  - unfold Im, Cmult, RtoC in *. cbn [fst snd]. rewrite I. ring.
  - intros m B. rewrite coef_scale by auto. rewrite E, Cmod_scale by exact P. apply Rmult_le_compat_l; auto.
Qed.
Lemma shift_dominated M a v : (length v = 2 * M + 1)%nat -> dominated M v -> dominated M (shift_row M a v).
Proof.
  intros L [I H]. unfold dominated. rewrite shift_row_coef by (auto; lia). replace (0 * a) with 0 by ring.
  rewrite cis_0, Cmult_1_r. split; [exact I|]. intros m B. rewrite shift_row_coef by auto. rewrite Cmod_mult, Cmod_cis, Rmult_1_r. auto.
Qed.
Definition rows_dominated (f : fdat) : Prop := forall k v, fget_pc f k = Ok v -> dominated (fd_M f) v.
Lemma dominated_dmap f g s p : fwf f -> (forall v, (length v = 2 * fd_M f + 1)%nat -> dominated (fd_M f) v -> dominated (fd_M f) (g v)) ->
  rows_dominated f -> rows_dominated (mkfdat (dmap g (fd_data f)) s p (fd_M f)).
Proof.
  intros [W L] G H k v E. unfold fget_pc, dgetr in E. cbn [fd_data fd_M] in *. rewrite dget_dmap in E.
  destruct (dget k (fd_data f)) as [w|] eqn:D; [|discriminate]. cbn in E. injection E as <-. apply G.
  - rewrite Forall_forall in L. apply dget_In in D. exact (L _ D).
  - apply (H k). unfold fget_pc, dgetr. now rewrite D.
Qed.
Lemma scale_rows f s : fwf f -> rows_dominated f -> rows_dominated (fst (scale_fdata f s)).
Proof.
  intros W H. unfold scale_fdata. destruct (Rltb s 0) eqn:S; [exact H|]. cbn [fst]. apply Rltb_false in S.
  apply dominated_dmap; auto. intros v. apply scale_dominated. lra.
Qed.
Lemma step_rows f o : fwf f -> rows_dominated f -> rows_dominated (fst (fstep f o)).
Proof.
  intros W H. destruct o as [s|x|a n u]; cbn [fstep].
  - apply scale_rows; auto.
  - unfold normalize_fdata. destruct (fget_maxval f) as [[[k m]|]|e]; cbn [fst]; auto.
    + destruct (Reqb m 0); [destruct (Rltb x 0); exact H|]. apply scale_rows; auto.
    + apply scale_rows; auto.
  - unfold phase_shift_fdata. destruct (check_angle_units (lower u)); cbn [fst]; auto. cbv zeta.
    destruct (phase_add _ _ _); cbn [fst]; apply dominated_dmap; auto; intros v; apply shift_dominated.
Qed.
Lemma run_rows h : forall f, fwf f -> rows_dominated f -> rows_dominated (frun f h).
Proof. induction h as [|o h IH]; intros f W H; [exact H|]. cbn [frun]. apply IH; [apply fstep_wf, W|apply step_rows; auto]. Qed.

(** the largest magnitude is the largest mean *)
Lemma coef_In M v m : (length v = 2 * M + 1)%nat -> (Z.abs m <= Z.of_nat M)%Z -> In (coef M v m) v.
Proof. intros L B. apply nth_In. lia. Qed.
Lemma In_coef M v z : (length v = 2 * M + 1)%nat -> In z v -> exists m, (Z.abs m <= Z.of_nat M)%Z /\ z = coef M v m.
Proof.
  intros L I. rewrite (list_by_coef M v L) in I. apply in_map_iff in I as (m & <- & I). apply In_freqs in I. exists m. split; [lia|reflexivity].
Qed.
Lemma dominated_max M v z : (length v = 2 * M + 1)%nat -> dominated M v -> In z v -> Cmod z <= Re (coef M v 0).
Proof. intros L [_ H] I. destruct (In_coef M v z L I) as (m & B & ->). apply H, B. Qed.
Lemma dominated_zero M v : dominated M v -> 0 <= Re (coef M v 0) /\ Cmod (coef M v 0) = Re (coef M v 0).
Proof.
  intros [I H]. assert (P : 0 <= Re (coef M v 0)) by (eapply Rle_trans; [apply Cmod_ge_0|apply (H 0%Z); lia]).
  split; [exact P|]. replace (coef M v 0) with (RtoC (Re (coef M v 0))) at 1.
  - rewrite Cmod_R, Rabs_right; lra.
  - apply C_ext; [reflexivity|]. rewrite I. reflexivity.
Qed.
Lemma pc_In f k v : fwf f -> (fget_pc f k = Ok v <-> In (k, v) (fd_data f)).
Proof.
  intros [W _]. unfold fget_pc, dgetr. split.
  - destruct (dget k (fd_data f)) as [w|] eqn:D; [|discriminate]. intros E. injection E as <-. apply dget_In, D.
  - intros I. rewrite (In_dget k v (fd_data f) W I). reflexivity.
Qed.

Lemma largest_mean f : fwf f -> fd_data f <> [] -> rows_dominated f ->
  exists k v, fget_maxval f = Ok (Some (k, Re (coef (fd_M f) v 0))) /\ fget_pc f k = Ok v /\
    (forall k' v', fget_pc f k' = Ok v' -> Re (coef (fd_M f) v' 0) <= Re (coef (fd_M f) v 0)) /\
    is_max (mag_of (fd_data f)) (Re (coef (fd_M f) v 0)).
Proof.
  intros W N H. destruct (fget_maxval_spec f W N) as (k & m & E & (_ & d1 & p & d2 & Ed & (x & Ix) & _) & Mx).
  assert (I : In (k, p) (dmap as_pts (fd_data f))) by (rewrite Ed; apply in_or_app; right; left; reflexivity).
  apply In_dmap in I as (v & I & ->). apply in_map_iff in Ix as (z & Ez & Iz). injection Ez as _ Ez.
  pose proof (proj2 (pc_In f k v W) I) as G. pose proof (fget_pc_length f k v W G) as L.
  assert (Em : m = Re (coef (fd_M f) v 0)).
  { apply Rle_antisym.
    - rewrite <- Ez. apply dominated_max; auto. exact (H k v G).
    - rewrite <- (proj2 (dominated_zero _ _ (H k v G))). apply (proj2 Mx). exists k, v, (coef (fd_M f) v 0). split; [exact I|]. split; [|reflexivity]. apply coef_In; auto. lia. }
  subst m. rewrite Em in *. exists k, v. split; [exact E|]. split; [exact G|]. split; [|exact Mx].
  intros k' v' G'. rewrite <- (proj2 (dominated_zero _ _ (H k' v' G'))). apply (proj2 Mx).
  exists k', v', (coef (fd_M f) v' 0). split; [apply (pc_In f k' v' W), G'|]. split; [|reflexivity]. apply coef_In; [exact (fget_pc_length f k' v' W G')|lia].
Qed.

Lemma normalize_mean f x k0 v0 : fwf f -> rows_dominated f -> fget_pc f k0 = Ok v0 -> 0 < Re (coef (fd_M f) v0 0) -> 0 <= x ->
  exists f', normalize_fdata f x = (f', Ok tt) /\ fd_M f' = fd_M f /\
    (exists k v, fget_pc f' k = Ok v /\ coef (fd_M f) v 0 = RtoC x) /\
    forall k v, fget_pc f' k = Ok v -> Im (coef (fd_M f) v 0) = 0 /\ 0 <= Re (coef (fd_M f) v 0) <= x.
Proof.
  intros W H G0 P X. assert (N : fd_data f <> []). { intros E. unfold fget_pc in G0. rewrite E in G0. discriminate G0. }
  destruct (largest_mean f W N H) as (k & v & _ & G & Le & Mx). pose proof (Le k0 v0 G0) as L0.
  set (m := Re (coef (fd_M f) v 0)) in *. assert (Pm : 0 < m) by lra.
  destruct (normalize_fspec f m x W Mx Pm X) as (f' & E & _ & D & _). exists f'. split; [exact E|].
  assert (M' : fd_M f' = fd_M f).
  { pose proof (proj2 (fstep_wf f (FNormalize x) W)) as Q. cbn [fstep] in Q. rewrite E in Q. exact Q. }
  split; [exact M'|].
  assert (Q : 0 <= x / m) by (apply Rmult_le_pos; auto; left; apply Rinv_0_lt_compat; auto).
  assert (K : forall k v, fget_pc f' k = Ok v -> exists w, fget_pc f k = Ok w /\ v = map (Cmult (RtoC (x / m))) w).
  { intros k1 v1 G1. unfold fget_pc, dgetr in *. rewrite D, dget_dmap in G1. destruct (dget k1 (fd_data f)) as [w|]; [|discriminate].
    cbn in G1. injection G1 as <-. exists w. split; reflexivity. }
  assert (Z : forall k w, fget_pc f k = Ok w -> coef (fd_M f) (map (Cmult (RtoC (x / m))) w) 0 = RtoC (x / m * Re (coef (fd_M f) w 0))).
  { intros k1 w G1. rewrite coef_scale by (try exact (fget_pc_length f k1 w W G1); lia). destruct (H k1 w G1) as [I _].
    apply C_ext; unfold Re, Im, Cmult, RtoC in *; cbn [fst snd] in *; rewrite ?I; ring. }
  split.
  - exists k, (map (Cmult (RtoC (x / m))) v). split.
    + unfold fget_pc, dgetr in *. rewrite D, dget_dmap. destruct (dget k (fd_data f)) as [w|]; [|discriminate]. injection G as ->. reflexivity.
    + rewrite (Z k v G). fold m. f_equal. field. lra.
  - intros k1 v1 G1. destruct (K k1 v1 G1) as (w & Gw & ->). rewrite (Z k1 w Gw). split; [reflexivity|]. cbn [Re RtoC fst].
    pose proof (Le k1 w Gw) as Lw. pose proof (proj1 (dominated_zero _ _ (H k1 w Gw))) as Pw. split.
    + apply Rmult_le_pos; auto.
    + apply Rle_trans with (x / m * m); [apply Rmult_le_compat_l; auto|]. right. field. lra.
Qed.

Lemma data_mean interp d n M : exact_at_nodes interp -> accepts interp n -> (2 <= n)%nat -> wf_dict (dc_data d) ->
  (forall k p, In (k, p) (dc_data d) -> length p = n /\ equally_spaced p) ->
  (forall k p x y, In (k, p) (dc_data d) -> In (x, y) p -> 0 <= y) ->
  exists f, dat_to_fdat interp d M = Ok f /\ fget_keys f = get_keys d /\ fget_M f = M /\
    forall k p, In (k, p) (dc_data d) -> exists v, fget_pc f k = Ok v /\ dominated M v /\ coef M v 0 = RtoC (mean p).
Proof.
  intros X A N W S P. eexists. split.
  - apply (dat_to_fdat_spec interp d M X W). intros k p I. destruct (S k p I) as [L E]. split; [exact E|]. split; [lia|].
    apply A; [exact L|]. rewrite E. exact (grid_NoDup (length p)).
  - split; [unfold fget_keys, get_keys; cbn [fd_data]; apply dkeys_dmap|]. split; [reflexivity|]. intros k p I.
    exists (map (dft p) (freqs M)). split.
    + unfold fget_pc, dgetr. cbn [fd_data]. rewrite dget_dmap, (In_dget k p (dc_data d) W I). reflexivity.
    + assert (E0 : coef M (map (dft p) (freqs M)) 0 = RtoC (mean p)) by (rewrite coef_map_freqs by lia; apply dft_zero).
      split; [|exact E0]. unfold dominated. rewrite E0. split; [reflexivity|]. intros m B. rewrite coef_map_freqs by exact B.
      apply dft_bound. intros x y J. exact (P k p x y I J).
Qed.
