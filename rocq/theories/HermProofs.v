(** Real signals and Hermitian coefficients. *)
From Coq Require Import String List Arith ZArith Reals QArith Lra Lia Permutation.
From Coquelicot Require Import Complex.
Import ListNotations.
From Verif Require Import PyBase CBase RMod Expr DataModel FDataModel SpecFData FDataProofs FourierBase FormModel SpecForm FitModel SpecFit FitProofs LsqProofs2 LinProofs PipeProofs SpecHerm.
Local Open Scope nat_scope.

Lemma freqs_opp M : Permutation (freqs M) (map Z.opp (freqs M)).
Proof.
  apply NoDup_Permutation; [apply NoDup_zrange|apply FinFun.Injective_map_NoDup; [intros a b; lia|apply NoDup_zrange]|].
  intros z. rewrite in_map_iff. rewrite In_freqs. split.
  - intros I. exists (- z)%Z. rewrite In_freqs. lia.
  - intros [y [<- I]]. apply In_freqs in I. lia.
Qed.

Lemma Im0_conj (z : C) : Im z = 0%R -> Cconj z = z.
Proof. intros H. apply C_ext; unfold Re, Im, Cconj in *; cbn [fst snd] in *; lra. Qed.
Lemma conj_Im0 (z : C) : Cconj z = z -> Im z = 0%R.
Proof. intros H. apply (f_equal Im) in H. unfold Im, Cconj in *. cbn [fst snd] in H. lra. Qed.

Lemma trig_conj (c : Z -> C) M x :
  Cconj (Csum (fun m => Cmult (c m) (cis (IZR m * x))) (freqs M)) = Csum (fun m => Cmult (Cconj (c (- m)%Z)) (cis (IZR m * x))) (freqs M).
Proof.
  rewrite Csum_conj, (Csum_perm _ _ _ (freqs_opp M)), Csum_map. apply Csum_ext. intros a.
  rewrite Cconj_mult, Cconj_cis, opp_IZR. f_equal. f_equal. ring.
Qed.
Lemma trig_unique (c e : Z -> C) M : (forall x, Csum (fun m => Cmult (c m) (cis (IZR m * x))) (freqs M) = Csum (fun m => Cmult (e m) (cis (IZR m * x))) (freqs M)) ->
  forall m, In m (freqs M) -> c m = e m.
Proof.
  intros H m I. pose proof (coefficient_trig c (freqs M) m (NoDup_zrange _ _)) as A. pose proof (coefficient_trig e (freqs M) m (NoDup_zrange _ _)) as B.
  destruct (in_dec Z.eq_dec m (freqs M)) as [_|N]; [|contradiction]. rewrite <- A, <- B. apply fourier_coefficient_ext. exact H.
Qed.
Lemma trig_real (c : Z -> C) M : (forall x, Im (Csum (fun m => Cmult (c m) (cis (IZR m * x))) (freqs M)) = 0%R) <->
  forall m, In m (freqs M) -> c (- m)%Z = Cconj (c m).
Proof.
  split.
  - intros H m I. assert (E : Cconj (c (- m)%Z) = c m).
    { apply (trig_unique (fun m => Cconj (c (- m)%Z)) c M); [|exact I]. intros x. cbv beta. rewrite <- (trig_conj c M x). apply Im0_conj, H. }
    rewrite <- E. symmetry. apply Cconj_conj.
  - intros H x. apply conj_Im0. rewrite trig_conj. apply Csum_ext_in. intros m I. rewrite (H m I), Cconj_conj. reflexivity.
Qed.

Lemma hermitian_iff M v : hermitian M v <-> forall x, Im (series M v x) = 0%R.
Proof.
  unfold series. rewrite trig_real. unfold hermitian. split; intros H m I; apply H; [apply In_freqs in I; lia|apply In_freqs; lia].
Qed.

Lemma transform_hermitian interp d M f : wf_dict (dc_data d) -> dat_to_fdat interp d M = Ok f -> real_signals f.
Proof.
  intros W E. apply (transform_rows interp d M f W) in E as (r & F & ->). intros k v G. unfold fget_pc in G. cbn [fd_data fget_M fd_M] in *.
  assert (I : In (k, v) r). { apply dget_In. unfold dgetr in G. destruct (dget k r) as [w|]; [|discriminate]. congruence. }
  clear W G. induction F as [|a b l r [_ (g & _ & _ & E)] _ IH]; [destruct I|]. destruct I as [-> |I]; [|exact (IH I)]. cbn [snd] in E. subst v.
  intros m B. rewrite !coef_map_freqs by lia. unfold gdft. rewrite Cconj_mult, Cconj_R, Csum_conj. f_equal. apply Csum_ext. intros x.
  rewrite Cconj_mult, Cconj_R, Cconj_cis, opp_IZR. f_equal. f_equal. ring.
Qed.

Lemma signals_dmap f g s p : fwf f -> (forall v, length v = 2 * fd_M f + 1 -> hermitian (fd_M f) v -> hermitian (fd_M f) (g v)) ->
  real_signals f -> real_signals (mkfdat (dmap g (fd_data f)) s p (fd_M f)).
Proof.
  intros [W L] G H k v E. unfold fget_pc, dgetr in E. cbn [fd_data fd_M fget_M] in *. rewrite dget_dmap in E.
  destruct (dget k (fd_data f)) as [w|] eqn:D; [|discriminate]. cbn in E. injection E as <-. apply G.
  - rewrite Forall_forall in L. apply dget_In in D. exact (L _ D).
  - apply (H k). unfold fget_pc, dgetr. now rewrite D.
Qed.
Lemma scale_hermitian M s v : length v = 2 * M + 1 -> hermitian M v -> hermitian M (map (Cmult (RtoC s)) v).
Proof. intros L H m B. rewrite !coef_scale by (auto; lia). rewrite H by exact B. rewrite Cconj_mult, Cconj_R. reflexivity. Qed.
Lemma shift_hermitian M a v : length v = 2 * M + 1 -> hermitian M v -> hermitian M (shift_row M a v).
Proof.
  intros L H m B. rewrite !shift_row_coef by (auto; lia). rewrite H by exact B. rewrite Cconj_mult, Cconj_cis, opp_IZR. do 2 f_equal. ring.
Qed.
Lemma scale_signals f s : fwf f -> real_signals f -> real_signals (fst (scale_fdata f s)).
Proof. intros W H. unfold scale_fdata. destruct (Rltb s 0); [exact H|]. cbn [fst]. apply signals_dmap; auto. intros v. apply scale_hermitian. Qed.
Lemma step_signals f o : fwf f -> real_signals f -> real_signals (fst (fstep f o)).
Proof.
  intros W H. destruct o as [s|x|a n u]; cbn [fstep].
  - apply scale_signals; auto.
  - unfold normalize_fdata. destruct (fget_maxval f) as [[[k m]|]|e]; cbn [fst]; auto.
    + destruct (Reqb m 0); [destruct (Rltb x 0); exact H|]. apply scale_signals; auto.
    + apply scale_signals; auto.
  - unfold phase_shift_fdata. destruct (check_angle_units (lower u)); cbn [fst]; auto. cbv zeta.
    destruct (phase_add _ _ _); cbn [fst]; apply signals_dmap; auto; intros v; apply shift_hermitian.
Qed.
Lemma run_signals h : forall f, fwf f -> real_signals f -> real_signals (frun f h).
Proof. induction h as [|o h IH]; intros f W H; [exact H|]. cbn [frun]. apply IH; [apply fstep_wf, W|apply step_signals; auto]. Qed.

(** samples *)
Lemma samples_whole f n d : fwf f -> 0 < n -> real_signals f -> fdat_to_dat f n = Ok d ->
  forall k v p x y, fget_pc f k = Ok v -> dget k (dc_data d) = Some p -> In (x, y) p -> series (fget_M f) v x = RtoC y.
Proof.
  intros W N H E k v p x y G D I. rewrite (fdat_to_dat_spec f n W N) in E.
  apply (f_equal (fun r => match r with Ok d => dget k (dc_data d) | Raise _ => None end)) in E. rewrite D in E. cbn [dc_data] in E. rewrite dget_dmap in E.
  pose proof (H k v G) as Hv. unfold fget_pc, dgetr in G. destruct (dget k (fd_data f)) as [w|]; [|discriminate]. injection G as ->.
  cbn [option_map] in E. injection E as <-. unfold sampled in I. apply in_map_iff in I as (t & E & _). injection E as <- <-.
  apply C_ext; [reflexivity|]. exact (proj1 (hermitian_iff _ _) Hv t).
Qed.

(** formulas *)
Lemma formula_hermitian F rho k r : real_formula F rho -> In (k, r) (ff_rows F) -> forall m, In m (freqs (ff_M F)) ->
  eval rho (fcell (ff_M F) r (- m)) = Cconj (eval rho (fcell (ff_M F) r m)).
Proof.
  intros H I. apply (trig_real (fun m => eval rho (fcell (ff_M F) r m)) (ff_M F)). intros x. exact (H k r x I).
Qed.

Lemma freqs_half M : Permutation (freqs M) ((0%Z :: map Z.of_nat (seq 1 M)) ++ map (fun i => - Z.of_nat i)%Z (seq 1 M)).
Proof.
  apply NoDup_Permutation.
  - apply NoDup_zrange.
  - assert (A : NoDup (map Z.of_nat (seq 1 M))) by (apply FinFun.Injective_map_NoDup; [intros a b; lia|apply seq_NoDup]).
    assert (B : NoDup (map (fun i => - Z.of_nat i)%Z (seq 1 M))) by (apply FinFun.Injective_map_NoDup; [intros a b; lia|apply seq_NoDup]).
    cbn [app]. constructor.
    + rewrite in_app_iff, !in_map_iff. intros [(i & E & I)|(i & E & I)]; apply in_seq in I; lia.
    + clear -A B. assert (D : forall x, In x (map Z.of_nat (seq 1 M)) -> ~ In x (map (fun i => - Z.of_nat i)%Z (seq 1 M))).
      { intros x. rewrite !in_map_iff. intros (i & <- & I) (j & E & J). apply in_seq in I. apply in_seq in J. lia. }
      revert A D. generalize (map Z.of_nat (seq 1 M)). induction l as [|a l IH]; intros A D; [exact B|]. inversion A; subst. cbn [app]. constructor.
      * rewrite in_app_iff. intros [J|J]; [auto|]. exact (D a (or_introl eq_refl) J).
      * apply IH; auto. intros x J. apply D. right. exact J.
  - intros z. rewrite In_freqs, in_app_iff. cbn [In]. rewrite !in_map_iff. split.
    + intros I. destruct (Z.lt_trichotomy z 0) as [L|[E|L]].
      * right. exists (Z.to_nat (- z)). rewrite in_seq. lia.
      * left. left. lia.
      * left. right. exists (Z.to_nat z). rewrite in_seq. lia.
    + intros [[E|(i & E & I)]|(i & E & I)]; try (apply in_seq in I); lia.
Qed.

Lemma Cmod_conj (z : C) : Cmod (Cconj z) = Cmod z.
Proof. unfold Cmod, Cconj. cbn [fst snd]. f_equal. ring. Qed.

Lemma misfit_half F D rho : matching F D -> real_formula F rho -> real_signals D -> misfit F D rho = half_misfit F D rho.
Proof.
  intros (FO & DO & MM & KK) RF RS. unfold misfit, half_misfit. apply rsum_ext. intros [k r] I. cbn [fst snd].
  rewrite (rsum_perm _ _ _ (freqs_half (ff_M F))), rsum_app. rewrite FitProofs.rsum_map.
  change (rsum ?f (0%Z :: ?l)) with (f 0%Z + rsum f l)%R. cbv beta. rewrite FitProofs.rsum_map.
  match goal with |- (?a + ?x + ?y = ?a + 2 * ?x')%R => replace y with x'; [ring|] end.
  apply rsum_ext. intros i J. apply in_seq in J.
  rewrite <- Cmod_conj. f_equal. f_equal. unfold Cminus. rewrite Cconj_plus, Cconj_opp. f_equal.
  - symmetry. apply (formula_hermitian F rho k r RF I). apply In_freqs. lia.
  - f_equal. unfold dvalue. destruct (dget k (fd_data D)) as [v|] eqn:G; [|apply Cconj_R].
    symmetry. rewrite MM in *. assert (Hv : hermitian (fd_M D) v). { apply (RS k). unfold fget_pc, dgetr. now rewrite G. }
    rewrite MM in Hv. apply Hv. lia.
Qed.
