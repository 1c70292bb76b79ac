(** Least squares on the samples and in Fourier space. *)
From Coq Require Import String List Arith ZArith Reals Lra Lia Permutation.
From Coquelicot Require Import Complex.
From Verif Require Import PyBase RMod CBase Expr DataModel SpecData DataProofs DataProofs2 FDataModel SpecFData FDataProofs FDataProofs2 FormModel FitModel SpecFit FitProofs SpecLsq.
Import ListNotations.
Local Open Scope nat_scope.

Lemma Cmod_minus_sq a b : (Cmod (Cminus a b) ^ 2 = Cmod a ^ 2 + Cmod b ^ 2 - 2 * Re (Cmult a (Cconj b)))%R.
Proof. apply RtoC_inj. rewrite RtoC_minus, !RtoC_plus, <- !Cmult_conj. apply C_ext; unfold Re, Im; simpl; ring. Qed.

Lemma rsum_plus {A} (f g : A -> R) l : (rsum (fun a => f a + g a) l = rsum f l + rsum g l)%R.
Proof. induction l as [|a l IH]; cbn; [ring|]. unfold rsum in IH. rewrite IH. ring. Qed.
Lemma rsum_scal {A} c (f : A -> R) l : (rsum (fun a => c * f a) l = c * rsum f l)%R.
Proof. induction l as [|a l IH]; cbn; [ring|]. unfold rsum in IH. rewrite IH. ring. Qed.
Lemma rsum_Re {A} (f : A -> C) l : rsum (fun a => Re (f a)) l = Re (Csum f l).
Proof. induction l as [|a l IH]; [reflexivity|]. rewrite Csum_cons. cbn. unfold rsum in IH. rewrite IH. reflexivity. Qed.
Lemma rsum_map {A B} (f : B -> R) (g : A -> B) l : rsum f (map g l) = rsum (fun a => f (g a)) l.
Proof. induction l as [|a l IH]; [reflexivity|]. cbn. unfold rsum in IH. rewrite IH. reflexivity. Qed.

(** Pythagoras: a trigonometric polynomial against samples *)
Definition wave_at (M : nat) (c : Z -> C) (x : R) : C := Csum (fun m => Cmult (c m) (cis (IZR m * x))) (freqs M).
Definition dcoef (n : nat) (y : nat -> R) (m : Z) : C :=
  Cmult (RtoC (/ INR n)) (Csum (fun j => Cmult (RtoC (y j)) (cis (- IZR m * (2 * PI * INR j / INR n)))) (seq 0 n)).

Lemma Re_scal a z : Re (Cmult (RtoC a) z) = (a * Re z)%R.
Proof. unfold Re, Cmult, RtoC. cbn [fst snd]. ring. Qed.
Lemma cross M c n y :
  (/ INR n * rsum (fun j => Re (Cmult (wave_at M c (2 * PI * INR j / INR n)) (Cconj (RtoC (y j))))) (seq 0 n) =
   rsum (fun m => Re (Cmult (c m) (Cconj (dcoef n y m)))) (freqs M))%R.
Proof.
  rewrite !rsum_Re. set (nd := fun j => (2 * PI * INR j / INR n)%R).
  transitivity (Re (Cmult (RtoC (/ INR n)) (Csum (fun j => Cmult (wave_at M c (nd j)) (Cconj (RtoC (y j)))) (seq 0 n)))).
  { rewrite Re_scal. reflexivity. }
  f_equal. unfold wave_at. rewrite (Csum_ext _ (fun j => Csum (fun m => Cmult (Cmult (c m) (cis (IZR m * nd j))) (Cconj (RtoC (y j)))) (freqs M))).
  2:{ intros j. rewrite Csum_mult_r. reflexivity. }
  rewrite Csum_swap, <- Csum_mult_l. apply Csum_ext. intros m. unfold dcoef. rewrite Cconj_mult, Csum_conj, <- !Csum_mult_l. apply Csum_ext. intros j.
  rewrite Cconj_mult, <- cis_opp. fold (nd j). replace (- (- IZR m * nd j))%R with (IZR m * nd j)%R by ring.
  apply C_ext; unfold Re, Im; simpl; ring.
Qed.
Lemma pythagoras M c n y : 2 * M < n ->
  (/ INR n * rsum (fun j => Cmod (Cminus (wave_at M c (2 * PI * INR j / INR n)) (RtoC (y j))) ^ 2) (seq 0 n) =
   rsum (fun m => Cmod (Cminus (c m) (dcoef n y m)) ^ 2) (freqs M) +
   (/ INR n * rsum (fun j => Cmod (RtoC (y j)) ^ 2) (seq 0 n) - rsum (fun m => Cmod (dcoef n y m) ^ 2) (freqs M)))%R.
Proof.
  intros L. set (nd := fun j => (2 * PI * INR j / INR n)%R).
  rewrite (rsum_ext _ (fun j => (Cmod (wave_at M c (nd j)) ^ 2 + Cmod (RtoC (y j)) ^ 2) + (-2) * Re (Cmult (wave_at M c (nd j)) (Cconj (RtoC (y j)))))%R).
  2:{ intros j _. rewrite Cmod_minus_sq. fold (nd j). ring. }
  rewrite (rsum_ext (fun m => (Cmod (Cminus (c m) (dcoef n y m)) ^ 2)%R) (fun m => (Cmod (c m) ^ 2 + Cmod (dcoef n y m) ^ 2) + (-2) * Re (Cmult (c m) (Cconj (dcoef n y m))))%R).
  2:{ intros m _. rewrite Cmod_minus_sq. ring. }
  rewrite !rsum_plus, !rsum_scal, <- (cross M c n y), <- (parseval M c n L). unfold wave_at, nd. ring.
Qed.
Lemma pythagoras' M c n y : 2 * M < n ->
  (/ INR n * rsum (fun j => Cmod (Cminus (wave_at M c (2 * PI * INR j / INR n)) (RtoC (y j))) ^ 2) (seq 0 n) =
   rsum (fun m => Cmod (Cminus (c m) (dcoef n y m)) ^ 2) (freqs M) +
   / INR n * rsum (fun j => Cmod (Cminus (wave_at M (dcoef n y) (2 * PI * INR j / INR n)) (RtoC (y j))) ^ 2) (seq 0 n))%R.
Proof.
  intros L. rewrite (pythagoras M c n y L), (pythagoras M (dcoef n y) n y L).
  rewrite (rsum_ext (fun m => (Cmod (Cminus (dcoef n y m) (dcoef n y m)) ^ 2)%R) (fun m => (0 * 0)%R)).
  - rewrite rsum_scal. ring.
  - intros m _. replace (Cminus (dcoef n y m) (dcoef n y m)) with (RtoC 0) by ring. rewrite Cmod_0. ring.
Qed.

(** dat_to_fdat for any interpolation: the transform of the resampled points *)
Definition samples_of (g : R -> R) (n : nat) : list (R * R) := map (fun j => let x := (2 * PI * INR j / INR n)%R in (x, g x)) (seq 0 n).
Lemma fourier_entry_any interp p g m : interp p = Ok g -> 2 <= length p ->
  fourier_entry interp p m = Ok (dcoef (length p) (fun j => g (2 * PI * INR j / INR (length p))%R) m).
Proof.
  intros E L. unfold fourier_entry. rewrite E. cbn [bind]. set (n := length p) in *. assert (NZ : INR n <> 0%R) by (apply not_0_INR; lia).
  assert (E1 : py_nth (grid n) 1 = Ok (node n 1)).
  { rewrite py_nth_nonneg by lia. unfold grid. change (Z.to_nat 1) with 1%nat. destruct n as [|[|n']]; try lia. reflexivity. }
  assert (E0 : py_nth (grid n) 0 = Ok (node n 0)).
  { rewrite py_nth_nonneg by lia. unfold grid. change (Z.to_nat 0) with 0%nat. destruct n as [|[|n']]; try lia. reflexivity. }
  rewrite E1, E0. cbn [bind]. f_equal. unfold dcoef. rewrite <- Csum_mult_l.
  assert (H : combine (grid n) (map g (grid n)) = map (fun j => (node n j, g (node n j))) (seq 0 n)).
  { unfold grid. rewrite map_map. induction (seq 0 n) as [|a l IH]; [reflexivity|]. cbn. now rewrite IH. }
  rewrite H, Csum_map. apply Csum_ext. intros j. cbn [fst snd]. rewrite Cmult_assoc, <- RtoC_mult. unfold node. f_equal. f_equal. cbn [INR].
  field. split; [exact NZ|apply PI_neq0].
Qed.
Definition entry_of (interp : list (R * R) -> res (R -> R)) (p : list (R * R)) (m : Z) : C :=
  match interp p with Ok g => dcoef (length p) (fun j => g (2 * PI * INR j / INR (length p))%R) m | Raise _ => RtoC 0 end.
Lemma dat_to_fdat_any interp d M : wf_dict (dc_data d) -> (forall k p, In (k, p) (dc_data d) -> 2 <= length p /\ is_ok (interp p)) ->
  dat_to_fdat interp d M = Ok (mkfdat (dmap (fun p => map (entry_of interp p) (freqs M)) (dc_data d)) 1 (PNum 0) M).
Proof.
  intros W H. unfold dat_to_fdat.
  assert (E : dmapM (fun p => mapM (fourier_entry interp p) (freqs M)) (dc_data d) = Ok (dmap (fun p => map (entry_of interp p) (freqs M)) (dc_data d))).
  { clear W. revert H. induction (dc_data d) as [|[k p] l IH]; cbn [dmapM dmap map fst snd]; intros H; [reflexivity|].
    destruct (H k p (or_introl eq_refl)) as (L & [g E]).
    rewrite (mapM_ok_map _ (entry_of interp p)) by (intros m _; unfold entry_of; rewrite E; apply fourier_entry_any; assumption). cbn [bind].
    rewrite IH by (intros k0 p0 I; apply (H k0); right; exact I). reflexivity. }
  rewrite E. cbn [bind]. apply fconstruct_items. split; [apply wf_dmap; exact W|].
  apply Forall_forall. intros [k v] I. apply In_dmap in I as (p & _ & ->). cbn [snd]. now rewrite map_length, length_freqs.
Qed.

Section Samples.
Variables (interp : list (R * R) -> res (R -> R)) (d : dat) (F : fform) (pts : string -> list (R * R)).
Hypothesis W : wf_dict (dc_data d).
Hypothesis Fo : formula_ok F.
Hypothesis K : forall k, In k (map fst (ff_rows F)) -> In k (dkeys (dc_data d)).
Hypothesis H : forall k p, In (k, p) (dc_data d) -> 2 * ff_M F < length p /\ 2 <= length p /\ resampled interp p (pts k).

Definition transformed : fdat := mkfdat (dmap (fun p => map (entry_of interp p) (freqs (ff_M F))) (dc_data d)) 1 (PNum 0) (ff_M F).
Lemma transformed_ok : dat_to_fdat interp d (ff_M F) = Ok transformed.
Proof. apply dat_to_fdat_any; [exact W|]. intros k p I. destruct (H k p I) as (_ & L & g & E & _). split; [exact L|]. eexists; exact E. Qed.
Lemma transformed_matching : matching F transformed.
Proof.
  split; [exact Fo|]. split; [split|split].
  - change (NoDup (dkeys (dmap (fun p => map (entry_of interp p) (freqs (ff_M F))) (dc_data d)))). rewrite dkeys_dmap. exact W.
  - intros k v I. cbn [transformed fd_data] in I. apply In_dmap in I as (p & _ & ->). cbn [transformed fd_M]. rewrite map_length, length_freqs. reflexivity.
  - reflexivity.
  - intros k I. change (In k (dkeys (dmap (fun p => map (entry_of interp p) (freqs (ff_M F))) (dc_data d)))). rewrite dkeys_dmap. apply K, I.
Qed.
Lemma deviation_samples f (p : list (R * R)) (y : nat -> R) n : p = map (fun j => ((2 * PI * INR j / INR n)%R, y j)) (seq 0 n) ->
  deviation f p = (/ INR n * rsum (fun j => Cmod (Cminus (f (2 * PI * INR j / INR n)%R) (RtoC (y j))) ^ 2) (seq 0 n))%R.
Proof. intros ->. unfold deviation. rewrite map_length, seq_length, rsum_map. reflexivity. Qed.
Lemma samples_split rho : sample_misfit F pts rho = (misfit F transformed rho + lost F transformed pts)%R.
Proof.
  unfold sample_misfit, misfit, lost. rewrite <- rsum_plus. apply rsum_ext. intros [k r] I. cbn [fst snd].
  assert (Ik : In k (dkeys (dc_data d))) by (apply K, in_map_iff; exists (k, r); split; [reflexivity|exact I]).
  apply in_map_iff in Ik as ([k' p] & E & Ip). cbn [fst] in E. subst k'. destruct (H k p Ip) as (L & _ & g & Eg & Ep).
  set (n := length p) in *. set (y := fun j => g (2 * PI * INR j / INR n)%R).
  assert (Dv : forall m, In m (freqs (ff_M F)) -> dvalue transformed k m = dcoef n y m).
  { intros m Im. unfold dvalue. cbn [transformed fd_data fd_M]. rewrite dget_dmap, (In_dget k p _ W Ip). cbn [option_map].
    rewrite coef_map_freqs by (apply In_freqs in Im; lia). unfold entry_of. rewrite Eg. reflexivity. }
  rewrite !(deviation_samples _ (pts k) y n) by exact Ep.
  change (formula_at F rho r) with (wave_at (ff_M F) (fun m => eval rho (fcell (ff_M F) r m))). rewrite (pythagoras' (ff_M F) _ n y L). f_equal.
  - apply rsum_ext. intros m Im. rewrite (Dv m Im). reflexivity.
  - f_equal. apply rsum_ext. intros j _. do 3 f_equal. unfold data_at, wave_at. apply Csum_ext_in. intros m Im. rewrite <- (Dv m Im). reflexivity.
Qed.
End Samples.
Lemma rsum_nonneg' {A} (f : A -> R) l : (forall a, In a l -> 0 <= f a)%R -> (0 <= rsum f l)%R.
Proof. induction l as [|a l IH]; cbn; intros P; [lra|]. specialize (IH (fun b I => P b (or_intror I))). specialize (P a (or_introl eq_refl)). unfold rsum in IH. lra. Qed.
Lemma deviation_nonneg f p : (0 <= deviation f p)%R.
Proof.
  unfold deviation. apply Rmult_le_pos.
  - destruct p as [|q p]; [cbn; rewrite Rinv_0; lra|]. left. apply Rinv_0_lt_compat. apply lt_0_INR. cbn. lia.
  - apply rsum_nonneg'. intros a _. nra.
Qed.
Lemma lost_nonneg F D pts : (0 <= lost F D pts)%R.
Proof. apply rsum_nonneg'. intros a _. apply deviation_nonneg. Qed.
(** Equally spaced data are their own resampling. *)
Lemma resampled_self interp p : exact_at_nodes interp -> is_ok (interp p) -> equally_spaced p -> resampled interp p p.
Proof.
  intros X [g E] S. exists g. split; [exact E|]. unfold equally_spaced in S. set (n := length p) in *.
  assert (Nd : NoDup (map fst p)) by (rewrite S; exact (grid_NoDup n)).
  transitivity (map (fun x => (x, g x)) (map fst p)).
  - rewrite map_map. rewrite <- (map_id p) at 1. apply map_ext_in. intros [x y] I. cbn [fst]. now rewrite (X p g x y Nd E I).
  - rewrite S, map_map. reflexivity.
Qed.
