(** The transform of linearly interpolated data, and what happens at the seam. *)
From Coq Require Import String List Arith ZArith Reals Lra Lia Bool Sorted Permutation.
From Coquelicot Require Import Complex.
From Verif Require Import PyBase RMod CBase DataModel SpecData DataProofs DataProofs2 FDataModel SpecFData FDataProofs FDataProofs2
  LsqProofs FitModel SpecFit SpecLsq SpecLin InterpModel SpecInterp InterpProofs.
Import ListNotations.
Open Scope R_scope.

(** any interpolator: coefficients of the resampled data *)
Lemma resampled_coefs interp d M : reachable d ->
  (forall k p, get_pc d k "radians" = Ok p -> (2 <= length p)%nat /\ is_ok (interp p)) ->
  exists f, dat_to_fdat interp d M = Ok f /\ fget_keys f = get_keys d /\ fget_M f = M /\
    forall k p g, get_pc d k "radians" = Ok p -> interp p = Ok g ->
      exists v, fget_pc f k = Ok v /\ length v = (2 * M + 1)%nat /\
        forall m, (Z.abs m <= Z.of_nat M)%Z -> coef M v m = sample_coef g (length p) m.
Proof.
  intros R H. pose proof (reachable_wf d R) as W.
  rewrite dat_to_fdat_any.
  2:{ exact W. }
  2:{ intros k p I. apply (H k). apply (get_pc_In d k p W). exact I. }
  eexists. split; [reflexivity|]. split; [unfold fget_keys, get_keys; cbn [fd_data]; apply dkeys_dmap|]. split; [reflexivity|].
  intros k p g G I. apply (get_pc_In d k p W) in G. exists (map (entry_of interp p) (freqs M)).
  split.
  - unfold fget_pc. cbn [fd_data]. unfold dgetr. rewrite dget_dmap, (In_dget _ _ _ W G). reflexivity.
  - split; [now rewrite map_length, length_freqs|]. intros m L. rewrite coef_map_freqs by exact L. unfold entry_of. rewrite I. reflexivity.
Qed.

Lemma two_nonempty {A} (p : list A) : (2 <= length p)%nat -> p <> [].
Proof. intros L ->. cbn in L. lia. Qed.

Lemma linear_transform d M : reachable d -> all_distinct d ->
  (forall k p, get_pc d k "radians" = Ok p -> (2 <= length p)%nat) ->
  exists f, dat_to_fdat linear d M = Ok f /\ fget_keys f = get_keys d /\ fget_M f = M /\
    forall k p, get_pc d k "radians" = Ok p -> exists v g, fget_pc f k = Ok v /\ length v = (2 * M + 1)%nat /\
      (forall x, polygon p x (g x)) /\ (forall x y, polygon p x y -> y = g x) /\
      forall m, (Z.abs m <= Z.of_nat M)%Z -> coef M v m = sample_coef g (length p) m.
Proof.
  intros R D L. pose proof (reachable_wf d R) as W. pose proof (reachable_normal d R) as N.
  assert (S : forall k p, get_pc d k "radians" = Ok p -> strict p).
  { intros k p G. apply strict_of_distinct; [|exact (D k p G)]. apply (get_pc_In d k p W) in G.
    unfold normal_dat in N. rewrite Forall_forall in N. exact (N (k, p) G). }
  destruct (resampled_coefs linear d M R) as (f & E & K & EM & F).
  { intros k p G. split; [exact (L k p G)|]. eexists. apply linear_strict; [apply two_nonempty; exact (L k p G)|exact (S k p G)]. }
  exists f. split; [exact E|]. split; [exact K|]. split; [exact EM|]. intros k p G.
  destruct (F k p (segment p) G) as (v & V & Lv & Co); [apply linear_strict; [apply two_nonempty; exact (L k p G)|exact (S k p G)]|].
  exists v, (segment p). split; [exact V|]. split; [exact Lv|]. split; [intros x; apply polygon_total; exact (L k p G)|].
  split; [intros x y P; symmetry; apply segment_polygon; [exact (S k p G)|exact P]|exact Co].
Qed.

(* ------------------------------------------------------------------ *)
(** * The seam *)

Lemma sample_zero g n : sample_coef g n 0 = RtoC (/ INR n * rsum (fun j => g (2 * PI * INR j / INR n)) (seq 0 n)).
Proof.
  unfold sample_coef. rewrite RtoC_mult. f_equal. induction (seq 0 n) as [|a l IH]; [reflexivity|].
  rewrite Csum_cons. change (rsum (fun j => g (2 * PI * INR j / INR n)) (a :: l)) with (g (2 * PI * INR a / INR n) + rsum (fun j => g (2 * PI * INR j / INR n)) l).
  rewrite RtoC_plus, <- IH. f_equal. replace (- 0 * (2 * PI * INR a / INR n)) with 0 by ring. rewrite cis_0. ring.
Qed.

Lemma split_two {A} (x : A) : forall p j, (S j < length p)%nat ->
  p = firstn j p ++ nth j p x :: nth (S j) p x :: skipn (S (S j)) p.
Proof.
  induction p as [|a p IH]; intros j L; cbn [length] in L; [lia|]. destruct j as [|j].
  - destruct p as [|b p]; cbn [length] in L; [lia|]. reflexivity.
  - cbn [firstn List.app nth skipn]. f_equal. apply IH. lia.
Qed.

Definition moved (a : R) (p : list (R * R)) : list (R * R) := map (fun q => (fst q + a, snd q)) p.
Lemma moved_strict a p : strict p -> strict (moved a p).
Proof.
  intros S. induction S as [|q p S IH F]; cbn; constructor; [exact IH|]. apply Forall_map. apply (Forall_impl _ (P := fun b => fst q < fst b)); [|exact F].
  intros b L. cbn [fst]. lra.
Qed.

Lemma spaced_nth p j : equally_spaced p -> (j < length p)%nat -> fst (nth j p (0, 0)) = 2 * PI * INR j / INR (length p).
Proof.
  intros S L. unfold equally_spaced in S. rewrite <- (map_nth fst p (0, 0) j). rewrite S. cbn [fst].
  rewrite (nth_indep _ 0 (2 * PI * INR 0 / INR (length p))) by (rewrite map_length, seq_length; exact L).
  rewrite (map_nth (fun j => 2 * PI * INR j / INR (length p))), seq_nth by exact L. reflexivity.
Qed.

Lemma shift_small a p : equally_spaced p -> 0 <= a < 2 * PI / INR (length p) -> strict p -> shift_pts a p = moved a p.
Proof.
  intros S A St. unfold shift_pts.
  assert (E : map (turn_by a) p = moved a p).
  { unfold moved. apply map_ext_in. intros q I. unfold turn_by. f_equal. apply mod2pi_small. unfold twopi.
    apply (In_nth _ _ (0, 0)) in I as (j & L & <-). rewrite (spaced_nth p j S L).
    set (n := length p) in *. assert (P : 0 < INR n) by (apply lt_0_INR; lia). pose proof PI_RGT_0.
    assert (J : INR j + 1 <= INR n) by (rewrite <- S_INR; apply le_INR; lia). pose proof (pos_INR j).
    assert (D : 0 <= 2 * PI / INR n) by (apply Rlt_le, Rdiv_lt_0_compat; lra).
    assert (X : 2 * PI * INR j / INR n = INR j * (2 * PI / INR n)) by (field; lra).
    assert (Y : INR n * (2 * PI / INR n) = 2 * PI) by (field; lra).
    rewrite X. split; [assert (0 <= INR j * (2 * PI / INR n)) by (apply Rmult_le_pos; lra); lra|].
    assert ((INR j + 1) * (2 * PI / INR n) <= INR n * (2 * PI / INR n)) by (apply Rmult_le_compat_r; lra). lra. }
  rewrite E. apply strict_sorted. apply moved_strict. exact St.
Qed.

Lemma moved_nth a p j : (j < length p)%nat -> nth j (moved a p) (0, 0) = (fst (nth j p (0, 0)) + a, snd (nth j p (0, 0))).
Proof.
  intros L. unfold moved. rewrite (nth_indep _ (0, 0) ((fun q : R * R => (fst q + a, snd q)) (0, 0))) by (rewrite map_length; exact L).
  now rewrite (map_nth (fun q : R * R => (fst q + a, snd q))).
Qed.

Lemma rsum_map_S f n : rsum f (seq 1 n) = rsum (fun j => f (S j)) (seq 0 n).
Proof. rewrite <- seq_shift. induction (seq 0 n) as [|a l IH]; [reflexivity|]. cbn [map]. unfold rsum in *. cbn [fold_right]. rewrite IH. reflexivity. Qed.
Lemma rsum_ext_in {A} (f g : A -> R) l : (forall a, In a l -> f a = g a) -> rsum f l = rsum g l.
Proof.
  induction l as [|a l IH]; intros H; [reflexivity|]. unfold rsum in *. cbn [fold_right]. rewrite (H a (or_introl eq_refl)), IH; [reflexivity|].
  intros b I. apply H. right. exact I.
Qed.
Lemma telescope (y : nat -> R) n : rsum (fun j => y j - y (S j)) (seq 0 n) = y 0%nat - y n.
Proof.
  induction n as [|n IH]; [unfold rsum; cbn; ring|]. rewrite seq_S. unfold rsum in *. rewrite fold_right_app. cbn [fold_right Nat.add].
  assert (X : forall l c, fold_right (fun a s => y a - y (S a) + s) c l = fold_right (fun a s => y a - y (S a) + s) 0 l + c).
  { induction l as [|a l I]; intros c; cbn [fold_right]; [ring|]. rewrite I. ring. }
  rewrite X, IH. ring.
Qed.

Section Seam.
Variables (p : list (R * R)) (a : R).
Hypothesis L : (2 <= length p)%nat.
Hypothesis Sp : equally_spaced p.
Hypothesis A : 0 <= a < 2 * PI / INR (length p).
Hypothesis St : strict p.
Let n := length p.
Let y j := snd (nth j p (0, 0)).
Let s := a / (2 * PI / INR n).

Lemma n_pos : 0 < INR n. Proof. apply lt_0_INR. unfold n. lia. Qed.
Lemma gap j : (S j < n)%nat -> fst (nth (S j) p (0, 0)) - fst (nth j p (0, 0)) = 2 * PI / INR n.
Proof.
  intros J. rewrite !spaced_nth by (try assumption; unfold n in J; lia). fold n. rewrite S_INR. pose proof n_pos. field. lra.
Qed.
Lemma moved_length : length (moved a p) = n. Proof. unfold moved. now rewrite map_length. Qed.
Lemma moved_first : segment (moved a p) 0 = y 0%nat - s * (y 1%nat - y 0%nat).
Proof.
  pose proof n_pos as NP. pose proof PI_RGT_0 as PP. apply segment_polygon; [apply moved_strict; exact St|].
  assert (X : (1 < length (moved a p))%nat) by (rewrite moved_length; unfold n; lia).
  exists (firstn 0 (moved a p)), (nth 0 (moved a p) (0, 0)), (nth 1 (moved a p) (0, 0)), (skipn 2 (moved a p)).
  split; [apply (split_two (0, 0) (moved a p) 0 X)|]. split; [left; reflexivity|].
  rewrite !moved_nth by (unfold n in *; lia). cbn [fst snd]. split.
  - right. pose proof (spaced_nth p 1 Sp ltac:(lia)) as E. rewrite E. fold n. change (INR 1) with 1.
    assert (0 <= 2 * PI * 1 / INR n) by (apply Rlt_le, Rdiv_lt_0_compat; lra). lra.
  - unfold chord. cbn [fst snd]. fold (y 0%nat) (y 1%nat).
    pose proof (gap 0 ltac:(unfold n; lia)) as G.
    replace (fst (nth 1 p (0, 0)) + a - (fst (nth 0 p (0, 0)) + a)) with (2 * PI / INR n) by lra.
    rewrite (spaced_nth p 0 Sp) by lia. change (INR 0) with 0. unfold s. fold n. field. lra.
Qed.
Lemma moved_next j : (S j < n)%nat -> segment (moved a p) (2 * PI * INR (S j) / INR n) = y (S j) + s * (y j - y (S j)).
Proof.
  intros J. pose proof n_pos as NP. pose proof PI_RGT_0 as PP. apply segment_polygon; [apply moved_strict; exact St|].
  assert (X : (S j < length (moved a p))%nat) by (rewrite moved_length; exact J).
  exists (firstn j (moved a p)), (nth j (moved a p) (0, 0)), (nth (S j) (moved a p) (0, 0)), (skipn (S (S j)) (moved a p)).
  split; [apply (split_two (0, 0) (moved a p) j X)|].
  rewrite !moved_nth by (unfold n in *; lia). cbn [fst snd].
  pose proof (spaced_nth p j Sp ltac:(unfold n in J; lia)) as E0. pose proof (spaced_nth p (S j) Sp J) as E1. fold n in E0, E1. fold n in A.
  pose proof (gap j J) as G.
  assert (E : fst (nth j p (0, 0)) = 2 * PI * INR (S j) / INR n - 2 * PI / INR n) by lra.
  split; [right; rewrite E; lra|]. split; [right; rewrite E1; lra|].
  unfold chord. cbn [fst snd]. fold (y j) (y (S j)).
  replace (fst (nth (S j) p (0, 0)) + a - (fst (nth j p (0, 0)) + a)) with (2 * PI / INR n) by lra.
  rewrite E. unfold s. field. lra.
Qed.
Lemma plain_node j : (j < n)%nat -> segment p (2 * PI * INR j / INR n) = y j.
Proof.
  intros J. unfold n. rewrite <- (spaced_nth p j Sp J). apply segment_node; [exact St|]. apply nth_In. exact J.
Qed.

Lemma seam_mean : sample_coef (segment (moved a p)) n 0 =
  Cplus (sample_coef (segment p) n 0) (RtoC (a / (2 * PI) * (2 * y 0%nat - y 1%nat - y (n - 1)%nat))).
Proof.
  pose proof n_pos as NP. pose proof PI_RGT_0 as PP. rewrite !sample_zero, <- RtoC_plus. f_equal.
  destruct (Nat.eq_dec n 0) as [Z|_]; [unfold n in Z; lia|]. assert (En : exists n', n = S n') by (exists (n - 1)%nat; unfold n in *; lia).
  destruct En as (n' & En). rewrite (rsum_ext_in (fun j => segment p (2 * PI * INR j / INR n)) y (seq 0 n)).
  2:{ intros j I. apply in_seq in I. apply plain_node. lia. }
  assert (Q : forall f : nat -> R, rsum f (seq 0 n) = f 0%nat + rsum (fun j => f (S j)) (seq 0 n')).
  { intros f. rewrite En. cbn [seq]. rewrite <- rsum_map_S. reflexivity. }
  rewrite (Q y), (Q (fun j => segment (moved a p) (2 * PI * INR j / INR n))).
  replace (2 * PI * INR 0 / INR n) with 0 by (cbn [INR]; field; lra). rewrite moved_first.
  rewrite (rsum_ext_in _ (fun j => y (S j) + s * (y j - y (S j))) (seq 0 n')).
  2:{ intros j I. apply in_seq in I. apply moved_next. lia. }
  rewrite rsum_plus, rsum_scal, telescope. replace (n - 1)%nat with n' by lia. unfold s. field. lra.
Qed.
End Seam.


Lemma shifted_get d a k p' : wf_dict (dc_data d) -> get_pc (fst (phase_shift_data d a "radians")) k "radians" = Ok p' ->
  exists p, get_pc d k "radians" = Ok p /\ p' = shift_pts a p.
Proof.
  intros W G. rewrite phase_shift_radians in G. cbn [fst] in G.
  apply (get_pc_In _ k p') in G; [|cbn [dc_data]; apply wf_dmap; exact W]. cbn [dc_data] in G. apply In_dmap in G as (p & I & ->).
  exists p. split; [|reflexivity]. apply (get_pc_In d k p W). exact I.
Qed.
Lemma shifted_get_conv d a k p : wf_dict (dc_data d) -> get_pc d k "radians" = Ok p ->
  get_pc (fst (phase_shift_data d a "radians")) k "radians" = Ok (shift_pts a p).
Proof.
  intros W G. rewrite phase_shift_radians. cbn [fst]. apply (get_pc_In _ k); [cbn [dc_data]; apply wf_dmap; exact W|].
  cbn [dc_data]. apply (get_pc_In d k p W) in G. unfold dmap. apply in_map_iff. exists (k, p). split; [reflexivity|exact G].
Qed.
Lemma shifted_reachable d a : reachable d -> reachable (fst (phase_shift_data d a "radians")).
Proof.
  intros (it & u & nto & d0 & h & C & ->). exists it, u, nto, d0, (h ++ [OPhase a "radians"]). split; [exact C|].
  rewrite run_app. reflexivity.
Qed.
Lemma seam d a M : reachable d -> 
  (forall k p, get_pc d k "radians" = Ok p -> (2 <= length p)%nat /\ equally_spaced p /\ 0 <= a < 2 * PI / INR (length p)) ->
  exists f f', dat_to_fdat linear d M = Ok f /\ dat_to_fdat linear (fst (phase_shift_data d a "radians")) M = Ok f' /\
    forall k p, get_pc d k "radians" = Ok p -> exists v v', fget_pc f k = Ok v /\ fget_pc f' k = Ok v' /\
      coef M v' 0 = Cplus (coef M v 0) (RtoC (a / (2 * PI) *
        (2 * snd (nth 0 p (0, 0)) - snd (nth 1 p (0, 0)) - snd (nth (length p - 1) p (0, 0))))).
Proof.
  intros R H. pose proof (reachable_wf d R) as W.
  assert (S : forall k p, get_pc d k "radians" = Ok p -> strict p).
  { intros k p G. destruct (H k p G) as (_ & E & _). apply nodup_strict.
    - pose proof (reachable_normal d R) as N. unfold normal_dat in N. rewrite Forall_forall in N. apply (get_pc_In d k p W) in G.
      destruct (N (k, p) G) as (_ & _ & So). cbn [snd] in So. clear - So. induction p as [|q p IH]; constructor; inversion So as [|? ? S' F]; subst.
      { exact (IH S'). }
      apply Forall_forall. intros b I. unfold le_x. rewrite Forall_forall in F. apply F. apply in_map. exact I.
    - unfold equally_spaced in E. rewrite E. exact (grid_NoDup (length p)). }
  destruct (resampled_coefs linear d M R) as (f & E & _ & _ & F).
  { intros k p G. split; [exact (proj1 (H k p G))|]. eexists. apply linear_strict; [apply two_nonempty; exact (proj1 (H k p G))|exact (S k p G)]. }
  destruct (resampled_coefs linear (fst (phase_shift_data d a "radians")) M (shifted_reachable d a R)) as (f' & E' & _ & _ & F').
  { intros k p' G. apply shifted_get in G as (p & G & ->); [|exact W]. destruct (H k p G) as (L & Sp & A).
    rewrite (shift_small a p Sp A (S k p G)). split; [unfold moved; rewrite map_length; exact L|]. eexists.
    apply linear_strict; [|apply moved_strict; exact (S k p G)]. apply two_nonempty. unfold moved. rewrite map_length. exact L. }
  exists f, f'. split; [exact E|]. split; [exact E'|]. intros k p G. destruct (H k p G) as (L & Sp & A).
  assert (NE : p <> []) by (apply two_nonempty; exact L).
  destruct (F k p (segment p) G) as (v & V & _ & Co); [apply linear_strict; [exact NE|exact (S k p G)]|].
  pose proof (shifted_get_conv d a k p W G) as G'. rewrite (shift_small a p Sp A (S k p G)) in G'.
  destruct (F' k (moved a p) (segment (moved a p)) G') as (v' & V' & _ & Co').
  { apply linear_strict; [|apply moved_strict; exact (S k p G)]. destruct p; [contradiction|discriminate]. }
  exists v, v'. split; [exact V|]. split; [exact V'|]. rewrite Co', Co by lia.
  replace (length (moved a p)) with (length p) by (unfold moved; now rewrite map_length).
  apply seam_mean; [exact L|exact Sp|exact A|exact (S k p G)].
Qed.
