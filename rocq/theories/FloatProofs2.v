(** Error bounds for rounded angles. *)
From Coq Require Import Reals ZArith List Lia Lra Permutation Sorted.
From Flocq Require Import Core.
From Verif Require Import PyBase RMod PiBounds SpecFloat FloatModel FloatProofs.
Import ListNotations.
Local Open Scope R_scope.

Lemma bpow_powerRZ e : bpow radix2 e = powerRZ 2 e.
Proof. apply bpow_powerRZ. Qed.
Lemma double_iff x : double x <-> is64 x.
Proof.
  split.
  - intros (m & e & -> & M & E). rewrite <- bpow_powerRZ. apply is64_F2R; assumption.
  - intros H. destruct (F2R_is64 x H) as (m & e & E & M & K). exists m, e. rewrite <- bpow_powerRZ. auto.
Qed.

Lemma tiny : 0 < bpow radix2 (-1075) <= / 10 ^ 30.
Proof.
  split; [apply bpow_gt_0|]. apply Rle_trans with (bpow radix2 (-100)); [apply bpow_le; lia|].
  change (bpow radix2 (-100)) with (/ IZR 1267650600228229401496703205376). lra.
Qed.
Lemma u53 : bpow radix2 (-53) = / 9007199254740992.
Proof. reflexivity. Qed.

(** Reduction of an angle. *)
Lemma mod64_direction x : is64 x ->
  exists k : Z, Rabs (IZR k) <= Rabs x / 6 + 1 /\ Rabs (mod64 x two_pi64 - (x - 2 * PI * IZR k)) <= Rabs (IZR k) * (26 / 10 ^ 17) + bpow radix2 (-51).
Proof.
  intros X. pose proof two_pi64_range as T. pose proof two_pi64_bound as B. assert (P : 0 < two_pi64) by lra.
  destruct (fmod_trunc x two_pi64 P) as (A & A' & C & D).
  destruct (fmod_congr x two_pi64) as (k & E).
  assert (Bp := bpow_gt_0 radix2 (-51)).
  assert (S : forall j : Z, Rabs (IZR j * (2 * PI - two_pi64)) <= Rabs (IZR j) * (26 / 10 ^ 17)).
  { intros j. rewrite Rabs_mult. apply Rmult_le_compat_l; [apply Rabs_pos|]. rewrite Rabs_pos_eq; lra. }
  unfold mod64. cbv zeta. unfold Rltb. set (f := fmod x two_pi64) in *. clearbody f. destruct (Rlt_dec f 0) as [N|N].
  - exists (k - 1)%Z. assert (X0 : x < 0).
    { destruct (Rle_lt_dec 0 x) as [Z|Z]; [specialize (C Z); lra|exact Z]. }
    rewrite Rabs_left in A by exact N.
    assert (K : IZR k <= 0).
    { rewrite !Rabs_left in A' by lra. destruct (Rle_lt_dec (IZR k) 0) as [Z|Z]; [exact Z|]. exfalso. nra. }
    split.
    + rewrite minus_IZR. rewrite Rabs_left1 by lra. rewrite Rabs_left by lra. nra.
    + pose proof (S (k - 1)%Z) as S1. pose proof (rnd_error (f + two_pi64) 3) as Er.
      assert (G : Rabs (f + two_pi64) <= bpow radix2 3).
      { change (bpow radix2 3) with 8. rewrite Rabs_pos_eq; lra. }
      specialize (Er G ltac:(lia)). change (3 - 54)%Z with (-51)%Z in Er.
      replace (rnd (f + two_pi64) - (x - 2 * PI * IZR (k - 1)))
        with ((rnd (f + two_pi64) - (f + two_pi64)) + IZR (k - 1) * (2 * PI - two_pi64)).
      * eapply Rle_trans; [apply Rabs_triang|]. lra.
      * rewrite minus_IZR. rewrite E. ring.
  - exists k. assert (X0 : 0 <= x \/ f = 0).
    { destruct (Rle_lt_dec 0 x) as [Z|Z]; [left; exact Z|right]. specialize (D ltac:(lra)). lra. }
    split.
    + destruct X0 as [X0|X0].
      * rewrite (Rabs_pos_eq x X0) in *. rewrite Rabs_pos_eq in A, A' by lra.
        assert (K : -1 < IZR k) by nra. assert (K' : (-1 < k)%Z) by (apply lt_IZR; exact K).
        assert (K2 : 0 <= IZR k) by (apply IZR_le; lia). rewrite Rabs_pos_eq by lra. nra.
      * rewrite X0 in E. rewrite E at 1. rewrite Rplus_0_l, Rabs_mult, (Rabs_pos_eq two_pi64) by lra.
        pose proof (Rabs_pos (IZR k)). nra.
    + replace (f - (x - 2 * PI * IZR k)) with (IZR k * (2 * PI - two_pi64)).
      * pose proof (S k). lra.
      * rewrite E. ring.
Qed.

Lemma shift_direction x a : 0 <= x <= two_pi64 ->
  direction (2 * PI) ((Rabs a + 10) * (2 / 10 ^ 16)) (x + a) (mod64 (rnd (x + a)) two_pi64).
Proof.
  intros X. destruct (mod64_direction (rnd (x + a)) (rnd_is64 _)) as (k & K & D). exists k.
  pose proof (rnd_relative (x + a)) as R. rewrite u53 in R. pose proof tiny as Ti. pose proof two_pi64_range as T.
  change (bpow radix2 (-51)) with (/ 2251799813685248) in D.
  assert (S : Rabs (x + a) <= Rabs a + 63 / 10) by (eapply Rle_trans; [apply Rabs_triang|]; rewrite (Rabs_pos_eq x); lra).
  assert (S2 : Rabs (rnd (x + a)) <= Rabs (x + a) + Rabs (rnd (x + a) - (x + a))).
  { replace (rnd (x + a)) with ((x + a) + (rnd (x + a) - (x + a))) at 1 by ring. apply Rabs_triang. }
  replace (mod64 (rnd (x + a)) two_pi64 - (x + a - 2 * PI * IZR k))
    with ((mod64 (rnd (x + a)) two_pi64 - (rnd (x + a) - 2 * PI * IZR k)) + (rnd (x + a) - (x + a))) by ring.
  eapply Rle_trans; [apply Rabs_triang|]. pose proof (Rabs_pos a). lra.
Qed.

Lemma pi_bounds : 3141592653589793 / 10 ^ 15 + 215 / 10 ^ 18 <= PI <= 3141592653589793 / 10 ^ 15 + 247 / 10 ^ 18.
Proof. pose proof two_pi64_bound as B. rewrite two_pi64_num in B. lra. Qed.
Lemma cdeg_bound : Rabs (cdeg - PI / 180) <= 1 / 10 ^ 18.
Proof. pose proof two_pi64_bound as B. rewrite two_pi64_num in B. unfold cdeg. apply Rabs_le. lra. Qed.
Lemma crad_bound : Rabs (PI * crad / 180 - 1) <= 1 / 10 ^ 16.
Proof. pose proof two_pi64_bound as B. rewrite two_pi64_num in B. unfold crad. apply Rabs_le. lra. Qed.

Lemma deg2rad_error d : Rabs (deg2rad64 d - d * (PI / 180)) <= (Rabs d + 1) * (4 / 10 ^ 18).
Proof.
  unfold deg2rad64. rewrite cdeg_eq. pose proof (rnd_relative (d * cdeg)) as R. rewrite u53 in R. pose proof tiny as Ti.
  replace (rnd (d * cdeg) - d * (PI / 180)) with ((rnd (d * cdeg) - d * cdeg) + d * (cdeg - PI / 180)) by ring.
  eapply Rle_trans; [apply Rabs_triang|]. rewrite Rabs_mult in R. rewrite (Rabs_mult d (cdeg - PI / 180)).
  assert (C : Rabs cdeg <= 18 / 1000) by (rewrite Rabs_pos_eq; unfold cdeg; lra).
  pose proof cdeg_bound as B. pose proof (Rabs_pos d) as P.
  assert (M1 : Rabs d * Rabs cdeg <= Rabs d * (18 / 1000)) by (apply Rmult_le_compat_l; lra).
  assert (M2 : Rabs d * Rabs (cdeg - PI / 180) <= Rabs d * (1 / 10 ^ 18)) by (apply Rmult_le_compat_l; lra).
  lra.
Qed.
Lemma deg2rad_size d : Rabs (deg2rad64 d) <= (Rabs d + 1) * (18 / 1000).
Proof.
  pose proof (deg2rad_error d) as E. pose proof pi_bounds as B. pose proof (Rabs_pos d) as P.
  replace (deg2rad64 d) with (d * (PI / 180) + (deg2rad64 d - d * (PI / 180))) by ring.
  eapply Rle_trans; [apply Rabs_triang|]. rewrite Rabs_mult.
  assert (Q : Rabs (PI / 180) <= 17454 / 1000000) by (rewrite Rabs_pos_eq; lra).
  assert (M : Rabs d * Rabs (PI / 180) <= Rabs d * (17454 / 1000000)) by (apply Rmult_le_compat_l; lra). lra.
Qed.

(** An angle given in degrees and stored. *)
Lemma stored_direction d :
  exists k : Z, Rabs (mod64 (deg2rad64 d) two_pi64 - (d * (PI / 180) - 2 * PI * IZR k)) <= Rabs d * (6 / 10 ^ 18) + 8 / 10 ^ 16.
Proof.
  destruct (mod64_direction (deg2rad64 d) (rnd_is64 _)) as (k & K & D). exists k.
  pose proof (deg2rad_error d) as E. pose proof (deg2rad_size d) as S. pose proof (Rabs_pos d) as P.
  change (bpow radix2 (-51)) with (/ 2251799813685248) in D.
  replace (mod64 (deg2rad64 d) two_pi64 - (d * (PI / 180) - 2 * PI * IZR k))
    with ((mod64 (deg2rad64 d) two_pi64 - (deg2rad64 d - 2 * PI * IZR k)) + (deg2rad64 d - d * (PI / 180))) by ring.
  eapply Rle_trans; [apply Rabs_triang|]. lra.
Qed.

(** and read back *)
Lemma rad2deg_error y : 0 <= y <= two_pi64 -> Rabs (rad2deg64 y - y * (180 / PI)) <= 8 / 10 ^ 14.
Proof.
  intros Y. unfold rad2deg64. rewrite crad_eq. pose proof two_pi64_range as T. pose proof pi_bounds as B.
  assert (C : 57 <= crad <= 58) by (unfold crad; lra).
  pose proof (rnd_error (y * crad) 9) as R.
  assert (G : Rabs (y * crad) <= bpow radix2 9). { change (bpow radix2 9) with 512. rewrite Rabs_pos_eq; nra. }
  specialize (R G ltac:(lia)). change (bpow radix2 (9 - 54)) with (/ 35184372088832) in R.
  replace (rnd (y * crad) - y * (180 / PI)) with ((rnd (y * crad) - y * crad) + y * (180 / PI) * (PI * crad / 180 - 1)) by (field; lra).
  eapply Rle_trans; [apply Rabs_triang|]. rewrite (Rabs_mult (y * (180 / PI))). pose proof crad_bound as Cb.
  assert (Q : 0 <= y * (180 / PI) <= 361).
  { assert (U : 180 / PI <= 573 / 10). { apply Rmult_le_reg_r with PI; [lra|]. unfold Rdiv. rewrite Rmult_assoc, Rinv_l by lra. lra. }
    assert (V : 0 <= 180 / PI) by (apply Rmult_le_pos; [lra|left; apply Rinv_0_lt_compat; lra]). nra. }
  rewrite (Rabs_pos_eq (y * (180 / PI))) by lra.
  assert (M : y * (180 / PI) * Rabs (PI * crad / 180 - 1) <= 361 * (1 / 10 ^ 16)).
  { apply Rmult_le_compat; try lra. apply Rabs_pos. }
  lra.
Qed.
Lemma degrees_direction d :
  direction 360 ((Rabs d + 1000) * (4 / 10 ^ 16)) d (rad2deg64 (mod64 (deg2rad64 d) two_pi64)).
Proof.
  destruct (stored_direction d) as (k & E). exists k. set (y := mod64 (deg2rad64 d) two_pi64) in *.
  assert (Y : 0 <= y <= two_pi64).
  { apply mod64_range; [apply rnd_is64|apply is64_two_pi|pose proof two_pi64_range; lra]. }
  pose proof (rad2deg_error y Y) as R. pose proof pi_bounds as B. pose proof (Rabs_pos d) as P.
  replace (rad2deg64 y - (d - 360 * IZR k)) with ((rad2deg64 y - y * (180 / PI)) + (y - (d * (PI / 180) - 2 * PI * IZR k)) * (180 / PI)) by (field; lra).
  eapply Rle_trans; [apply Rabs_triang|]. rewrite (Rabs_mult (y - (d * (PI / 180) - 2 * PI * IZR k))).
  assert (U : Rabs (180 / PI) <= 573 / 10).
  { rewrite Rabs_pos_eq by (apply Rmult_le_pos; [lra|left; apply Rinv_0_lt_compat; lra]).
    apply Rmult_le_reg_r with PI; [lra|]. unfold Rdiv. rewrite Rmult_assoc, Rinv_l by lra. lra. }
  assert (M : Rabs (y - (d * (PI / 180) - 2 * PI * IZR k)) * Rabs (180 / PI) <= (Rabs d * (6 / 10 ^ 18) + 8 / 10 ^ 16) * (573 / 10)).
  { apply Rmult_le_compat; try apply Rabs_pos; assumption. }
  lra.
Qed.
