(** Lemmas on rounded angles. *)
From Coq Require Import Reals ZArith List Lia Lra Permutation.
From Flocq Require Import Core Relative.
From Verif Require Import PyBase RMod PiBounds FloatModel.
Import ListNotations.
Local Open Scope R_scope.

#[global] Instance valid64 : Valid_exp exp64.
Proof. unfold exp64. apply FLT_exp_valid. reflexivity. Qed.
#[global] Instance mono64 : Monotone_exp exp64.
Proof. unfold exp64. apply FLT_exp_monotone. Qed.

Lemma rnd_is64 x : is64 (rnd x).
Proof. apply generic_format_round; [apply valid64|apply valid_rnd_N]. Qed.
Lemma rnd_id x : is64 x -> rnd x = x.
Proof. intros H. apply round_generic; [apply valid_rnd_N|exact H]. Qed.
Lemma rnd_le x y : x <= y -> rnd x <= rnd y.
Proof. apply round_le; [apply valid64|apply valid_rnd_N]. Qed.
Lemma is64_0 : is64 0.
Proof. apply generic_format_0. Qed.
Lemma is64_opp x : is64 x -> is64 (- x).
Proof. apply generic_format_opp. Qed.

(** A number with at most 53 binary digits. *)
Lemma is64_F2R m e : (Z.abs m < 2 ^ 53)%Z -> (-1074 <= e)%Z -> is64 (IZR m * bpow radix2 e).
Proof.
  intros M E. apply generic_format_FLT. exists (Float radix2 m e); [reflexivity|exact M|exact E].
Qed.
(** and conversely *)
Lemma F2R_is64 x : is64 x -> exists m e, x = IZR m * bpow radix2 e /\ (Z.abs m < 2 ^ 53)%Z /\ (-1074 <= e)%Z.
Proof. intros H. apply FLT_format_generic in H; [|reflexivity]. destruct H as [[m e] E M K]. exists m, e. auto. Qed.

Lemma fmod_trunc x y : 0 < y -> Rabs (fmod x y) < y /\ Rabs (fmod x y) <= Rabs x /\ (0 <= x -> 0 <= fmod x y) /\ (x <= 0 -> fmod x y <= 0).
Proof.
  intros Y. unfold fmod.
  assert (P : forall x, 0 <= x -> 0 <= x - y * IZR (Ztrunc (x / y)) < y /\ x - y * IZR (Ztrunc (x / y)) <= x).
  { intros a A. assert (Q : 0 <= a / y) by (apply Rmult_le_pos; [lra|left; apply Rinv_0_lt_compat; lra]).
    rewrite Ztrunc_floor by exact Q. pose proof (Zfloor_lb (a / y)) as L. pose proof (Zfloor_ub (a / y)) as U.
    assert (E : a = y * (a / y)) by (field; lra).
    assert (y * IZR (Zfloor (a / y)) <= y * (a / y)) by (apply Rmult_le_compat_l; lra).
    assert (y * (a / y) < y * (IZR (Zfloor (a / y)) + 1)) by (apply Rmult_lt_compat_l; lra).
    assert (Zp : (0 <= Zfloor (a / y))%Z) by (apply Zfloor_lub; exact Q). apply IZR_le in Zp.
    assert (0 <= y * IZR (Zfloor (a / y))) by (apply Rmult_le_pos; lra). lra. }
  destruct (Rle_lt_dec 0 x) as [A|A].
  - destruct (P x A) as [H H']. rewrite (Rabs_pos_eq x A), Rabs_pos_eq by lra. repeat split; try lra.
  - destruct (P (- x) ltac:(lra)) as [H H'].
    assert (E : Ztrunc (x / y) = (- Ztrunc (- x / y))%Z).
    { rewrite <- Ztrunc_opp. f_equal. field. lra. }
    rewrite E, opp_IZR. rewrite (Rabs_left x A).
    replace (x - y * - IZR (Ztrunc (- x / y))) with (- (- x - y * IZR (Ztrunc (- x / y)))) by ring.
    rewrite Rabs_Ropp, Rabs_pos_eq by lra. repeat split; try lra.
Qed.

Lemma fmod_congr x y : exists k : Z, x = fmod x y + IZR k * y.
Proof. exists (Ztrunc (x / y)). unfold fmod. ring. Qed.

(** [fmod] is exact: its result is a double. *)
Lemma fmod_is64 x y : is64 x -> is64 y -> 0 < y -> is64 (fmod x y).
Proof.
  intros X Y P. destruct (fmod_trunc x y P) as (A & B & _).
  destruct (F2R_is64 x X) as (m & e & Ex & Mx & Kx). destruct (F2R_is64 y Y) as (n & f & Ey & Ny & Ky).
  assert (G : forall k g mm, fmod x y = IZR k * bpow radix2 g -> Rabs (fmod x y) <= Rabs (IZR mm * bpow radix2 g) -> (Z.abs mm < 2 ^ 53)%Z -> (-1074 <= g)%Z -> is64 (fmod x y)).
  { intros k g mm E L Mm Kg. rewrite E. apply is64_F2R; [|exact Kg]. rewrite E, !Rabs_mult in L.
    assert (K : Rabs (IZR k) <= Rabs (IZR mm)).
    { apply Rmult_le_reg_r with (Rabs (bpow radix2 g)); [apply Rabs_pos_lt; apply Rgt_not_eq, bpow_gt_0|exact L]. }
    rewrite <- !abs_IZR in K. apply le_IZR in K. lia. }
  destruct (Z.le_gt_cases f e) as [L|L].
  - apply (G (m * 2 ^ (e - f) - n * Ztrunc (x / y))%Z f n).
    + unfold fmod. rewrite minus_IZR, !mult_IZR. rewrite Ex at 1. rewrite Ey at 1.
      replace (IZR (2 ^ (e - f))) with (bpow radix2 (e - f)).
      * replace e with (f + (e - f))%Z at 1 by lia. rewrite bpow_plus. ring.
      * rewrite <- (IZR_Zpower radix2) by lia. reflexivity.
    + rewrite <- Ey. rewrite (Rabs_pos_eq y) by lra. lra.
    + exact Ny.
    + exact Ky.
  - apply (G (m - n * 2 ^ (f - e) * Ztrunc (x / y))%Z e m).
    + unfold fmod. rewrite minus_IZR, !mult_IZR. rewrite Ex at 1. rewrite Ey at 1.
      replace (IZR (2 ^ (f - e))) with (bpow radix2 (f - e)).
      * replace f with (e + (f - e))%Z at 1 by lia. rewrite bpow_plus. ring.
      * rewrite <- (IZR_Zpower radix2) by lia. reflexivity.
    + rewrite <- Ex. exact B.
    + exact Mx.
    + exact Kx.
Qed.

(** The remainder lies between 0 and y, both included. *)
Lemma mod64_range x y : is64 x -> is64 y -> 0 < y -> is64 (mod64 x y) /\ 0 <= mod64 x y <= y.
Proof.
  intros X Y P. unfold mod64. cbv zeta. destruct (fmod_trunc x y P) as (A & B & C & D). unfold Rltb. destruct (Rlt_dec (fmod x y) 0) as [N|N].
  - split; [apply rnd_is64|]. rewrite Rabs_left in A by exact N. split.
    + rewrite <- (rnd_id 0 is64_0). apply rnd_le. lra.
    + apply Rle_trans with (rnd y); [apply rnd_le; lra|rewrite (rnd_id y Y); lra].
  - split; [apply fmod_is64; assumption|]. rewrite Rabs_pos_eq in A by lra. lra.
Qed.
Lemma mod64_pos x y : 0 < y -> 0 <= x -> mod64 x y = pymod x y /\ 0 <= mod64 x y < y.
Proof.
  intros P X. destruct (fmod_trunc x y P) as (A & _ & C & _). specialize (C X). unfold mod64. cbv zeta. unfold Rltb.
  destruct (Rlt_dec (fmod x y) 0) as [N|N]; [lra|]. rewrite Rabs_pos_eq in A by lra. split; [|lra].
  destruct (fmod_congr x y) as (k & E). symmetry. apply (pymod_unique x y _ k P); [lra|exact E].
Qed.
Lemma mod64_small x y : 0 <= x < y -> mod64 x y = x.
Proof. intros H. destruct (mod64_pos x y ltac:(lra) (proj1 H)) as [-> _]. apply pymod_small. exact H. Qed.
Lemma mod64_self y : 0 < y -> mod64 y y = 0.
Proof.
  intros P. destruct (mod64_pos y y P ltac:(lra)) as [-> _]. apply (pymod_unique y y 0 1); [exact P|lra|ring].
Qed.

(** Size of the rounding error. *)
Lemma rnd_error x e : Rabs x <= bpow radix2 e -> (-1021 <= e)%Z -> Rabs (rnd x - x) <= bpow radix2 (e - 54).
Proof.
  intros L E. destruct (Req_dec x 0) as [->|N].
  { rewrite (rnd_id 0 is64_0), Rminus_0_r, Rabs_R0. apply bpow_ge_0. }
  destruct (Rle_lt_or_eq_dec _ _ L) as [S|S].
  - eapply Rle_trans; [apply error_le_half_ulp; apply valid64|].
    rewrite ulp_neq_0 by exact N. unfold cexp.
    assert (M : (mag radix2 x <= e)%Z) by (apply mag_le_bpow; assumption).
    replace (/ 2) with (bpow radix2 (-1)) by reflexivity. rewrite <- bpow_plus. apply bpow_le.
    unfold exp64, FLT_exp. lia.
  - assert (I : is64 x).
    { unfold is64. assert (B : is64 (bpow radix2 e)).
      { replace (bpow radix2 e) with (IZR 1 * bpow radix2 e) by ring. apply is64_F2R; [reflexivity|lia]. }
      unfold Rabs in S. destruct (Rcase_abs x); [|rewrite S; exact B].
      replace x with (- bpow radix2 e) by lra. apply is64_opp. exact B. }
    rewrite (rnd_id x I), Rminus_diag_eq, Rabs_R0 by reflexivity. apply bpow_ge_0.
Qed.

(** Rounding to a given double. *)
Lemma rnd_eq x m e : (2 ^ 52 < m < 2 ^ 53)%Z -> (-1074 <= e)%Z ->
  Rabs (x - IZR m * bpow radix2 e) < bpow radix2 (e - 1) -> rnd x = IZR m * bpow radix2 e.
Proof.
  intros [M1 M2] E D. pose proof (bpow_gt_0 radix2 e) as Bp.
  assert (H : bpow radix2 (e - 1) = bpow radix2 e / 2).
  { replace (e - 1)%Z with (e + -1)%Z by lia. rewrite bpow_plus. reflexivity. }
  rewrite H in D. apply Rabs_def2 in D. destruct D as [D1 D2].
  assert (L1 : IZR (2 ^ 52) + 1 <= IZR m) by (rewrite <- plus_IZR; apply IZR_le; lia).
  assert (L2 : IZR m + 1 <= IZR (2 ^ 53)) by (rewrite <- plus_IZR; apply IZR_le; lia).
  assert (Q1 : (IZR (2 ^ 52) + 1) * bpow radix2 e <= IZR m * bpow radix2 e) by (apply Rmult_le_compat_r; lra).
  assert (Q2 : (IZR m + 1) * bpow radix2 e <= IZR (2 ^ 53) * bpow radix2 e) by (apply Rmult_le_compat_r; lra).
  assert (B1 : bpow radix2 (e + 52) = IZR (2 ^ 52) * bpow radix2 e) by (rewrite bpow_plus, Rmult_comm; reflexivity).
  assert (B2 : bpow radix2 (e + 53) = IZR (2 ^ 53) * bpow radix2 e) by (rewrite bpow_plus, Rmult_comm; reflexivity).
  assert (P : 0 < x) by (pose proof (bpow_gt_0 radix2 (e + 52)); nra).
  assert (Mg : mag radix2 x = (e + 53)%Z :> Z).
  { apply mag_unique. rewrite Rabs_pos_eq by lra. replace (e + 53 - 1)%Z with (e + 52)%Z by lia. rewrite B1, B2. nra. }
  unfold rnd, round, F2R, scaled_mantissa, cexp. rewrite Mg. unfold exp64, FLT_exp.
  replace (Z.max (e + 53 - 53) (-1074)) with e by lia. cbn [Fnum Fexp]. f_equal. f_equal.
  apply Znearest_imp. rewrite bpow_opp.
  replace (x * / bpow radix2 e - IZR m) with ((x - IZR m * bpow radix2 e) * / bpow radix2 e) by (field; lra).
  rewrite Rabs_mult, (Rabs_pos_eq (/ bpow radix2 e)) by (left; apply Rinv_0_lt_compat; lra).
  apply Rmult_lt_reg_r with (bpow radix2 e); [lra|]. rewrite Rmult_assoc, Rinv_l, Rmult_1_r by lra.
  apply Rabs_def1; lra.
Qed.
Lemma rnd_opp x : rnd (- x) = - rnd x.
Proof. apply round_NE_opp. Qed.

(** Relative error. *)
Lemma rnd_relative x : Rabs (rnd x - x) <= Rabs x * bpow radix2 (-53) + bpow radix2 (-1075).
Proof.
  destruct (Rle_lt_dec (bpow radix2 (-1022)) (Rabs x)) as [L|L].
  - eapply Rle_trans.
    + unfold rnd, exp64. apply (relative_error_N_FLT radix2 (-1074) 53 ltac:(reflexivity)). exact L.
    + replace (/ 2 * bpow radix2 (- (53) + 1)) with (bpow radix2 (-53)).
      * pose proof (bpow_gt_0 radix2 (-1075)). lra.
      * replace (/ 2) with (bpow radix2 (-1)) by reflexivity. rewrite <- bpow_plus. reflexivity.
  - eapply Rle_trans; [apply error_le_half_ulp; apply valid64|].
    destruct (Req_dec x 0) as [->|N].
    { rewrite Rabs_R0. unfold exp64. rewrite ulp_FLT_0 by reflexivity.
      replace (/ 2) with (bpow radix2 (-1)) by reflexivity. rewrite <- bpow_plus. change (-1 + -1074)%Z with (-1075)%Z. lra. }
    rewrite ulp_neq_0 by exact N. unfold cexp.
    assert (M : (mag radix2 x <= -1022)%Z) by (apply mag_le_bpow; assumption).
    replace (/ 2) with (bpow radix2 (-1)) by reflexivity. rewrite <- bpow_plus.
    unfold exp64, FLT_exp. replace (Z.max (mag radix2 x - 53) (-1074)) with (-1074)%Z by lia.
    change (-1 + -1074)%Z with (-1075)%Z. pose proof (Rabs_pos x). pose proof (bpow_gt_0 radix2 (-53)). nra.
Qed.

(** The constants. *)
Lemma pi64_F : pi64 = IZR 7074237752028440 * bpow radix2 (-51).
Proof. unfold pi64. change (bpow radix2 (-51)) with (/ IZR 2251799813685248). lra. Qed.
Lemma two_pi64_F : two_pi64 = IZR 7074237752028440 * bpow radix2 (-50).
Proof.
  unfold two_pi64. rewrite pi64_F. replace (2 * (IZR 7074237752028440 * bpow radix2 (-51))) with (IZR 7074237752028440 * bpow radix2 (-50)).
  - apply rnd_id. apply is64_F2R; [reflexivity|discriminate].
  - change (bpow radix2 (-51)) with (/ IZR 2251799813685248). change (bpow radix2 (-50)) with (/ IZR 1125899906842624). lra.
Qed.
Lemma two_pi64_eq : two_pi64 = 2 * pi64.
Proof. rewrite two_pi64_F, pi64_F. change (bpow radix2 (-51)) with (/ IZR 2251799813685248). change (bpow radix2 (-50)) with (/ IZR 1125899906842624). lra. Qed.
Lemma is64_two_pi : is64 two_pi64.
Proof. rewrite two_pi64_F. apply is64_F2R; [reflexivity|discriminate]. Qed.
Lemma two_pi64_num : two_pi64 = 7074237752028440 / 1125899906842624.
Proof. rewrite two_pi64_F. change (bpow radix2 (-50)) with (/ IZR 1125899906842624). reflexivity. Qed.
Lemma two_pi64_range : 62831853 / 10000000 < two_pi64 < 62831854 / 10000000.
Proof. rewrite two_pi64_num. lra. Qed.
Lemma two_pi64_bound : two_pi64 + 2 / 10 ^ 16 <= 2 * PI <= two_pi64 + 26 / 10 ^ 17.
Proof.
  rewrite two_pi64_eq. pose proof pi64_bound as H. replace (Q2R pi64Q) with pi64 in H; [lra|].
  unfold pi64, pi64Q, Q2R. cbn [QArith_base.Qnum QArith_base.Qden]. lra.
Qed.

Definition cdeg : R := 5030569068109113 / 288230376151711744.
Lemma cdeg_eq : rnd (pi64 / 180) = cdeg.
Proof.
  rewrite (rnd_eq _ 5030569068109113 (-58)); [unfold cdeg; change (bpow radix2 (-58)) with (/ IZR 288230376151711744); lra|lia|lia|].
  rewrite pi64_F. change (bpow radix2 (-51)) with (/ IZR 2251799813685248). change (bpow radix2 (-58)) with (/ IZR 288230376151711744).
  change (bpow radix2 (-58 - 1)) with (/ IZR 576460752303423488). apply Rabs_def1; lra.
Qed.
Definition crad : R := 8063664102031864 / 140737488355328.
Lemma crad_eq : rnd (180 / pi64) = crad.
Proof.
  rewrite (rnd_eq _ 8063664102031864 (-47)); [unfold crad; change (bpow radix2 (-47)) with (/ IZR 140737488355328); lra|lia|lia|].
  rewrite pi64_F. change (bpow radix2 (-51)) with (/ IZR 2251799813685248). change (bpow radix2 (-47)) with (/ IZR 140737488355328).
  change (bpow radix2 (-47 - 1)) with (/ IZR 281474976710656).
  replace (180 / (7074237752028440 * / 2251799813685248)) with (180 * 2251799813685248 / 7074237752028440) by (field; lra).
  apply Rabs_def1; lra.
Qed.
