(** Normalizing, subtracting the minimum, adding and subtracting in doubles. *)
From Coq Require Import Reals ZArith List String Lia Lra.
From Flocq Require Import Core.
From Coquelicot Require Import Complex.
From Verif Require Import PyBase RMod CBase SpecData DataModel DataProofs DataProofs2 FDataModel FloatModel FloatProofs FloatProofs2 FloatProofs4
  SpecFloat SpecFloat2 FloatModel2 FloatProofs5.
Import ListNotations.
Local Open Scope R_scope.

Lemma maximum_read d m : has_points (dc_data d) -> is_max (value_of (dc_data d)) m -> exists k, get_maxval d = Ok (Some (k, m)).
Proof.
  intros F M. assert (N : dc_data d <> []).
  { destruct M as [(k & p & z & I & _) _]. intros E; rewrite E in I; destruct I. }
  destruct (get_maxval_spec d N F) as (k & m' & E & FM). apply first_max_is_max in FM.
  assert (m' = m) as -> by (eapply is_max_unique; eauto). exists k. exact E.
Qed.
Lemma minimum_read d m : has_points (dc_data d) -> is_min (value_of (dc_data d)) m -> exists k, get_minval d = Ok (Some (k, m)).
Proof.
  intros F M. assert (N : dc_data d <> []).
  { destruct M as [(k & p & z & I & _) _]. intros E; rewrite E in I; destruct I. }
  destruct (get_minval_spec d N F) as (k & m' & E & FM). apply first_min_is_min in FM.
  assert (m' = m) as -> by (eapply is_min_unique; eauto). exists k. exact E.
Qed.
Lemma scale_monotone f a b : 0 <= f -> a <= b -> rnd (f * a) <= rnd (f * b).
Proof. intros F L. apply rnd_le. apply Rmult_le_compat_l; assumption. Qed.

Lemma normalize64_spec d m x : has_points (dc_data d) -> is_max (value_of (dc_data d)) m -> 0 < m -> 0 <= x ->
  let f := rnd (x / m) in
  normalize_data64 d x = (mkdat (dmap (map_y (fun y => rnd (f * y))) (dc_data d)) (rnd (dc_scale d * f))
          (dc_phase d) (dc_offset d) (dc_units d) (dc_coerced d), Ok tt) /\ 0 <= f /\
  is_max (value_of (dmap (map_y (fun y => rnd (f * y))) (dc_data d))) (rnd (f * m)).
Proof.
  intros F M P X f. destruct (maximum_read d m F M) as [k E]. unfold normalize_data64. rewrite E.
  destruct (Reqb m 0) eqn:Z; [apply Reqb_true in Z; lra|]. fold f.
  assert (Q : 0 <= f).
  { unfold f. rewrite <- (rnd_id 0 is64_0). apply rnd_le. apply Rmult_le_pos; [lra|left; apply Rinv_0_lt_compat; lra]. }
  unfold scale_data64. rewrite (proj2 (Rltb_false f 0) Q). split; [reflexivity|]. split; [exact Q|]. destruct M as [A B]. split.
  - apply value_of_dmap. exists m. split; [exact A|reflexivity].
  - intros y Y. apply value_of_dmap in Y as (y0 & Y & ->). apply scale_monotone; [exact Q|apply B; exact Y].
Qed.
Lemma normalize64_fails d m x : has_points (dc_data d) -> is_max (value_of (dc_data d)) m -> m < 0 -> / 10 ^ 300 <= x / - m -> 
  normalize_data64 d x = (d, Raise ValueError).
Proof.
  intros F M P X. destruct (maximum_read d m F M) as [k E]. unfold normalize_data64. rewrite E.
  destruct (Reqb m 0) eqn:Z; [apply Reqb_true in Z; lra|].
  assert (T := tiny_bound). assert (0 < / 10 ^ 300) by (apply Rinv_0_lt_compat, pow_lt; lra).
  assert (Q : rnd (x / m) < 0).
  { replace (x / m) with (- (x / - m)) by (field; lra). rewrite rnd_opp.
    assert (N := rnd_near (x / - m)). unfold near in N. rewrite (Rabs_pos_eq (x / - m)) in N by lra. specialize (N ltac:(lra)).
    rewrite eps64_num in N. apply Rabs_le_inv in N. lra. }
  unfold scale_data64. rewrite (proj2 (Rltb_true _ 0) Q). reflexivity.
Qed.
Lemma two_roundings m x : 0 < m -> / 10 ^ 300 <= x -> / 10 ^ 300 <= x / m -> near (3 * eps64) x (rnd (rnd (x / m) * m)).
Proof.
  intros P X Y. assert (T := tiny_bound). assert (T0 : 0 < / 10 ^ 300) by (apply Rinv_0_lt_compat, pow_lt; lra).
  assert (N := rnd_near (x / m)). unfold near in N. rewrite (Rabs_pos_eq (x / m)) in N by lra. specialize (N ltac:(lra)).
  set (f := rnd (x / m)) in *.
  assert (N1 : Rabs (f * m - x) <= eps64 * x).
  { replace (f * m - x) with ((f - x / m) * m) by (field; lra). rewrite Rabs_mult, (Rabs_pos_eq m) by lra.
    replace (eps64 * x) with (eps64 * (x / m) * m) by (field; lra). apply Rmult_le_compat_r; lra. }
  assert (Ep : 0 < eps64 <= / 4) by (rewrite eps64_num; lra).
  assert (N2 : x / 2 <= f * m <= 2 * x).
  { apply Rabs_le_inv in N1. assert (eps64 * x <= / 4 * x) by (apply Rmult_le_compat_r; lra). lra. }
  assert (N3 := rnd_near (f * m)). unfold near in *. rewrite (Rabs_pos_eq (f * m)) in N3 by lra. specialize (N3 ltac:(lra)).
  rewrite (Rabs_pos_eq x) by lra.
  replace (rnd (f * m) - x) with ((rnd (f * m) - f * m) + (f * m - x)) by ring. eapply Rle_trans; [apply Rabs_triang|].
  assert (eps64 * (f * m) <= eps64 * (2 * x)) by (apply Rmult_le_compat_l; lra). lra.
Qed.

(** 49 * (1 / 49) *)
Lemma inverse_49 : rnd (1 / 49) = 5882252574524729 / 288230376151711744.
Proof. rounds 5882252574524729%Z (-58)%Z. lra. Qed.
Lemma product_49 : rnd (rnd (1 / 49) * 49) = 1 - eps64.
Proof. rewrite inverse_49, eps64_num. transitivity (9007199254740991 / 9007199254740992); [|lra]. rewrite (rnd_eq _ 9007199254740991 (-53)); [|split; reflexivity|discriminate|].
  - change (bpow radix2 (-53)) with (/ IZR 9007199254740992). lra.
  - change (bpow radix2 (-53 - 1)) with (/ IZR 18014398509481984). change (bpow radix2 (-53)) with (/ IZR 9007199254740992). apply Rabs_def1; lra.
Qed.

Lemma subtract64_spec d m : has_points (dc_data d) -> is_min (value_of (dc_data d)) m ->
  subtract_min64 d = (mkdat (dmap (map_y (fun y => rnd (y - m))) (dc_data d)) (dc_scale d) (dc_phase d)
         (rnd (dc_offset d - m)) (dc_units d) (dc_coerced d), Ok tt) /\
  is_min (value_of (dmap (map_y (fun y => rnd (y - m))) (dc_data d))) 0.
Proof.
  intros F M. destruct (minimum_read d m F M) as [k E]. unfold subtract_min64. rewrite E. split; [reflexivity|]. destruct M as [A B]. split.
  - apply value_of_dmap. exists m. split; [exact A|]. rewrite Rminus_diag_eq, (rnd_id 0 is64_0) by reflexivity. reflexivity.
  - intros y Y. apply value_of_dmap in Y as (y0 & Y & ->). rewrite <- (rnd_id 0 is64_0). apply rnd_le. specialize (B y0 Y). lra.
Qed.
Lemma subtract64_again d m : has_points (dc_data d) -> is_min (value_of (dc_data d)) m ->
  let d' := fst (subtract_min64 d) in subtract_min64 d' = (d', Ok tt).
Proof.
  intros F M d'. destruct (subtract64_spec d m F M) as [E Z]. unfold d'. rewrite E. cbn [fst].
  set (e := mkdat _ _ _ _ _ _).
  assert (Fe : has_points (dc_data e)) by (apply nonempty_map_y; exact F).
  destruct (subtract64_spec e 0 Fe Z) as [E' _]. rewrite E'. unfold e. cbn [dc_data dc_scale dc_phase dc_offset dc_units dc_coerced].
  rewrite Rminus_0_r, (rnd_id (rnd (dc_offset d - m)) (rnd_is64 _)). do 2 f_equal. rewrite dmap_dmap. unfold dmap. apply map_ext. intros [k p]. cbn [fst snd]. f_equal.
  unfold map_y. rewrite map_map. apply map_ext. intros [x y]. cbn [fst snd]. f_equal. rewrite Rminus_0_r, (rnd_id _ (rnd_is64 _)). reflexivity.
Qed.

(** A sum taken back. *)
Lemma sum_back a b : is64 a -> is64 b -> Rabs (rnd (rnd (a + b) - b) - a) <= 3 * eps64 * (Rabs a + Rabs b).
Proof.
  intros A B. assert (S := sum_near a b A B). set (s := rnd (a + b)) in *. assert (Is : is64 s) by apply rnd_is64.
  assert (D := difference_near s b Is B). unfold near in *. assert (Ep : 0 < eps64 <= / 4) by (rewrite eps64_num; lra).
  pose proof (Rabs_triang a b) as T. pose proof (Rabs_pos a). pose proof (Rabs_pos b).
  replace (rnd (s - b) - a) with ((rnd (s - b) - (s - b)) + (s - (a + b))) by ring. eapply Rle_trans; [apply Rabs_triang|].
  assert (Q : Rabs (s - b) <= Rabs a + eps64 * Rabs (a + b)).
  { replace (s - b) with (a + (s - (a + b))) by ring. eapply Rle_trans; [apply Rabs_triang|]. lra. }
  assert (Q1 : eps64 * Rabs (a + b) <= eps64 * (Rabs a + Rabs b)) by (apply Rmult_le_compat_l; lra).
  assert (Q2 : eps64 * (Rabs a + Rabs b) <= / 4 * (Rabs a + Rabs b)) by (apply Rmult_le_compat_r; lra).
  assert (Q3 : eps64 * Rabs (s - b) <= eps64 * (2 * (Rabs a + Rabs b))) by (apply Rmult_le_compat_l; lra).
  lra.
Qed.
Lemma count_is64 n : (Z.abs n < 2 ^ 53)%Z -> is64 (IZR n).
Proof. intros L. replace (IZR n) with (IZR n * bpow radix2 0) by (cbn [bpow]; ring). apply is64_F2R; [exact L|lia]. Qed.
Lemma count_back a b : count a -> count b -> Rabs (a + b) <= 2 ^ 52 -> rnd (a + b) = a + b /\ rnd (rnd (a + b) - b) = a.
Proof.
  intros (j & -> & J) (k & -> & K) S. change (2 ^ 52) with (IZR 2 ^ 52) in S. rewrite pow_IZR, <- plus_IZR, <- abs_IZR in S. apply le_IZR in S.
  change (2 ^ Z.of_nat 52)%Z with (2 ^ 52)%Z in S.
  assert (E : rnd (IZR j + IZR k) = IZR j + IZR k) by (rewrite <- plus_IZR; apply rnd_id, count_is64; lia).
  split; [exact E|]. rewrite E. replace (IZR j + IZR k - IZR k) with (IZR j) by ring. apply rnd_id, count_is64. lia.
Qed.
(** 2^53 + 1 *)
Lemma absorbed : rnd (1 + 2 ^ 53) = 2 ^ 53.
Proof.
  replace (2 ^ 53) with 9007199254740992 by lra. 
  unfold rnd, round, F2R, scaled_mantissa, cexp.
  assert (Mg : mag radix2 (1 + 9007199254740992) = 54%Z :> Z).
  { apply mag_unique. rewrite Rabs_pos_eq by lra. change (bpow radix2 (54 - 1)) with 9007199254740992. change (bpow radix2 54) with 18014398509481984. lra. }
  rewrite Mg. change (exp64 54) with 1%Z. change (bpow radix2 (- (1))) with (/ 2). cbn [Fnum Fexp].
  replace ((1 + 9007199254740992) * / 2) with (IZR 4503599627370496 + / 2) by lra.
  assert (Z0 : ZnearestE (IZR 4503599627370496 + / 2) = 4503599627370496%Z).
  { unfold Znearest. assert (Fl : Zfloor (IZR 4503599627370496 + / 2) = 4503599627370496%Z) by (apply Zfloor_imp; rewrite plus_IZR; lra).
    rewrite Fl. rewrite Rcompare_Eq by lra. reflexivity. }
  rewrite Z0. change (bpow radix2 1) with 2. lra.
Qed.
