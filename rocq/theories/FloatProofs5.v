(** Lemmas on rounded values. *)
From Coq Require Import Reals ZArith List String Lia Lra.
From Flocq Require Import Core Relative.
From Coquelicot Require Import Complex.
From Verif Require Import PyBase RMod CBase SpecData DataModel DataProofs DataProofs2 FDataModel FloatModel FloatProofs FloatProofs2
  SpecFloat SpecFloat2 FloatModel2.
Import ListNotations.
Local Open Scope R_scope.

Lemma eps64_bpow : eps64 = bpow radix2 (-53).
Proof. unfold eps64. rewrite bpow_powerRZ. reflexivity. Qed.
Lemma eps64_num : eps64 = / 9007199254740992.
Proof. rewrite eps64_bpow. apply u53. Qed.

(** Relative error away from zero. *)
Lemma rnd_near x : bpow radix2 (-1022) <= Rabs x -> near eps64 x (rnd x).
Proof.
  intros L. unfold near. rewrite eps64_bpow.
  replace (bpow radix2 (-53)) with (/ 2 * bpow radix2 (- (53) + 1)).
  - unfold rnd, exp64. apply (relative_error_N_FLT radix2 (-1074) 53 ltac:(reflexivity)). exact L.
  - replace (/ 2) with (bpow radix2 (-1)) by reflexivity. rewrite <- bpow_plus. reflexivity.
Qed.
Lemma near_0 b : near b 0 0.
Proof. unfold near. rewrite Rminus_0_r, Rabs_R0. lra. Qed.
Lemma near_refl b x : 0 <= b -> near b x x.
Proof. intros B. unfold near. rewrite Rminus_diag_eq, Rabs_R0 by reflexivity. pose proof (Rabs_pos x). nra. Qed.

(** Every double is a multiple of the smallest one. *)
Lemma is64_multiple x : is64 x -> exists k : Z, x = IZR k * bpow radix2 (-1074).
Proof.
  intros H. destruct (F2R_is64 x H) as (m & e & -> & _ & E). exists (m * 2 ^ (e + 1074))%Z.
  rewrite mult_IZR, Rmult_assoc. f_equal. change (2 ^ (e + 1074))%Z with (Zpower radix2 (e + 1074)). rewrite IZR_Zpower by lia. rewrite <- bpow_plus. f_equal. lia.
Qed.
Lemma small_multiple k : Rabs (IZR k * bpow radix2 (-1074)) < bpow radix2 (-1022) -> is64 (IZR k * bpow radix2 (-1074)).
Proof.
  intros L. apply is64_F2R; [|lia].
  rewrite Rabs_mult, (Rabs_pos_eq (bpow radix2 (-1074))) in L by apply bpow_ge_0.
  replace (bpow radix2 (-1022)) with (IZR (2 ^ 52) * bpow radix2 (-1074)) in L
    by (change (IZR (2 ^ 52)) with (bpow radix2 52); rewrite <- bpow_plus; reflexivity).
  apply Rmult_lt_reg_r in L; [|apply bpow_gt_0]. rewrite <- abs_IZR in L. apply lt_IZR in L. lia.
Qed.
(** Sums of doubles have no error from underflow. *)
Lemma sum_near x y : is64 x -> is64 y -> near eps64 (x + y) (rnd (x + y)).
Proof.
  intros X Y. destruct (Rle_lt_dec (bpow radix2 (-1022)) (Rabs (x + y))) as [L|L]; [apply rnd_near; exact L|].
  destruct (is64_multiple x X) as [j Ej], (is64_multiple y Y) as [k Ek].
  assert (E : x + y = IZR (j + k) * bpow radix2 (-1074)) by (rewrite plus_IZR, Ej, Ek; ring).
  rewrite E in *. rewrite rnd_id by (apply small_multiple; exact L). apply near_refl. rewrite eps64_num. lra.
Qed.
Lemma difference_near x y : is64 x -> is64 y -> near eps64 (x - y) (rnd (x - y)).
Proof. intros X Y. apply (sum_near x (- y)); [exact X|apply is64_opp; exact Y]. Qed.

(** A chain of products. *)
Definition chain (fs : list R) (y : R) : R := fold_left (fun y f => rnd (f * y)) fs y.
Lemma times_app fs gs : times (fs ++ gs) = times fs * times gs.
Proof. unfold times. induction fs as [|f fs IH]; cbn [app fold_right]; [ring|]. rewrite IH. ring. Qed.
Lemma tiny_bound : bpow radix2 (-1022) <= / 2 * / 10 ^ 300.
Proof.
  rewrite bpow_powerRZ. change (powerRZ 2 (-1022)) with (/ 2 ^ 1022). rewrite <- Rinv_mult.
  apply Rinv_le_contravar; [apply Rmult_lt_0_compat; [lra|apply pow_lt; lra]|].
  change 10 with (IZR 10). change 2 with (IZR 2). rewrite !pow_IZR, <- mult_IZR. apply IZR_le. vm_compute. discriminate.
Qed.
Lemma not_tiny_prefix fs f y : not_tiny (fs ++ [f]) y -> not_tiny fs y.
Proof.
  intros [E|H]; [left; exact E|right]. intros k. destruct (Nat.le_gt_cases k (List.length fs)) as [L|L].
  - specialize (H k). rewrite firstn_app in H. replace (k - List.length fs)%nat with 0%nat in H by lia. rewrite firstn_O, app_nil_r in H. exact H.
  - specialize (H (List.length fs)). rewrite firstn_app, Nat.sub_diag, firstn_O, app_nil_r, firstn_all in H.
    rewrite firstn_all2 by lia. exact H.
Qed.
Lemma chain_near fs y : not_tiny fs y -> (Z.of_nat (List.length fs) <= 2 ^ 50)%Z ->
  near (INR (List.length fs) * (2 * eps64)) (y * times fs) (chain fs y).
Proof.
  pattern fs. apply rev_ind; clear fs.
  - intros _ _. unfold chain, times; cbn [fold_left fold_right List.length INR]. unfold near. rewrite Rmult_1_r, Rminus_diag_eq, Rabs_R0 by reflexivity.
    pose proof (Rabs_pos y). nra.
  - intros f fs IH T N. specialize (IH (not_tiny_prefix _ _ _ T)). rewrite app_length in N. cbn [List.length] in N.
    rewrite app_length. cbn [List.length]. rewrite plus_INR. cbn [INR].
    specialize (IH ltac:(lia)). unfold chain. rewrite fold_left_app. cbn [fold_left]. fold (chain fs y). rewrite times_app.
    assert (Tf : times [f] = f) by (unfold times; cbn [fold_right]; ring). rewrite Tf.
    set (c := chain fs y) in *. set (n := INR (List.length fs)) in *. set (p := y * times fs) in *.
    replace (y * (times fs * f)) with (f * p) by (unfold p; ring).
    assert (Nb : 0 <= n <= IZR (2 ^ 50)).
    { unfold n. split; [apply pos_INR|]. rewrite INR_IZR_INZ. apply IZR_le. lia. }
    assert (U : 0 <= n * (2 * eps64) <= / 4).
    { rewrite eps64_num. change (IZR (2 ^ 50)) with 1125899906842624 in Nb. lra. }
    assert (Cm : Rabs (f * c - f * p) <= n * (2 * eps64) * Rabs (f * p)).
    { replace (f * c - f * p) with (f * (c - p)) by ring. rewrite !Rabs_mult. unfold near in IH. pose proof (Rabs_pos f).
      replace (n * (2 * eps64) * (Rabs f * Rabs p)) with (Rabs f * (n * (2 * eps64) * Rabs p)) by ring. apply Rmult_le_compat_l; assumption. }
    assert (S : near eps64 (f * c) (rnd (f * c))).
    { destruct T as [->|T].
      - assert (p = 0) as P0 by (unfold p; ring). unfold near in IH. rewrite P0, Rabs_R0, Rmult_0_r, Rminus_0_r in IH.
        pose proof (Rabs_pos c). assert (C0 : c = 0) by (destruct (Req_dec c 0) as [|Q]; [assumption|apply Rabs_no_R0 in Q; lra]).
        rewrite C0, Rmult_0_r, rnd_id by apply is64_0. apply near_0.
      - apply rnd_near. specialize (T (List.length (fs ++ [f]))). rewrite firstn_all, times_app, Tf in T.
        replace (y * (times fs * f)) with (f * p) in T by (unfold p; ring). pose proof tiny_bound as B.
        assert (A : Rabs (f * p) - Rabs (f * c) <= Rabs (f * c - f * p)).
        { rewrite (Rabs_minus_sym (f * c)). apply Rabs_triang_inv. }
        assert (0 < / 10 ^ 300) by (apply Rinv_0_lt_compat, pow_lt; lra). nra. }
    unfold near in *. replace (rnd (f * c) - f * p) with ((rnd (f * c) - f * c) + (f * c - f * p)) by ring.
    eapply Rle_trans; [apply Rabs_triang|].
    assert (A : Rabs (f * c) <= Rabs (f * p) + Rabs (f * c - f * p)).
    { replace (f * c) with (f * p + (f * c - f * p)) at 1 by ring. apply Rabs_triang. }
    pose proof (Rabs_pos (f * p)). assert (Ep : 0 < eps64 < / 1000) by (rewrite eps64_num; lra).
    assert (A2 : Rabs (f * c) <= 2 * Rabs (f * p)) by nra.
    assert (A3 : eps64 * Rabs (f * c) <= eps64 * (2 * Rabs (f * p))) by (apply Rmult_le_compat_l; lra).
    replace ((n + 1) * (2 * eps64) * Rabs (f * p)) with (n * (2 * eps64) * Rabs (f * p) + eps64 * (2 * Rabs (f * p))) by ring. lra.
Qed.
Lemma scalings_nonneg fs : Forall (fun f => 0 <= f) fs -> forall d,
  let d' := scalings64 d fs in
  dc_scale d' = chain fs (dc_scale d) /\ dc_offset d' = dc_offset d /\ dc_phase d' = dc_phase d /\
  dc_data d' = dmap (map_y (chain fs)) (dc_data d).
Proof.
  induction 1 as [|f fs F _ IH]; intros d; cbv zeta.
  - cbn [scalings64 chain fold_left]. repeat split. unfold chain; cbn [fold_left]. symmetry. apply dmap_id. intros; apply map_y_id. reflexivity.
  - cbn [scalings64]. unfold scale_data64. rewrite (proj2 (Rltb_false f 0) F). cbn [fst].
    destruct (IH (mkdat (dmap (map_y (fun y => rnd (f * y))) (dc_data d)) (rnd (dc_scale d * f)) (dc_phase d) (dc_offset d) (dc_units d) (dc_coerced d)))
      as (A & B & C & D). cbv zeta in *. cbn [dc_scale dc_offset dc_phase dc_data] in *.
    split; [rewrite A; unfold chain; cbn [fold_left]; now rewrite (Rmult_comm f)|]. split; [exact B|]. split; [exact C|].
    rewrite D, dmap_dmap. unfold dmap. apply map_ext. intros [k p]. cbn [fst snd]. f_equal. unfold map_y. rewrite map_map. reflexivity.
Qed.
Lemma same_points_map (P : R -> R -> Prop) f (v : list (string * list (R * R))) :
  (forall y, value_of v y -> P y (f y)) -> same_points P v (dmap (map_y f) v).
Proof.
  intros H. unfold same_points.
  assert (G : forall k p q, In (k, p) v -> In q p -> P (snd q) (f (snd q))).
  { intros k p [x y] I J. apply H. exists k, p, x. split; assumption. }
  clear H. induction v as [|[k p] v IH]; cbn [dmap map]; constructor.
  - cbn [fst snd]. split; [reflexivity|]. assert (Gp := fun q => G k p q (or_introl eq_refl)). clear -Gp.
    induction p as [|q p IH]; cbn [map_y map]; constructor; [cbn [fst snd]; split; [reflexivity|apply Gp; left; reflexivity]|].
    apply IH. intros q' I. apply Gp. right. exact I.
  - apply IH. intros k' p' q I. apply (G k' p' q). right. exact I.
Qed.
