(** C98-C101: values held in double precision, coefficients held in single precision. *)
From Coq Require Import Reals ZArith List String Lia Lra.
From Coquelicot Require Import Complex.
From Verif Require Import PyBase RMod CBase SpecData DataModel DataProofs DataProofs2 DataProofs3 FDataModel SpecFData FDataProofs FDataProofs2 PropertiesData PropertiesFData
  FloatModel FloatProofs FloatProofs2 SpecFloat SpecFloat2 FloatModel2 FloatProofs5 FloatProofs6 FloatProofs7 FloatProofs8.
Import ListNotations.
Local Open Scope R_scope.

(** A container with one point. *)
Definition one_point (y : R) : dat := mkdat [("PP"%string, [(0, y)])] 1 0 0 "radians" false.
Lemma mod2pi_zero : mod2pi 0 = 0.
Proof. apply mod2pi_unique with (k := 0%Z); unfold twopi; pose proof PI_bounds; lra. Qed.
Lemma one_point_constructed y : construct (input DFloat [("PP"%string, [(0, y)])]) "radians" false = Ok (one_point y).
Proof.
  rewrite construct_input; [|repeat constructor; intros []|repeat constructor; discriminate].
  unfold one_point. cbn [dmap map fst snd]. unfold finish. cbn. rewrite mod2pi_zero. reflexivity.
Qed.
Lemma one_point_reachable y : reachable (one_point y).
Proof. eexists _, _, _, _, []. split; [apply one_point_constructed|reflexivity]. Qed.
Lemma one_point_max y : is_max (value_of (dc_data (one_point y))) y.
Proof.
  split; [exists "PP"%string, [(0, y)], 0; cbn; auto|]. intros z (k & p & x & [E|[]] & I). injection E as <- <-. destruct I as [E|[]]. injection E as _ <-. lra.
Qed.
Lemma one_point_min y : is_min (value_of (dc_data (one_point y))) y.
Proof.
  split; [exists "PP"%string, [(0, y)], 0; cbn; auto|]. intros z (k & p & x & [E|[]] & I). injection E as <- <-. destruct I as [E|[]]. injection E as _ <-. lra.
Qed.
Lemma one_point_has y : has_points (dc_data (one_point y)).
Proof. repeat constructor. discriminate. Qed.

(** ** C98: scaling and normalizing *)

(** Data with the maximum 49 normalized to 1 has a maximum below 1. *)
Theorem C98_refuted : exists d d', reachable d /\ is_max (value_of (dc_data d)) 49 /\
  normalize_data64 d 1 = (d', Ok tt) /\ is_max (value_of (dc_data d')) (1 - / 2 ^ 53).
Proof.
  exists (one_point 49). eexists. split; [apply one_point_reachable|]. split; [apply one_point_max|].
  destruct (normalize64_spec (one_point 49) 49 1 (one_point_has 49) (one_point_max 49) ltac:(lra) ltac:(lra)) as (E & _ & M).
  split; [exact E|]. cbn [dc_data]. rewrite product_49 in M. exact M.
Qed.
Print Assumptions C98_refuted.

(** The maximum is the requested one up to three units of 2^-53; for a negative maximum
    the call is refused, as with exact numbers. *)
Theorem C98_maximum_partial : forall d m x, has_points (dc_data d) -> is_max (value_of (dc_data d)) m ->
  (0 < m -> / 10 ^ 300 <= x -> / 10 ^ 300 <= x / m ->
    exists d' m', normalize_data64 d x = (d', Ok tt) /\ is_max (value_of (dc_data d')) m' /\ near (3 * eps64) x m' /\ double m') /\
  (m < 0 -> / 10 ^ 300 <= x / - m -> normalize_data64 d x = (d, Raise ValueError)).
Proof.
  intros d m x F M. split.
  - intros P X Y. assert (0 < / 10 ^ 300) by (apply Rinv_0_lt_compat, pow_lt; lra).
    destruct (normalize64_spec d m x F M P ltac:(lra)) as (E & _ & Mx). eexists _, _. split; [exact E|]. split; [exact Mx|].
    split; [apply two_roundings; assumption|apply double_iff, rnd_is64].
  - intros P X. apply (normalize64_fails d m x); assumption.
Qed.
Print Assumptions C98_maximum_partial.
Example C98_maximum_case : exists d' m', normalize_data64 (one_point 3) 1 = (d', Ok tt) /\ is_max (value_of (dc_data d')) m' /\ near (3 * eps64) 1 m' /\ double m'.
Proof.
  assert (B : / 10 ^ 300 <= / 10) by (apply Rinv_le_contravar; [lra|]; rewrite <- (pow_1 10) at 1; apply Rle_pow; [lra|lia]).
  apply (C98_maximum_partial _ _ 1 (one_point_has 3) (one_point_max 3)); lra.
Qed.

(** Scaling keeps the order of the values, and zeros: it acts on every value by one
    increasing function, and the angles and the other records stay. *)
Theorem C98_order : forall d f, 0 <= f -> exists (g : R -> R) d', scale_data64 d f = (d', Ok tt) /\
  dc_data d' = map (fun kv => (fst kv, map (fun q => (fst q, g (snd q))) (snd kv))) (dc_data d) /\
  (forall a b, a <= b -> g a <= g b) /\ g 0 = 0 /\
  dc_phase d' = dc_phase d /\ get_offset d' = get_offset d.
Proof.
  intros d f F. exists (fun y => rnd (f * y)). eexists. unfold scale_data64. rewrite (proj2 (Rltb_false f 0) F). split; [reflexivity|].
  split; [reflexivity|]. split; [intros a b L; apply scale_monotone; assumption|]. split; [rewrite Rmult_0_r; apply rnd_id, is64_0|]. split; reflexivity.
Qed.
Print Assumptions C98_order.

(** After any number of scalings the values and the recorded scale are right up to a
    relative error of two units of 2^-53 for every scaling, unless tiny numbers occur. *)
Theorem C98_history_partial : forall d fs, Forall (fun f => 0 <= f) fs -> (Z.of_nat (List.length fs) <= 2 ^ 50)%Z ->
  not_tiny fs (get_scale d) -> (forall y, value_of (dc_data d) y -> not_tiny fs y) ->
  let d' := scalings64 d fs in let b := INR (List.length fs) * (2 * eps64) in
  near b (get_scale d * times fs) (get_scale d') /\
  same_points (fun y y' => near b (y * times fs) y') (dc_data d) (dc_data d') /\
  (get_scale d = 1 -> same_points (fun y y' => Rabs (y' - get_scale d' * y) <= 2 * b * Rabs (y * times fs)) (dc_data d) (dc_data d')).
Proof.
  intros d fs F N S V d' b. destruct (scalings_nonneg fs F d) as (A & _ & _ & D). cbv zeta in *. fold d' in A, D. unfold get_scale. rewrite A, D.
  assert (Ns := chain_near fs (dc_scale d) S N). split; [exact Ns|]. split.
  - apply same_points_map. intros y Y. apply chain_near; auto.
  - intros E. apply same_points_map. intros y Y. pose proof (chain_near fs y (V y Y) N) as Ny. fold b in Ns, Ny. unfold near in *. rewrite E in *. rewrite Rmult_1_l in Ns.
    replace (chain fs y - chain fs 1 * y) with ((chain fs y - y * times fs) - (chain fs 1 - times fs) * y) by ring.
    eapply Rle_trans; [apply Rabs_triang|]. rewrite Rabs_Ropp, Rabs_mult. rewrite (Rabs_mult y (times fs)) in *. pose proof (Rabs_pos y).
    assert (Rabs (chain fs 1 - times fs) * Rabs y <= b * Rabs (times fs) * Rabs y) by (apply Rmult_le_compat_r; assumption). lra.
Qed.
Print Assumptions C98_history_partial.
Example C98_history_case : not_tiny [3; / 3] 1 /\ not_tiny [3; / 3] (-7) /\ Forall (fun f => 0 <= f) [3; / 3].
Proof.
  assert (B : / 10 ^ 300 <= / 10) by (apply Rinv_le_contravar; [lra|]; rewrite <- (pow_1 10) at 1; apply Rle_pow; [lra|lia]).
  split; [|split].
  - right. intros [|[|k]]; unfold times; cbn [firstn fold_right]; [| |rewrite firstn_nil; cbn [fold_right]]; rewrite Rabs_pos_eq; lra.
  - right. intros [|[|k]]; unfold times; cbn [firstn fold_right]; [| |rewrite firstn_nil; cbn [fold_right]]; rewrite Rabs_left; lra.
  - repeat constructor; lra.
Qed.

(** ** C99: subtracting the minimum *)

(** The smallest value becomes exactly zero and no value becomes negative, with no
    condition on the data; every value is the true difference up to half a unit in the
    last place; a second call changes nothing at all. *)
Theorem C99_subtract_min : forall d m, has_points (dc_data d) -> is_min (value_of (dc_data d)) m ->
  exists d', subtract_min64 d = (d', Ok tt) /\ is_min (value_of (dc_data d')) 0 /\
    (forall y, value_of (dc_data d') y -> double y) /\
    ((forall y, value_of (dc_data d) y -> double y) ->
       same_points (fun y y' => near eps64 (y - m) y') (dc_data d) (dc_data d')) /\
    (double (get_offset d) -> double m -> near eps64 (get_offset d - m) (get_offset d')) /\
    (get_offset d = 0 -> double m -> get_offset d' = - m) /\
    get_scale d' = get_scale d /\ dc_phase d' = dc_phase d /\
    subtract_min64 d' = (d', Ok tt).
Proof.
  intros d m F M. destruct (subtract64_spec d m F M) as [E Z]. pose proof (subtract64_again d m F M) as A. cbv zeta in A. rewrite E in A. cbn [fst] in A.
  eexists. split; [exact E|]. split; [exact Z|]. cbn [dc_data get_offset dc_offset get_scale dc_scale dc_phase]. unfold get_offset, get_scale. cbn [dc_offset dc_scale].
  split; [|split; [|split; [|split; [|split; [|split]]]]]; try reflexivity; try exact A.
  - intros y Y. apply value_of_dmap in Y as (y0 & _ & ->). apply double_iff, rnd_is64.
  - intros V. apply same_points_map. intros y Y. apply difference_near; apply double_iff; [apply V; exact Y|apply V; apply M].
  - intros O D. apply difference_near; apply double_iff; assumption.
  - intros -> D. rewrite Rminus_0_l. apply rnd_id, is64_opp, double_iff. exact D.
Qed.
Print Assumptions C99_subtract_min.
Example C99_case : has_points (dc_data (one_point 5)) /\ is_min (value_of (dc_data (one_point 5))) 5 /\ forall y, value_of (dc_data (one_point 5)) y -> double y.
Proof.
  split; [apply one_point_has|]. split; [apply one_point_min|]. intros y (k & p & x & [E|[]] & I). injection E as <- <-. destruct I as [E|[]]. injection E as _ <-.
  apply double_iff. apply (count_is64 5). reflexivity.
Qed.

(** ** C100: adding and taking back *)

(** A value of 1 added to one of 2^53 is lost: taking the second back leaves 0. *)
Theorem C100_refuted : exists d1 d2 s d, reachable d1 /\ reachable d2 /\ all_distinct d1 /\ can_combine d1 d2 /\
  dat_add64 d1 d2 = Ok s /\ dat_subtract64 s d2 = Ok d /\
  get_pc d1 "PP" "radians" = Ok [(0, 1)] /\ get_pc d "PP" "radians" = Ok [(0, 0)].
Proof.
  assert (Dj : all_distinct (one_point 1)).
  { intros k p E. apply (get_pc_In _ k p (reachable_wf _ (one_point_reachable 1))) in E. destruct E as [E|[]]. injection E as <- <-. repeat constructor. }
  assert (Cc : can_combine (one_point 1) (one_point (2 ^ 53))).
  { split; [discriminate|]. split; [tauto|]. split.
    - intros p1 p2 r1 r2 E1 E2. unfold get_values, view in *. cbn in E1, E2. injection E1 as <- _. injection E2 as <- _. reflexivity.
    - intros k p1 p2 E1 E2. apply (get_pc_In _ k p1 (reachable_wf _ (one_point_reachable 1))) in E1. apply (get_pc_In _ k p2 (reachable_wf _ (one_point_reachable _))) in E2.
      destruct E1 as [E1|[]], E2 as [E2|[]]. injection E1 as <- <-. injection E2 as <-.
      repeat constructor. cbn [fst]. unfold close. rewrite Rminus_diag_eq, Rabs_R0 by reflexivity. lra. }
  destruct (arith_twice (fun a b => rnd (a + b)) (fun a b => rnd (a - b)) _ _ (one_point_reachable 1) Dj Cc) as (s & d & E & E' & F).
  exists (one_point 1), (one_point (2 ^ 53)), s, d. split; [apply one_point_reachable|]. split; [apply one_point_reachable|]. split; [exact Dj|]. split; [exact Cc|].
  split; [exact E|]. split; [exact E'|]. split; [reflexivity|].
  remember (dc_data d) as dd eqn:Ed. inversion F as [|a b l l' (K & p2 & E2 & L & Eb) F' Ea El]; subst a l dd. cbn [fst snd] in *. inversion F'; subst l'.
  unfold get_pc, view. cbn. rewrite <- El. destruct b as [k v]. cbn [fst snd] in *. subst k v.
  replace (one_point (2 ^ 53)) with (mkdat [("PP"%string, [(0, 2 ^ 53)])] 1 0 0 "radians" false) in E2 by reflexivity.
  assert (p2 = [(0, 2 ^ 53)]) as ->.
  { apply (get_pc_In _ _ _ (reachable_wf _ (one_point_reachable (2 ^ 53)))) in E2. destruct E2 as [E2|[]]. congruence. }
  replace (pointwise (fun a b : R => rnd (a - b)) (pointwise (fun a b : R => rnd (a + b)) [(0, 1)] [(0, 2 ^ 53)]) [(0, 2 ^ 53)])
    with [(0, rnd (rnd (1 + 2 ^ 53) - 2 ^ 53))] by reflexivity.
  rewrite absorbed, Rminus_diag_eq, (rnd_id 0 is64_0) by reflexivity. reflexivity.
Qed.
Print Assumptions C100_refuted.

(** For data up to [B] in size the original comes back up to six units of 2^-53 of [B]. *)
Theorem C100_inverse_partial : forall d1 d2 B, reachable d1 -> reachable d2 -> all_distinct d1 -> can_combine d1 d2 ->
  (forall y, value_of (dc_data d1) y \/ value_of (dc_data d2) y -> double y /\ Rabs y <= B) ->
  exists s d, dat_add64 d1 d2 = Ok s /\ dat_subtract64 s d2 = Ok d /\
    same_points (fun y y' => Rabs (y' - y) <= 6 * eps64 * B) (dc_data d1) (dc_data d).
Proof.
  intros d1 d2 B R1 R2 D Cc V. apply back_points; try assumption. intros a b A Bb.
  destruct (V a (or_introl A)) as [Da La], (V b (or_intror Bb)) as [Db Lb]. apply double_iff in Da, Db.
  pose proof (sum_back a b Da Db) as H. assert (Ep : 0 < eps64) by (rewrite eps64_num; lra).
  assert (3 * eps64 * (Rabs a + Rabs b) <= 3 * eps64 * (2 * B)) by (apply Rmult_le_compat_l; lra). lra.
Qed.
Print Assumptions C100_inverse_partial.

(** Counts whose sums stay below 2^52 come back exactly. *)
Theorem C100_counts : forall d1 d2, reachable d1 -> reachable d2 -> all_distinct d1 -> can_combine d1 d2 ->
  (forall y, value_of (dc_data d1) y \/ value_of (dc_data d2) y -> count y) ->
  (forall a b, value_of (dc_data d1) a -> value_of (dc_data d2) b -> Rabs (a + b) <= 2 ^ 52) ->
  exists s d, dat_add64 d1 d2 = Ok s /\ dat_subtract64 s d2 = Ok d /\ get_items d "radians" = get_items d1 "radians" /\
    dat_add64 d1 d2 = dat_add d1 d2.
Proof.
  intros d1 d2 R1 R2 D Cc V S.
  destruct (back_points (fun a b => rnd (a + b)) (fun a b => rnd (a - b)) (fun a b => b = a) d1 d2 R1 R2 D Cc) as (s & d & E & E' & F).
  { intros a b A B. apply (count_back a b (V a (or_introl A)) (V b (or_intror B)) (S a b A B)). }
  exists s, d. split; [exact E|]. split; [exact E'|]. split.
  - apply same_points_eq in F. unfold get_items, view. cbn. now rewrite F.
  - unfold dat_add64, dat_add. rewrite !dat_arith_ok by (auto using reachable_wf, reachable_normal). f_equal. f_equal.
    unfold arith_data. apply map_ext_in. intros [k p] I. cbn [fst snd]. f_equal. destruct (dget k (dc_data d2)) as [p2|] eqn:G.
    + unfold pointwise. apply map_ext_in. intros [q r] J. cbn [fst snd]. f_equal.
      pose proof (in_combine_l _ _ _ _ J) as J1. pose proof (in_combine_r _ _ _ _ J) as J2. apply stretch_In in J2.
      assert (Vq : value_of (dc_data d1) (snd q)) by (exists k, p, (fst q); split; [exact I|destruct q; exact J1]).
      assert (Vr : value_of (dc_data d2) (snd r)) by (exists k, p2, (fst r); split; [apply dget_In; exact G|destruct r; exact J2]).
      exact (proj1 (count_back (snd q) (snd r) (V _ (or_introl Vq)) (V _ (or_intror Vr)) (S _ _ Vq Vr))).
    + unfold pointwise. rewrite !combine_nil. reflexivity.
Qed.
Print Assumptions C100_counts.

(** ** C101: coefficients in single precision *)

Definition flat (c : R) : fdat := mkfdat [("PP"%string, [RtoC 0; RtoC c; RtoC 0])] 1 (PNum 0) 1.
Lemma flat_reachable c : freachable (flat c).
Proof.
  exists (fitems [("PP"%string, [RtoC 0; RtoC c; RtoC 0])]), 1%nat. eexists _, []. split; [|reflexivity]. apply fconstruct_items. split; repeat constructor. intros [].
Qed.
Lemma sampled_reachable f n d : fdat_to_dat f n = Ok d -> reachable d.
Proof. unfold fdat_to_dat. cbv zeta. intros H. eexists _, _, _, d, []. split; [exact H|reflexivity]. Qed.
Lemma flat_hermitian c k v : fget_pc (flat c) k = Ok v -> hermitian 1 v.
Proof.
  intros E. unfold fget_pc, dgetr in E. destruct (dget k (fd_data (flat c))) eqn:G; [|discriminate]. injection E as <-. apply dget_In in G. destruct G as [G|[]].
  injection G as <- <-. intros m L. assert (m = -1 \/ m = 0 \/ m = 1)%Z as [->|[->| ->]] by lia; apply C_ext; simpl; unfold Re, Im; simpl; lra.
Qed.

(** Every stored coefficient is a pair of single-precision numbers within 2^-24 of the
    exact coefficient (for sums computed up to [e], and below the single-precision
    overflow). *)
Theorem C101_stored_partial : forall interp comp d M f e, reachable d -> dat_to_fdat interp d M = Ok f ->
  (forall p m z, Cmod (Cminus (comp p m z) z) <= e) ->
  (forall k v z, In (k, v) (fget_items f) -> In z v -> Cmod z + e <= 10 ^ 38) ->
  exists f', dat_to_fdat32 interp comp d M = Ok f' /\ fget_M f' = fget_M f /\ fget_scale f' = fget_scale f /\
    Forall2 (fun a b => fst b = fst a /\ Forall2 (in_single e) (snd a) (snd b)) (fget_items f) (fget_items f').
Proof.
  intros interp comp d M f e R H E B.
  destruct (stored_fdat interp comp e M d f (reachable_wf d R) H) as (r' & Er & Wf & Mf & _ & F).
  - intros k p _. apply E.
  - apply Forall_forall. intros [k v] I. apply Forall_forall. intros z J. apply (B k v z I J).
  - exists (mkfdat r' 1 (PNum 0) M). split; [exact Er|]. unfold fget_M, fget_scale, fget_items. cbn [fd_M fd_scale fd_data]. split; [now rewrite Mf|].
    split; [|exact F]. apply (LinProofs.transform_rows interp d M f (reachable_wf d R)) in H as (r & _ & ->). reflexivity.
Qed.
Print Assumptions C101_stored_partial.

(** The curves drawn from the stored and from the exact coefficients differ, at every
    sampled angle, by no more than (2M+1) times 2^-23 of the largest coefficient. *)
Theorem C101_curve_partial : forall interp comp d M f e B n, reachable d -> (0 < n)%nat -> dat_to_fdat interp d M = Ok f ->
  (forall p m z, Cmod (Cminus (comp p m z) z) <= e) -> B + e <= 10 ^ 38 ->
  (forall k v z, In (k, v) (fget_items f) -> In z v -> Cmod z <= B) ->
  exists f' c c', dat_to_fdat32 interp comp d M = Ok f' /\ fdat_to_dat f n = Ok c /\ fdat_to_dat f' n = Ok c' /\
    same_points (fun y y' => Rabs (y' - y) <= INR (2 * M + 1) * (2 * (eps32 * B + 2 * e + / 10 ^ 45))) (dc_data c) (dc_data c').
Proof.
  intros interp comp d M f e B n R N H E Be Bd.
  destruct (stored_fdat interp comp e M d f (reachable_wf d R) H) as (r' & Er & Wf & Mf & Wf' & F).
  - intros k p _. apply E.
  - apply Forall_forall. intros [k v] I. apply Forall_forall. intros z J. pose proof (Bd k v z I J). lra.
  - eexists _, _, _. split; [exact Er|]. split; [apply fdat_to_dat_spec; assumption|]. split; [apply fdat_to_dat_spec; assumption|]. cbn [dc_data fd_data fd_M].
    rewrite Mf. unfold fget_items in Bd. destruct Wf as [_ Lf]. rewrite Mf in Lf. clear -F Bd Lf. unfold same_points.
    induction F as [|[k v] [k' v'] l l' [K Q] _ IH]; cbn [dmap map]; constructor.
    + cbn [fst snd] in *. split; [exact K|]. inversion Lf as [|? ? Lv _]; subst. cbn [snd] in Lv. unfold sampled.
      induction (grid n) as [|x g IHg]; cbn [map]; constructor; [|exact IHg]. cbn [fst snd]. split; [reflexivity|].
      apply series_near; [exact Lv|exact Q|]. apply Forall_forall. intros z J. apply (Bd k v z); [left; reflexivity|exact J].
    + apply IH; [|inversion Lf; assumption]. intros k0 v0 z I J. apply (Bd k0 v0 z); [right; exact I|exact J].
Qed.
Print Assumptions C101_curve_partial.
Example C101_case : exists d f, reachable d /\ dat_to_fdat table_interp d 1 = Ok f /\
  (forall k v z, In (k, v) (fget_items f) -> In z v -> Cmod z <= 1) /\
  (forall z : C, Cmod (Cminus z z) <= 0) /\ 1 + 0 <= 10 ^ 38.
Proof.
  destruct (C18_round_trip table_interp (flat 1) 3 table_exact (table_accepts 3) (flat_reachable 1) ltac:(lia) ltac:(unfold fget_M; simpl; lia) (flat_hermitian 1)) as (d & f & Ed & Ef & Ei).
  exists d, f. split.
  { eapply sampled_reachable; exact Ed. }
  split; [exact Ef|]. split; [|split].
  - rewrite Ei. intros k v z [Q|[]] J. injection Q as <- <-. destruct J as [<-|[<-|[<-|[]]]]; rewrite ?Cmod_0, ?Cmod_1; lra.
  - intros z. replace (Cminus z z) with (RtoC 0) by ring. rewrite Cmod_0. lra.
  - pose proof (pow_R1_Rle 10 38 ltac:(lra)). lra.
Qed.

(** Two measurements that differ by one part in 10^9 at every angle, far more than
    double precision resolves, give the same Fourier coefficients, even with exact sums. *)
Lemma store_flat c r : Rabs c <= 2 -> rnd32 c = r -> Rabs r < 2 ^ 128 -> store32 (RtoC c) = Ok (RtoC r).
Proof.
  intros L E B. unfold store32, part32. change (Re (RtoC c)) with c. change (Im (RtoC c)) with 0. rewrite E, (proj2 (Rltb_true _ _) B). cbn [bind].
  assert (Z : rnd32 0 = 0) by (apply rnd32_id; exists 0%Z, 0%Z; split; [ring|split; [reflexivity|lia]]).
  rewrite Z, Rabs_R0, (proj2 (Rltb_true 0 (2 ^ 128))) by (apply pow_lt; lra). reflexivity.
Qed.
Lemma flat_values c n d : (0 < n)%nat -> fdat_to_dat (flat c) n = Ok d ->
  dc_data d = [("PP"%string, map (fun x => (x, c)) (grid n))] /\ reachable d.
Proof.
  intros N H. split; [|eapply sampled_reachable; exact H].
  rewrite fdat_to_dat_spec in H by (try apply freachable_wf; try apply flat_reachable; assumption). injection H as <-. cbn [dc_data flat fd_data fd_M dmap map fst snd]. do 2 f_equal.
  unfold sampled. apply map_ext. intros x. f_equal.
  replace (0 * x) with 0 by ring. rewrite cos_0, sin_0. ring.
Qed.
Lemma flat_transformed interp c n : exact_at_nodes interp -> accepts interp n -> (3 <= n)%nat ->
  exists d f, fdat_to_dat (flat c) n = Ok d /\ dat_to_fdat interp d 1 = Ok f /\ fd_data f = [("PP"%string, [RtoC 0; RtoC c; RtoC 0])] /\
    dc_data d = [("PP"%string, map (fun x => (x, c)) (grid n))] /\ reachable d.
Proof.
  intros X A N. assert (L : (2 * fget_M (flat c) < n)%nat) by (unfold fget_M, flat; cbn [fd_M]; lia).
  destruct (C18_round_trip interp (flat c) n X A (flat_reachable c) ltac:(lia) L (flat_hermitian c)) as (d & f & Ed & Ef & Ei).
  destruct (flat_values c n d ltac:(lia) Ed) as [V R]. exists d, f. split; [exact Ed|]. split; [exact Ef|]. split; [exact Ei|]. split; assumption.
Qed.
Lemma rnd32_int (k : Z) : (Z.abs k < 2 ^ 24)%Z -> rnd32 (IZR k) = IZR k.
Proof. intros L. apply rnd32_id. exists k, 0%Z. split; [cbn [powerRZ]; ring|]. split; [exact L|lia]. Qed.

Theorem C101_refuted : forall interp n, exact_at_nodes interp -> accepts interp n -> (3 <= n)%nat ->
  exists d d' f, reachable d /\ reachable d' /\
    dc_data d = [("PP"%string, map (fun x => (x, 1)) (grid n))] /\
    dc_data d' = [("PP"%string, map (fun x => (x, 1 + / 2 ^ 30)) (grid n))] /\
    dat_to_fdat32 interp (fun _ _ z => z) d 1 = Ok f /\ dat_to_fdat32 interp (fun _ _ z => z) d' 1 = Ok f /\
    ~ dat_to_fdat interp d 1 = dat_to_fdat interp d' 1.
Proof.
  intros interp n X A N.
  destruct (flat_transformed interp 1 n X A N) as (d & f & _ & Ef & Df & Vd & Rd).
  destruct (flat_transformed interp (1 + / 2 ^ 30) n X A N) as (d' & f' & _ & Ef' & Df' & Vd' & Rd').
  assert (P30 : 0 < / 2 ^ 30 <= 1) by (pose proof (pow_R1_Rle 2 30 ltac:(lra)); split; [apply Rinv_0_lt_compat, pow_lt; lra|rewrite <- Rinv_1; apply Rinv_le_contravar; lra]).
  assert (B : Rabs 1 < 2 ^ 128) by (rewrite Rabs_R1; pose proof limit32; pose proof (pow_R1_Rle 10 38 ltac:(lra)); lra).
  assert (B0 : Rabs 0 < 2 ^ 128) by (rewrite Rabs_R0; apply pow_lt; lra).
  exists d, d', (flat 1). split; [exact Rd|]. split; [exact Rd'|]. split; [exact Vd|]. split; [exact Vd'|].
  assert (S0 : store32 (RtoC 0) = Ok (RtoC 0)) by (apply store_flat; [rewrite Rabs_R0; lra|apply (rnd32_int 0); reflexivity|exact B0]).
  assert (S1 : store32 (RtoC 1) = Ok (RtoC 1)) by (apply store_flat; [rewrite Rabs_R1; lra|apply (rnd32_int 1); reflexivity|exact B]).
  assert (S1' : store32 (RtoC (1 + / 2 ^ 30)) = Ok (RtoC 1)) by (apply store_flat; [rewrite Rabs_pos_eq; lra|apply rnd32_close|exact B]).
  assert (K : fconstruct (fitems [("PP"%string, [RtoC 0; RtoC 1; RtoC 0])]) 1 = Ok (flat 1)).
  { apply fconstruct_items. split; repeat constructor. intros []. }
  split; [|split].
  - rewrite (exact_one interp 1 d f _ _ (reachable_wf d Rd) Ef Df). cbn [mapM]. rewrite S0, S1. cbn [bind]. exact K.
  - rewrite (exact_one interp 1 d' f' _ _ (reachable_wf d' Rd') Ef' Df'). cbn [mapM]. rewrite S0, S1'. cbn [bind]. exact K.
  - rewrite Ef, Ef'. intros Q. assert (Q' : f = f') by congruence. subst f'. rewrite Df in Df'. injection Df' as Q1. lra.
Qed.
Print Assumptions C101_refuted.

(** Finite measurements beyond the single-precision range do not survive (the
    coefficient is stored as inf, which the model does not follow). *)
Theorem C101_overflow : forall interp n, exact_at_nodes interp -> accepts interp n -> (3 <= n)%nat ->
  exists d, reachable d /\ dc_data d = [("PP"%string, map (fun x => (x, 10 ^ 39)) (grid n))] /\
    is_ok (dat_to_fdat interp d 1) /\ dat_to_fdat32 interp (fun _ _ z => z) d 1 = Raise NonFinite.
Proof.
  intros interp n X A N. destruct (flat_transformed interp (10 ^ 39) n X A N) as (d & f & _ & Ef & Df & Vd & Rd).
  exists d. split; [exact Rd|]. split; [exact Vd|]. split; [rewrite Ef; eexists; reflexivity|].
  assert (B0 : Rabs 0 < 2 ^ 128) by (rewrite Rabs_R0; apply pow_lt; lra).
  assert (S0 : store32 (RtoC 0) = Ok (RtoC 0)) by (apply store_flat; [rewrite Rabs_R0; lra|apply (rnd32_int 0); reflexivity|exact B0]).
  assert (S1 : store32 (RtoC (10 ^ 39)) = Raise NonFinite).
  { unfold store32, part32. change (Re (RtoC (10 ^ 39))) with (10 ^ 39). pose proof rnd32_large as L. pose proof (pow_lt 2 128 ltac:(lra)).
    rewrite (Rabs_pos_eq (rnd32 (10 ^ 39))) by lra. rewrite (proj2 (Rltb_false (rnd32 (10 ^ 39)) (2 ^ 128)) L). reflexivity. }
  rewrite (exact_one interp 1 d f _ _ (reachable_wf d Rd) Ef Df). cbn [mapM]. rewrite S0, S1. reflexivity.
Qed.
Print Assumptions C101_overflow.
Example C101_interp : exact_at_nodes table_interp /\ accepts table_interp 7.
Proof. split; [apply table_exact|apply table_accepts]. Qed.
