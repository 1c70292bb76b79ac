(** Proofs about rotation matrices. *)
From Coq Require Import List Arith Bool ZArith Reals Lra Lia Nsatz.
Import ListNotations.
From Verif Require Import PyBase RMod UtilModel SpecUtil.
Local Open Scope R_scope.

Ltac vecs := repeat match goal with v : vec |- _ => destruct v as [[? ?] ?] end.
Ltac vring := vecs; cbn [apply rot_rows vadd smul cross dot mmul transpose det mtrace vmap];
  repeat (apply f_equal2 || f_equal); try ring.

Lemma vec_ext (a b c a' b' c' : R) : a = a' -> b = b' -> c = c' -> (a, b, c) = (a', b', c').
Proof. congruence. Qed.

(** Rodrigues' formula *)
Lemma rot_rodrigues n c s v :
  apply (rot_rows n c s) v = vadd (smul c v) (vadd (smul s (cross n v)) (smul ((1 - c) * dot n v) n)).
Proof. vecs; cbn. repeat apply vec_ext || ring. Qed.

Lemma cs_sq t : cos t * cos t + sin t * sin t = 1.
Proof. pose proof (sin2_cos2 t) as H; unfold Rsqr in H; lra. Qed.

Lemma mat_ext (r1 r2 r3 r1' r2' r3' : vec) : r1 = r1' -> r2 = r2' -> r3 = r3' -> (r1, r2, r3) = (r1', r2', r3').
Proof. congruence. Qed.

Lemma rot_is_rotation n t : dot n n = 1 -> is_rotation (rot_rows n (cos t) (sin t)).
Proof.
  intros U. pose proof (cs_sq t) as CS. revert CS. generalize (cos t) (sin t). intros c s CS.
  destruct n as [[x y] z]. cbn in U.
  unfold is_rotation, ident. cbn. repeat split.
  - repeat (apply mat_ext || apply vec_ext); nsatz.
  - repeat (apply mat_ext || apply vec_ext); nsatz.
  - nsatz.
Qed.

Lemma rot_compose n c s c' s' : dot n n = 1 ->
  mmul (rot_rows n c s) (rot_rows n c' s') = rot_rows n (c * c' - s * s') (s * c' + c * s').
Proof.
  intros U. destruct n as [[x y] z]. cbn in U. cbn.
  repeat (apply mat_ext || apply vec_ext); nsatz.
Qed.

Lemma rot_fixes n k c s : dot n n = 1 -> apply (rot_rows n c s) (smul k n) = smul k n.
Proof. intros U. destruct n as [[x y] z]. cbn in U |- *. apply vec_ext; nsatz. Qed.

Lemma rot_trace n c s : dot n n = 1 -> mtrace (rot_rows n c s) = 1 + 2 * c.
Proof. intros U. destruct n as [[x y] z]. cbn in U |- *. nsatz. Qed.

Lemma sum3_sq a b c : a * a + b * b + c * c = 0 -> a = 0 /\ b = 0 /\ c = 0.
Proof.
  intros S. pose proof (Rle_0_sqr a) as A. pose proof (Rle_0_sqr b) as B. pose proof (Rle_0_sqr c) as D.
  unfold Rsqr in *. assert (a * a = 0 /\ b * b = 0 /\ c * c = 0) as (E1 & E2 & E3) by lra.
  apply Rmult_integral in E1, E2, E3. lra.
Qed.

Lemma dot_nonneg v : 0 <= dot v v.
Proof. destruct v as [[x y] z]; cbn. nra. Qed.

Lemma dot_pos v : nonzero v -> 0 < dot v v.
Proof.
  intros N. destruct (Rle_lt_or_eq_dec 0 (dot v v) (dot_nonneg v)) as [|E]; auto.
  exfalso. apply N. destruct v as [[x y] z]; cbn in E.
  symmetry in E. apply sum3_sq in E as (Ex & Ey & Ez). apply vec_ext; lra.
Qed.

Lemma vnorm_dot v : vnorm v = sqrt (dot v v).
Proof. destruct v as [[x y] z]; cbn. f_equal; ring. Qed.

Lemma vnorm_pos v : nonzero v -> 0 < vnorm v.
Proof. intros N. rewrite vnorm_dot. apply sqrt_lt_R0, dot_pos; auto. Qed.

Lemma vnorm_sq v : vnorm v * vnorm v = dot v v.
Proof. rewrite vnorm_dot. apply sqrt_sqrt, dot_nonneg. Qed.

Lemma div_unit v : vmap (fun x => x / vnorm v) v = unit_of v.
Proof.
  unfold unit_of. rewrite <- vnorm_dot. generalize (vnorm v). intros m. destruct v as [[x y] z]; cbn.
  apply vec_ext; unfold Rdiv; ring.
Qed.

Lemma unit_dot v : nonzero v -> dot (unit_of v) (unit_of v) = 1.
Proof.
  intros N. pose proof (vnorm_pos v N) as P. pose proof (vnorm_sq v) as Q.
  unfold unit_of. rewrite <- vnorm_dot. set (m := vnorm v) in *. clearbody m.
  replace (dot (smul (/ m) v) (smul (/ m) v)) with (dot v v * / m * / m).
  - rewrite <- Q. field. lra.
  - destruct v as [[x y] z]; cbn. ring.
Qed.

Lemma unit_nonzero v : nonzero v -> nonzero (unit_of v).
Proof.
  intros N E. pose proof (unit_dot v N) as U. rewrite E in U. cbn in U. lra.
Qed.

Lemma unit_of_unit v : dot v v = 1 -> unit_of v = v.
Proof.
  intros U. unfold unit_of. rewrite U, sqrt_1, Rinv_1. destruct v as [[x y] z]; cbn. apply vec_ext; ring.
Qed.

Lemma rotation_float n t : nonzero n ->
  rotation_matrix3 VFloat n t = Ok (unit_of n, rot_rows (unit_of n) (cos t) (sin t)).
Proof.
  intros N. unfold rotation_matrix3. pose proof (vnorm_pos n N) as P.
  destruct (Req_EM_T (vnorm n) 0); [lra|]. cbn [vcast]. rewrite div_unit. auto.
Qed.

Lemma unit_scale k v : 0 < k -> nonzero v -> unit_of (smul k v) = unit_of v.
Proof.
  intros K N. unfold unit_of.
  replace (dot (smul k v) (smul k v)) with (k * k * dot v v) by (destruct v as [[x y] z]; cbn; ring).
  pose proof (dot_pos v N) as P.
  rewrite sqrt_mult by nra. rewrite sqrt_square by lra.
  assert (0 < sqrt (dot v v)) by (apply sqrt_lt_R0; auto).
  generalize dependent (sqrt (dot v v)). intros m Pm. destruct v as [[x y] z]; cbn. apply vec_ext; field; lra.
Qed.

(** ** Rotation between two directions *)
Lemma cross_product_spec a b : cross_product a b = cross a b.
Proof. vecs. unfold cross_product. cbn. apply vec_ext; ring. Qed.

Lemma lagrange a b : dot (cross a b) (cross a b) = dot a a * dot b b - dot a b * dot a b.
Proof. vecs; cbn; ring. Qed.

Lemma cauchy_unit a b : dot a a = 1 -> dot b b = 1 -> -1 <= dot a b <= 1.
Proof.
  intros Ua Ub. pose proof (dot_nonneg (cross a b)) as P. rewrite lagrange, Ua, Ub in P. nra.
Qed.

Lemma unit_maps a b : dot a a = 1 -> dot b b = 1 -> nonzero (cross a b) ->
  apply (rot_rows (unit_of (cross a b)) (cos (acos (dot a b))) (sin (acos (dot a b)))) a = b.
Proof.
  intros Ua Ub N. pose proof (cauchy_unit a b Ua Ub) as B.
  rewrite cos_acos by lra. rewrite sin_acos by lra.
  assert (Em : sqrt (1 - (dot a b)²) = vnorm (cross a b)).
  { rewrite vnorm_dot, lagrange, Ua, Ub. f_equal. unfold Rsqr. ring. }
  rewrite Em. pose proof (vnorm_pos _ N) as P. rewrite rot_rodrigues.
  unfold unit_of. rewrite <- vnorm_dot. set (m := vnorm (cross a b)) in *. clearbody m.
  assert (D0 : dot (smul (/ m) (cross a b)) a = 0).
  { destruct a as [[x y] z], b as [[x' y'] z']. cbn. ring. }
  rewrite D0.
  assert (C0 : smul m (cross (smul (/ m) (cross a b)) a) = cross (cross a b) a).
  { destruct a as [[x y] z], b as [[x' y'] z']. cbn. apply vec_ext; field; lra. }
  rewrite C0. generalize (smul (/ m) (cross a b)). intros u. clear - Ua.
  destruct a as [[x y] z], b as [[x' y'] z'], u as [[u1 u2] u3]. cbn in *. apply vec_ext; nsatz.
Qed.

Lemma collinear_units a b : dot a a = 1 -> dot b b = 1 -> cross a b = (0, 0, 0) -> a = b \/ vmap Ropp a = b.
Proof.
  intros Ua Ub E. pose proof (lagrange a b) as L. rewrite E, Ua, Ub in L. cbn in L.
  assert (D : dot a b = 1 \/ dot a b = -1).
  { assert (F : (dot a b - 1) * (dot a b + 1) = 0) by lra. apply Rmult_integral in F. lra. }
  destruct a as [[x y] z], b as [[x' y'] z']. cbn in *. destruct D as [D|D]; [left|right].
  - assert (S : (x - x') * (x - x') + (y - y') * (y - y') + (z - z') * (z - z') = 0) by lra.
    apply sum3_sq in S as (S1 & S2 & S3). apply vec_ext; lra.
  - assert (S : (x + x') * (x + x') + (y + y') * (y + y') + (z + z') * (z + z') = 0) by lra.
    apply sum3_sq in S as (S1 & S2 & S3). apply vec_ext; lra.
Qed.

Lemma vec_eqb_eq a b : vec_eqb a b = true <-> a = b.
Proof.
  vecs. cbn. unfold Reqb. split.
  - destruct (Req_EM_T _ _); [|discriminate]. destruct (Req_EM_T _ _); [|discriminate].
    destruct (Req_EM_T _ _); [|discriminate]. congruence.
  - intros E. injection E as -> -> ->. repeat (destruct (Req_EM_T _ _); [|congruence]). reflexivity.
Qed.

Lemma ident_rotation : is_rotation ident.
Proof. unfold is_rotation, ident; cbn. repeat split; try (repeat (apply mat_ext || apply vec_ext)); ring. Qed.

Lemma opp_unit_anti a b : nonzero a -> nonzero b -> vmap Ropp (unit_of a) = unit_of b -> antiparallel a b.
Proof.
  intros Na Nb E. pose proof (vnorm_pos a Na) as Pa. pose proof (vnorm_pos b Nb) as Pb.
  exists (- (vnorm b / vnorm a)). split.
  - assert (0 < vnorm b / vnorm a) by (apply Rdiv_lt_0_compat; auto). lra.
  - unfold unit_of in E. rewrite <- !vnorm_dot in E.
    set (m := vnorm a) in *. set (k := vnorm b) in *. clearbody m k.
    destruct a as [[x y] z], b as [[x' y'] z']. cbn in *. injection E as E1 E2 E3.
    apply vec_ext.
    + replace x' with (k * (/ k * x')) by (field; lra). rewrite <- E1. field; lra.
    + replace y' with (k * (/ k * y')) by (field; lra). rewrite <- E2. field; lra.
    + replace z' with (k * (/ k * z')) by (field; lra). rewrite <- E3. field; lra.
Qed.

Lemma anti_opp_unit a b : nonzero a -> antiparallel a b -> unit_of b = vmap Ropp (unit_of a) /\ nonzero b.
Proof.
  intros Na (k & K & ->). split.
  - replace (smul k a) with (smul (- k) (smul (-1) a)) by (destruct a as [[x y] z]; cbn; apply vec_ext; ring).
    assert (Nn : nonzero (smul (-1) a)).
    { intros E. apply Na. destruct a as [[x y] z]; cbn in E. injection E as E1 E2 E3. apply vec_ext; lra. }
    rewrite unit_scale by (auto; lra). unfold unit_of.
    replace (dot (smul (-1) a) (smul (-1) a)) with (dot a a) by (destruct a as [[x y] z]; cbn; ring).
    generalize (/ sqrt (dot a a)). intros m. destruct a as [[x y] z]; cbn. apply vec_ext; ring.
  - intros E. apply Na. destruct a as [[x y] z]; cbn in E. injection E as E1 E2 E3.
    apply Rmult_integral in E1, E2, E3. apply vec_ext; lra.
Qed.

Lemma two_vectors_ok v w acc : nonzero v -> nonzero w -> ~ antiparallel v w -> 0 < acc ->
  exists m, two_vectors_raw v w acc = Ok m /\ is_rotation m /\ apply m (unit_of v) = unit_of w.
Proof.
  intros Nv Nw NA Pa. unfold two_vectors_raw.
  pose proof (vnorm_pos v Nv). pose proof (vnorm_pos w Nw).
  destruct (Req_EM_T (vnorm v) 0); [lra|]. destruct (Req_EM_T (vnorm w) 0); [lra|].
  cbv zeta. rewrite !div_unit, cross_product_spec.
  pose proof (unit_dot v Nv) as Uv. pose proof (unit_dot w Nw) as Uw.
  destruct (vec_eqb (cross (unit_of v) (unit_of w)) (0, 0, 0)) eqn:Ex.
  - apply vec_eqb_eq in Ex.
    destruct (vec_eqb (vmap Ropp (unit_of v)) (unit_of w)) eqn:Eo.
    + apply vec_eqb_eq in Eo. exfalso. apply NA, opp_unit_anti; auto.
    + destruct (collinear_units _ _ Uv Uw Ex) as [E|E].
      * rewrite (proj2 (vec_eqb_eq _ _) E). cbn [andb]. exists ident. repeat split; try apply ident_rotation.
        rewrite <- E. destruct (unit_of v) as [[x y] z]; cbn. apply vec_ext; ring.
      * apply vec_eqb_eq in E. congruence.
  - cbn [andb].
    assert (Nc : nonzero (cross (unit_of v) (unit_of w))) by (intros E; apply vec_eqb_eq in E; congruence).
    rewrite (rotation_float _ _ Nc). cbn [bind].
    pose proof (unit_maps _ _ Uv Uw Nc) as Mp.
    set (m := rot_rows (unit_of (cross (unit_of v) (unit_of w))) (cos (acos (dot (unit_of v) (unit_of w)))) (sin (acos (dot (unit_of v) (unit_of w))))) in *.
    assert (Ck : check_fails m (unit_of v) (unit_of w) acc = false).
    { unfold check_fails. rewrite Mp. destruct (unit_of w) as [[x y] z].
      unfold Rltb. repeat (destruct (Rlt_dec _ _); [|exfalso; lra]). auto. }
    rewrite Ck. exists m. repeat split; auto; apply rot_is_rotation, unit_dot; auto.
Qed.

Lemma two_vectors_anti v w acc : nonzero v -> antiparallel v w -> two_vectors_raw v w acc = Ok neg_ident.
Proof.
  intros Nv An. destruct (anti_opp_unit v w Nv An) as [E Nw]. unfold two_vectors_raw.
  pose proof (vnorm_pos v Nv). pose proof (vnorm_pos w Nw).
  destruct (Req_EM_T (vnorm v) 0); [lra|]. destruct (Req_EM_T (vnorm w) 0); [lra|].
  cbv zeta. rewrite !div_unit, cross_product_spec, E.
  assert (Ex : cross (unit_of v) (vmap Ropp (unit_of v)) = (0, 0, 0)).
  { destruct (unit_of v) as [[x y] z]; cbn. apply vec_ext; ring. }
  rewrite Ex, !(proj2 (vec_eqb_eq _ _) eq_refl). auto.
Qed.

(** ** Rounding *)
Lemma round_half_even_err x : Rabs (IZR (round_half_even x) - x) <= / 2.
Proof.
  unfold round_half_even. destruct (base_Int_part x) as [B1 B2].
  set (f := Int_part x) in *. set (r := x - IZR f).
  destruct (Rlt_dec r (/ 2)).
  - unfold r in *. rewrite Rabs_left1; lra.
  - destruct (Rlt_dec (/ 2) r).
    + rewrite plus_IZR. unfold r in *. rewrite Rabs_right; lra.
    + destruct (Z.even f); [|rewrite plus_IZR]; unfold r in *; [rewrite Rabs_left1|rewrite Rabs_right]; lra.
Qed.

Lemma round_digits_err nd x : Rabs (round_digits nd x - x) <= / 2 * / 10 ^ nd.
Proof.
  unfold round_digits. assert (P : 0 < 10 ^ nd) by (apply pow_lt; lra).
  replace (IZR (round_half_even (x * 10 ^ nd)) / 10 ^ nd - x)
    with ((IZR (round_half_even (x * 10 ^ nd)) - x * 10 ^ nd) * / 10 ^ nd) by (field; lra).
  rewrite Rabs_mult, (Rabs_right (/ 10 ^ nd)) by (apply Rle_ge, Rlt_le, Rinv_0_lt_compat; auto).
  apply Rmult_le_compat_r; [apply Rlt_le, Rinv_0_lt_compat; auto|apply round_half_even_err].
Qed.

Lemma round_entries nd m : entries_within (/ 2 * / 10 ^ nd) (mmap (round_digits nd) m) m.
Proof.
  destruct m as [[[[a b] c] [[d e] f]] [[g h] i]]. cbn. repeat split; apply round_digits_err.
Qed.

Lemma round_digits_int nd z : round_digits nd (IZR z) = IZR z.
Proof.
  unfold round_digits. assert (P : 0 < 10 ^ nd) by (apply pow_lt; lra).
  assert (E : IZR z * 10 ^ nd = IZR (z * 10 ^ Z.of_nat nd)).
  { rewrite mult_IZR. f_equal. rewrite <- pow_IZR. auto. }
  rewrite E.
  assert (R1 : round_half_even (IZR (z * 10 ^ Z.of_nat nd)) = (z * 10 ^ Z.of_nat nd)%Z).
  { unfold round_half_even. rewrite (Int_part_unique _ (z * 10 ^ Z.of_nat nd)) by lra. destruct (Rlt_dec _ (/ 2)); auto. lra. }
  rewrite R1, <- E. field. lra.
Qed.
