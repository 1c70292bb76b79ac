(** Consequences of the radiation formula: transversality, composition of
    rotations, normal incidence, bandwidth. *)
From Coq Require Import List Arith ZArith Bool Lia Reals Lra.
From Coquelicot Require Import Complex.
Import ListNotations.
From Verif Require Import PyBase CBase FourierBase TrigPoly SpecFormgen FormgenProofs FormgenProofs2.
Local Open Scope nat_scope.

Lemma cs2 x : (RtoC (sin x) * RtoC (sin x) + RtoC (cos x) * RtoC (cos x))%C = RtoC 1.
Proof. rewrite <- !RtoC_mult, <- RtoC_plus. f_equal. pose proof (sin2_cos2 x) as H. unfold Rsqr in H. exact H. Qed.

Lemma transverse_orthogonal th S : dot3 (k_reflected th) (transverse th S) = RtoC 0.
Proof.
  unfold transverse. set (d := dot3 (k_reflected th) S).
  transitivity (d - d * (RtoC (sin th) * RtoC (sin th) + RtoC (cos th) * RtoC (cos th)))%C.
  - unfold dot3, sum3, k_reflected, triple. subst d. unfold dot3, sum3, k_reflected, triple. ring.
  - rewrite cs2. ring.
Qed.

Lemma Cmod2 z : RtoC (Cmod z ^ 2) = (z * Cconj z)%C.
Proof. symmetry. apply Cmult_conj. Qed.
Lemma RtoC_inj x y : RtoC x = RtoC y -> x = y.
Proof. intros H. inversion H. reflexivity. Qed.

(** Behind the analyser: |p_out . S|^2 and |s_out . S|^2 *)
Lemma detected_p th S : detected (transverse th S) Pin = (Cmod (dot3 (p_out th) S) ^ 2)%R.
Proof.
  apply RtoC_inj. cbn [detected]. rewrite RtoC_plus, !Cmod2.
  set (p := dot3 (p_out th) S).
  assert (X : transverse th S 0 = (RtoC (cos th) * p)%C).
  { unfold transverse, dot3, sum3, k_reflected, triple. subst p. unfold dot3, sum3, p_out, triple.
    transitivity (S 0%nat * (RtoC (sin th) * RtoC (sin th) + RtoC (cos th) * RtoC (cos th)) -
      (RtoC (sin th) * S 0%nat + RtoC 0 * S 1%nat + - RtoC (cos th) * S 2%nat) * RtoC (sin th))%C; [rewrite cs2; ring|ring]. }
  assert (Z : transverse th S 2 = (RtoC (sin th) * p)%C).
  { unfold transverse, dot3, sum3, k_reflected, triple. subst p. unfold dot3, sum3, p_out, triple.
    transitivity (S 2%nat * (RtoC (sin th) * RtoC (sin th) + RtoC (cos th) * RtoC (cos th)) -
      (RtoC (sin th) * S 0%nat + RtoC 0 * S 1%nat + - RtoC (cos th) * S 2%nat) * - RtoC (cos th))%C; [rewrite cs2; ring|ring]. }
  rewrite X, Z, !Cconj_mult, !Cconj_R.
  transitivity ((RtoC (sin th) * RtoC (sin th) + RtoC (cos th) * RtoC (cos th)) * (p * Cconj p))%C; [ring|]. rewrite cs2. ring.
Qed.
Lemma detected_s th S : detected (transverse th S) Sin = (Cmod (S 1%nat) ^ 2)%R.
Proof.
  cbn [detected]. f_equal. f_equal. unfold transverse, dot3, sum3, k_reflected, triple. ring.
Qed.
Lemma detected_pos S out : (0 <= detected S out)%R.
Proof. destruct out; simpl; repeat apply Rplus_le_le_0_compat; apply Rmult_le_pos; try apply Rmult_le_pos; try apply Cmod_ge_0; lra. Qed.

(** ** Turning twice *)
Lemma Rz_plus a b i l : i < 3 -> l < 3 -> Rz (a + b) i l = sum3 (fun p => Rz b i p * Rz a p l)%C.
Proof.
  intros I L. pose proof (cos_plus a b) as C1. pose proof (sin_plus a b) as S1.
  cases3 i I; cases3 l L; unfold sum3; cbn [Rz]; rewrite ?C1, ?S1; apply C_ext; unfold Re, Im; simpl; ring.
Qed.

Lemma nest3 a X i j k : turned3 a X i j k =
  sum3 (fun l => Rz a i l * sum3 (fun m => Rz a j m * sum3 (fun n => Rz a k n * X l m n)))%C.
Proof.
  unfold turned3. apply sum3_ext; intros. rewrite <- sum3_mult_l. apply sum3_ext; intros.
  rewrite <- sum3_mult_l, <- sum3_mult_l. apply sum3_ext; intros. ring.
Qed.
Lemma nest4 a X i j k h : turned4 a X i j k h =
  sum3 (fun l => Rz a i l * sum3 (fun m => Rz a j m * sum3 (fun n => Rz a k n * sum3 (fun o => Rz a h o * X l m n o))))%C.
Proof.
  unfold turned4. apply sum3_ext; intros. rewrite <- sum3_mult_l. apply sum3_ext; intros.
  rewrite <- sum3_mult_l, <- sum3_mult_l. apply sum3_ext; intros.
  rewrite <- !sum3_mult_l. apply sum3_ext; intros. ring.
Qed.

Lemma pull (u c : nat -> C) (g : nat -> nat -> C) :
  sum3 (fun n => u n * sum3 (fun l => c l * g l n))%C = sum3 (fun l => c l * sum3 (fun n => u n * g l n))%C.
Proof. unfold sum3. ring. Qed.
Lemma single a b k (x : nat -> C) : k < 3 ->
  sum3 (fun n => Rz b k n * sum3 (fun n' => Rz a n n' * x n'))%C = sum3 (fun n' => Rz (a + b) k n' * x n')%C.
Proof.
  intros K. rewrite (sum3_ext (fun n' => Rz (a + b) k n' * x n')%C (fun n' => sum3 (fun p => Rz b k p * Rz a p n') * x n')%C).
  - unfold sum3. ring.
  - intros i I. rewrite Rz_plus by auto. reflexivity.
Qed.

Lemma turned3_plus a b X i j k : i < 3 -> j < 3 -> k < 3 -> turned3 (a + b) X i j k = turned3 b (turned3 a X) i j k.
Proof.
  intros I J K. rewrite !nest3. symmetry.
  transitivity (sum3 (fun l => Rz b i l * sum3 (fun m => Rz b j m *
     sum3 (fun l' => Rz a l l' * sum3 (fun m' => Rz a m m' * sum3 (fun n' => Rz (a + b) k n' * X l' m' n')))))%C).
  { apply sum3_ext; intros l L. f_equal. apply sum3_ext; intros m M. f_equal.
    transitivity (sum3 (fun n => Rz b k n * sum3 (fun l' => Rz a l l' * sum3 (fun m' => Rz a m m' * sum3 (fun n' => Rz a n n' * X l' m' n'))))%C).
    { apply sum3_ext; intros n N. rewrite nest3. reflexivity. }
    rewrite pull. apply sum3_ext; intros l' L'. f_equal. rewrite pull. apply sum3_ext; intros m' M'. f_equal.
    apply (single a b k (fun n' => X l' m' n')); auto. }
  transitivity (sum3 (fun l => Rz b i l *
     sum3 (fun l' => Rz a l l' * sum3 (fun m' => Rz (a + b) j m' * sum3 (fun n' => Rz (a + b) k n' * X l' m' n'))))%C).
  { apply sum3_ext; intros l L. f_equal. rewrite pull. apply sum3_ext; intros l' L'. f_equal.
    apply (single a b j (fun m' => sum3 (fun n' => Rz (a + b) k n' * X l' m' n')%C)); auto. }
  apply (single a b i (fun l' => sum3 (fun m' => Rz (a + b) j m' * sum3 (fun n' => Rz (a + b) k n' * X l' m' n'))%C)); auto.
Qed.

Lemma turned4_plus a b X i j k h : i < 3 -> j < 3 -> k < 3 -> h < 3 ->
  turned4 (a + b) X i j k h = turned4 b (turned4 a X) i j k h.
Proof.
  intros I J K H. rewrite !nest4. symmetry.
  transitivity (sum3 (fun l => Rz b i l * sum3 (fun m => Rz b j m * sum3 (fun n => Rz b k n *
     sum3 (fun l' => Rz a l l' * sum3 (fun m' => Rz a m m' * sum3 (fun n' => Rz a n n' * sum3 (fun o' => Rz (a + b) h o' * X l' m' n' o')))))))%C).
  { apply sum3_ext; intros l L. f_equal. apply sum3_ext; intros m M. f_equal. apply sum3_ext; intros n N. f_equal.
    transitivity (sum3 (fun o => Rz b h o * sum3 (fun l' => Rz a l l' * sum3 (fun m' => Rz a m m' * sum3 (fun n' => Rz a n n' *
      sum3 (fun o' => Rz a o o' * X l' m' n' o')))))%C).
    { apply sum3_ext; intros o O. rewrite nest4. reflexivity. }
    rewrite pull. apply sum3_ext; intros l' L'. f_equal. rewrite pull. apply sum3_ext; intros m' M'. f_equal.
    rewrite pull. apply sum3_ext; intros n' N'. f_equal.
    apply (single a b h (fun o' => X l' m' n' o')); auto. }
  transitivity (sum3 (fun l => Rz b i l * sum3 (fun m => Rz b j m *
     sum3 (fun l' => Rz a l l' * sum3 (fun m' => Rz a m m' * sum3 (fun n' => Rz (a + b) k n' * sum3 (fun o' => Rz (a + b) h o' * X l' m' n' o'))))))%C).
  { apply sum3_ext; intros l L. f_equal. apply sum3_ext; intros m M. f_equal.
    rewrite pull. apply sum3_ext; intros l' L'. f_equal. rewrite pull. apply sum3_ext; intros m' M'. f_equal.
    apply (single a b k (fun n' => sum3 (fun o' => Rz (a + b) h o' * X l' m' n' o')%C)); auto. }
  transitivity (sum3 (fun l => Rz b i l *
     sum3 (fun l' => Rz a l l' * sum3 (fun m' => Rz (a + b) j m' * sum3 (fun n' => Rz (a + b) k n' *
       sum3 (fun o' => Rz (a + b) h o' * X l' m' n' o')))))%C).
  { apply sum3_ext; intros l L. f_equal. rewrite pull. apply sum3_ext; intros l' L'. f_equal.
    apply (single a b j (fun m' => sum3 (fun n' => Rz (a + b) k n' * sum3 (fun o' => Rz (a + b) h o' * X l' m' n' o'))%C)); auto. }
  apply (single a b i (fun l' => sum3 (fun m' => Rz (a + b) j m' * sum3 (fun n' => Rz (a + b) k n' *
    sum3 (fun o' => Rz (a + b) h o' * X l' m' n' o')))%C)); auto.
Qed.

Lemma turned3_ext a X Y i j k : (forall l m n, l < 3 -> m < 3 -> n < 3 -> X l m n = Y l m n) -> turned3 a X i j k = turned3 a Y i j k.
Proof. intros H. unfold turned3. do 3 (apply sum3_ext; intros). rewrite H; auto. Qed.
Lemma turned4_ext a X Y i j k h : (forall l m n o, l < 3 -> m < 3 -> n < 3 -> o < 3 -> X l m n o = Y l m n o) ->
  turned4 a X i j k h = turned4 a Y i j k h.
Proof. intros H. unfold turned4. do 4 (apply sum3_ext; intros). rewrite H; auto. Qed.

Lemma moment3_ext X Y F i : (forall j k, j < 3 -> k < 3 -> X i j k = Y i j k) -> moment3 X F i = moment3 Y F i.
Proof. intros H. unfold moment3. do 2 (apply sum3_ext; intros). rewrite H; auto. Qed.
Lemma moment4_ext X Y k F i : (forall j l m, j < 3 -> l < 3 -> m < 3 -> X i j l m = Y i j l m) -> moment4 X k F i = moment4 Y k F i.
Proof. intros H. unfold moment4. do 3 (apply sum3_ext; intros). rewrite H; auto. Qed.
Lemma cross_ext u v w i : (forall j, j < 3 -> v j = w j) -> cross u v i = cross u w i.
Proof. intros H. unfold cross. rewrite !H by lia. reflexivity. Qed.

(** The rotation commutes with itself *)
Lemma turned3_comm a b X i j k : i < 3 -> j < 3 -> k < 3 -> turned3 b (turned3 a X) i j k = turned3 a (turned3 b X) i j k.
Proof. intros. rewrite <- !turned3_plus by auto. rewrite Rplus_comm. reflexivity. Qed.

(** What the source only depends on *)
Lemma source_ext th p i E M Q E' M' Q' a b : i < 3 ->
  (forall i j k, i < 3 -> j < 3 -> k < 3 -> turned3 a E i j k = turned3 b E' i j k) ->
  (forall i j k, i < 3 -> j < 3 -> k < 3 -> turned3 a M i j k = turned3 b M' i j k) ->
  (forall i j k h, i < 3 -> j < 3 -> k < 3 -> h < 3 -> turned4 a Q i j k h = turned4 b Q' i j k h) ->
  source th E M Q p a i = source th E' M' Q' p b i.
Proof.
  intros I HE HM HQ. unfold source. cbv zeta.
  rewrite (moment3_ext (turned3 a E) (turned3 b E')) by auto.
  rewrite (cross_ext _ (moment3 (turned3 a M) (field th p)) (moment3 (turned3 b M') (field th p)))
    by (intros; apply moment3_ext; auto).
  rewrite (moment4_ext (turned4 a Q) (turned4 b Q')) by auto. reflexivity.
Qed.
Lemma transverse_ext3 th S S' i : i < 3 -> (forall j, j < 3 -> S j = S' j) -> transverse th S i = transverse th S' i.
Proof. intros I H. unfold transverse, dot3. rewrite (sum3_ext _ (fun j => k_reflected th j * S' j)%C) by (intros; rewrite H; auto). rewrite H; auto. Qed.
Lemma detected_ext3 S S' out : (forall j, j < 3 -> S j = S' j) -> detected S out = detected S' out.
Proof. intros H. destruct out; cbn [detected]; rewrite !H by lia; reflexivity. Qed.

Definition z_invariant3 (a : R) (X : nat -> nat -> nat -> C) : Prop :=
  forall i j k, i < 3 -> j < 3 -> k < 3 -> turned3 a X i j k = X i j k.
Definition z_invariant4 (a : R) (X : nat -> nat -> nat -> nat -> C) : Prop :=
  forall i j k h, i < 3 -> j < 3 -> k < 3 -> h < 3 -> turned4 a X i j k h = X i j k h.

Lemma intensity_periodic th E M Q inp out a phi : z_invariant3 a E -> z_invariant3 a M -> z_invariant4 a Q ->
  intensity th E M Q inp out (phi + a) = intensity th E M Q inp out phi.
Proof.
  intros HE HM HQ. unfold intensity. apply detected_ext3. intros i I. apply transverse_ext3; auto.
  intros j J. replace (phi + a)%R with (a + phi)%R by ring. apply source_ext; auto; intros.
  - rewrite turned3_plus by auto. apply turned3_ext. auto.
  - rewrite turned3_plus by auto. apply turned3_ext. auto.
  - rewrite turned4_plus by auto. apply turned4_ext. auto.
Qed.

(** ** Normal incidence *)
Lemma quarter (i j : nat) : Rz (PI / 2) i j = match i, j with
  | 0, 1 => (- RtoC 1)%C | 1, 0 => RtoC 1 | 2, 2 => RtoC 1 | _, _ => RtoC 0 end.
Proof. destruct i as [|[|[|i]]], j as [|[|[|j]]]; cbn [Rz]; rewrite ?cos_PI2, ?sin_PI2; reflexivity. Qed.

Definition rot_source (S : nat -> C) : nat -> C := triple (- S 1%nat)%C (S 0%nat) (S 2%nat).
Definition other (p : pol) : pol := match p with Pin => Sin | Sin => Pin end.

Lemma quarter_sum f i : i < 3 -> sum3 (fun l => Rz (PI / 2) i l * f l)%C = rot_source f i.
Proof. intros I. unfold sum3, rot_source, triple. rewrite !quarter. cases3 i I; ring. Qed.

Lemma moment3_quarter X p i : i < 3 ->
  moment3 (turned3 (PI / 2) X) (field 0 (other p)) i = rot_source (moment3 X (field 0 p)) i.
Proof.
  intros I. unfold moment3. transitivity (sum3 (fun j => sum3 (fun k =>
    rot_source (fun l => rot_source (fun m => rot_source (fun n => X l m n) k) j) i * field 0 (other p) j * field 0 (other p) k)))%C.
  { do 2 (apply sum3_ext; intros). do 2 f_equal. rewrite nest3, <- quarter_sum by auto.
    apply sum3_ext; intros. f_equal. rewrite <- quarter_sum by auto.
    apply sum3_ext; intros. f_equal. rewrite <- quarter_sum by auto. reflexivity. }
  destruct p; cases3 i I; cbn [other field]; unfold rot_source, sum3, triple; rewrite ?cos_0, ?sin_0; ring.
Qed.

Lemma moment4_quarter X p i : i < 3 ->
  moment4 (turned4 (PI / 2) X) (k_incident 0) (field 0 (other p)) i = rot_source (moment4 X (k_incident 0) (field 0 p)) i.
Proof.
  intros I. unfold moment4. transitivity (sum3 (fun j => sum3 (fun k => sum3 (fun h =>
    rot_source (fun l => rot_source (fun m => rot_source (fun n => rot_source (fun o => X l m n o) h) k) j) i
     * k_incident 0 j * field 0 (other p) k * field 0 (other p) h))))%C.
  { do 3 (apply sum3_ext; intros). do 3 f_equal. rewrite nest4, <- quarter_sum by auto.
    apply sum3_ext; intros. f_equal. rewrite <- quarter_sum by auto.
    apply sum3_ext; intros. f_equal. rewrite <- quarter_sum by auto.
    apply sum3_ext; intros. f_equal. rewrite <- quarter_sum by auto. reflexivity. }
  destruct p; cases3 i I; cbn [other field]; unfold k_incident, rot_source, sum3, triple; rewrite ?cos_0, ?sin_0; ring.
Qed.

Lemma source_quarter E M Q p phi i : i < 3 ->
  source 0 E M Q (other p) (phi + PI / 2) i = rot_source (source 0 E M Q p phi) i.
Proof.
  intros I.
  transitivity (source 0 (turned3 phi E) (turned3 phi M) (turned4 phi Q) (other p) (PI / 2) i).
  { apply source_ext; auto; intros; [apply turned3_plus|apply turned3_plus|apply turned4_plus]; auto. }
  unfold source at 1. cbv zeta. rewrite moment3_quarter, moment4_quarter by auto.
  rewrite (cross_ext _ _ (rot_source (moment3 (turned3 phi M) (field 0 p)))) by (intros; apply moment3_quarter; auto).
  set (A := moment3 (turned3 phi E) (field 0 p)). set (B := moment3 (turned3 phi M) (field 0 p)).
  set (D := moment4 (turned4 phi Q) (k_incident 0) (field 0 p)).
  change (source 0 E M Q p phi) with (fun j => A j + cross (k_incident 0) B j + Ci * D j)%C. clearbody A B D.
  cases3 i I; unfold rot_source, cross, k_incident, triple; rewrite ?cos_0, ?sin_0; ring.
Qed.

Lemma detected_quarter S S' out : (forall i, i < 3 -> S' i = rot_source S i) ->
  detected (transverse 0 S') (other out) = detected (transverse 0 S) out.
Proof.
  intros H. assert (P : forall T, dot3 (p_out 0) T = T 0%nat).
  { intros T. unfold dot3, sum3, p_out, triple. rewrite cos_0, sin_0. ring. }
  destruct out; cbn [other]; rewrite detected_p, detected_s, P, H by lia; unfold rot_source, triple; try reflexivity.
  rewrite Cmod_opp. reflexivity.
Qed.

Lemma normal_incidence E M Q inp out phi :
  intensity 0 E M Q (other inp) (other out) (phi + PI / 2) = intensity 0 E M Q inp out phi.
Proof. unfold intensity. apply detected_quarter. intros. apply source_quarter. auto. Qed.

(** ** Bandwidth *)
Lemma tp_sum3 n (f : nat -> R -> C) : (forall i, i < 3 -> trigpoly n (f i)) -> trigpoly n (fun x => sum3 (fun i => f i x)).
Proof. intros H. unfold sum3. repeat apply tp_plus; apply H; lia. Qed.
Lemma tp_Rz i j : trigpoly 1 (fun a => Rz a i j).
Proof.
  assert (Z : forall c, trigpoly 1 (fun _ => c)) by (intros; apply tp_const).
  destruct i as [|[|[|i]]], j as [|[|[|j]]]; cbn [Rz]; try apply Z; auto using tp_cos, tp_sin, tp_opp.
Qed.
Lemma tp_turned3 X i j k : trigpoly 3 (fun a => turned3 a X i j k).
Proof.
  unfold turned3. apply tp_sum3; intros. apply tp_sum3; intros. apply tp_sum3; intros.
  change 3 with (1 + 1 + 1 + 0). apply tp_mult; [|apply tp_const]. repeat apply tp_mult; apply tp_Rz.
Qed.
Lemma tp_turned4 X i j k h : trigpoly 4 (fun a => turned4 a X i j k h).
Proof.
  unfold turned4. apply tp_sum3; intros. apply tp_sum3; intros. apply tp_sum3; intros. apply tp_sum3; intros.
  change 4 with (1 + 1 + 1 + 1 + 0). apply tp_mult; [|apply tp_const]. repeat apply tp_mult; apply tp_Rz.
Qed.
Lemma tp_mult_r n c f : trigpoly n f -> trigpoly n (fun x => f x * c)%C.
Proof. intros H. apply (tp_ext n (fun x => c * f x)%C); [intros; ring|]. apply tp_scale. exact H. Qed.
Lemma tp_moment3 X F i : trigpoly 3 (fun a => moment3 (turned3 a X) F i).
Proof. unfold moment3. do 2 (apply tp_sum3; intros). do 2 apply tp_mult_r. apply tp_turned3. Qed.
Lemma tp_moment4 X k F i : trigpoly 4 (fun a => moment4 (turned4 a X) k F i).
Proof. unfold moment4. do 3 (apply tp_sum3; intros). do 3 apply tp_mult_r. apply tp_turned4. Qed.
Lemma tp_cross n u (v : R -> nat -> C) i : (forall j, trigpoly n (fun a => v a j)) -> trigpoly n (fun a => cross u (v a) i).
Proof.
  intros H. unfold cross, triple. destruct i as [|[|[|i]]]; try (apply tp_minus; apply tp_scale; apply H). apply tp_const.
Qed.
Lemma tp_source th E M Q p i : trigpoly 4 (fun a => source th E M Q p a i).
Proof.
  unfold source. cbv zeta. apply tp_plus; [apply tp_plus|].
  - apply (tp_le 3); [lia|apply tp_moment3].
  - apply (tp_cross 4 _ (fun a => moment3 (turned3 a M) (field th p))). intros. apply (tp_le 3); [lia|apply tp_moment3].
  - apply tp_scale. apply tp_moment4.
Qed.
Definition zero4 (Q : nat -> nat -> nat -> nat -> C) : Prop := forall i j k h, i < 3 -> j < 3 -> k < 3 -> h < 3 -> Q i j k h = RtoC 0.
Lemma source_dipole th E M Q p a i : zero4 Q -> i < 3 ->
  source th E M Q p a i = (moment3 (turned3 a E) (field th p) i + cross (k_incident th) (moment3 (turned3 a M) (field th p)) i)%C.
Proof.
  intros Z I. unfold source. cbv zeta.
  assert (K : moment4 (turned4 a Q) (k_incident th) (field th p) i = RtoC 0).
  { unfold moment4. transitivity (sum3 (fun _ => RtoC 0)); [|unfold sum3; ring]. apply sum3_ext; intros.
    transitivity (sum3 (fun _ => RtoC 0)); [|unfold sum3; ring]. apply sum3_ext; intros.
    transitivity (sum3 (fun _ => RtoC 0)); [|unfold sum3; ring]. apply sum3_ext; intros.
    assert (T : turned4 a Q i i0 i1 i2 = RtoC 0).
    { unfold turned4.
      transitivity (sum3 (fun _ => sum3 (fun _ => sum3 (fun _ => sum3 (fun _ => RtoC 0))))); [|unfold sum3; ring].
      do 4 (apply sum3_ext; intros). rewrite Z by auto. ring. }
    rewrite T. ring. }
  rewrite K. ring.
Qed.
Lemma tp_source_dipole th E M Q p i : zero4 Q -> i < 3 -> trigpoly 3 (fun a => source th E M Q p a i).
Proof.
  intros Z I. eapply tp_ext; [intros a; symmetry; apply source_dipole; auto|]. apply tp_plus.
  - apply tp_moment3.
  - apply (tp_cross 3 _ (fun a => moment3 (turned3 a M) (field th p))). intros. apply tp_moment3.
Qed.
Lemma tp_detected n th (S : R -> nat -> C) out : (forall i, i < 3 -> trigpoly n (fun a => S a i)) ->
  trigpoly (n + n) (fun a => RtoC (detected (transverse th (S a)) out)).
Proof.
  intros H.
  assert (Q : forall f, trigpoly n f -> trigpoly (n + n) (fun a => RtoC (Cmod (f a) ^ 2))).
  { intros f F. apply (tp_ext (n + n) (fun a => f a * Cconj (f a))%C); [intros; symmetry; apply Cmod2|].
    apply tp_mult; auto. apply tp_conj. exact F. }
  destruct out.
  - eapply tp_ext; [intros a; rewrite detected_p; reflexivity|].
    apply (Q (fun a => dot3 (p_out th) (S a))). unfold dot3. apply tp_sum3. intros. apply tp_scale. auto.
  - eapply tp_ext; [intros a; rewrite detected_s; reflexivity|]. apply (Q (fun a => S a 1)). apply H. lia.
Qed.
Lemma tp_intensity th E M Q inp out : trigpoly 8 (fun a => RtoC (intensity th E M Q inp out a)).
Proof. apply (tp_detected 4 th (fun a => source th E M Q inp a)). intros. apply tp_source. Qed.
Lemma tp_intensity_dipole th E M Q inp out : zero4 Q -> trigpoly 6 (fun a => RtoC (intensity th E M Q inp out a)).
Proof. intros Z. apply (tp_detected 3 th (fun a => source th E M Q inp a)). intros. apply tp_source_dipole; auto. Qed.
