(** Further consequences of the radiation formula: crystals turned, scaled and
    mirrored. *)
From Coq Require Import List Arith ZArith Bool Lia Reals Lra.
From Coquelicot Require Import Complex.
Import ListNotations.
From Verif Require Import PyBase CBase FourierBase TrigPoly SpecFormgen FormgenProofs FormgenProofs2 FormgenPhys.
Local Open Scope nat_scope.

(** ** Tensors transformed by any matrix *)
Definition turn3 (A : nat -> nat -> C) (X : nat -> nat -> nat -> C) : nat -> nat -> nat -> C := fun i j k =>
  sum3 (fun l => sum3 (fun m => sum3 (fun n => A i l * A j m * A k n * X l m n)))%C.
Definition turn4 (A : nat -> nat -> C) (X : nat -> nat -> nat -> nat -> C) : nat -> nat -> nat -> nat -> C := fun i j k h =>
  sum3 (fun l => sum3 (fun m => sum3 (fun n => sum3 (fun o => A i l * A j m * A k n * A h o * X l m n o))))%C.

Lemma turned3_turn a X : turned3 a X = turn3 (Rz a) X.
Proof. reflexivity. Qed.
Lemma turned4_turn a X : turned4 a X = turn4 (Rz a) X.
Proof. reflexivity. Qed.

Lemma gnest3 A X i j k : turn3 A X i j k =
  sum3 (fun l => A i l * sum3 (fun m => A j m * sum3 (fun n => A k n * X l m n)))%C.
Proof.
  unfold turn3. apply sum3_ext; intros. rewrite <- sum3_mult_l. apply sum3_ext; intros.
  rewrite <- sum3_mult_l, <- sum3_mult_l. apply sum3_ext; intros. ring.
Qed.
Lemma gnest4 A X i j k h : turn4 A X i j k h =
  sum3 (fun l => A i l * sum3 (fun m => A j m * sum3 (fun n => A k n * sum3 (fun o => A h o * X l m n o))))%C.
Proof.
  unfold turn4. apply sum3_ext; intros. rewrite <- sum3_mult_l. apply sum3_ext; intros.
  rewrite <- sum3_mult_l, <- sum3_mult_l. apply sum3_ext; intros.
  rewrite <- !sum3_mult_l. apply sum3_ext; intros. ring.
Qed.

Definition is_product (P B A : nat -> nat -> C) : Prop :=
  forall i l, i < 3 -> l < 3 -> P i l = sum3 (fun p => B i p * A p l)%C.

Section Compose.
  Variables P B A : nat -> nat -> C.
  Hypothesis H : is_product P B A.

  Lemma gsingle k (x : nat -> C) : k < 3 ->
    sum3 (fun n => B k n * sum3 (fun n' => A n n' * x n'))%C = sum3 (fun n' => P k n' * x n')%C.
  Proof.
    intros K. rewrite (sum3_ext (fun n' => P k n' * x n')%C (fun n' => sum3 (fun p => B k p * A p n') * x n')%C).
    - unfold sum3. ring.
    - intros i I. rewrite H by auto. reflexivity.
  Qed.

  Lemma turn3_compose X i j k : i < 3 -> j < 3 -> k < 3 -> turn3 P X i j k = turn3 B (turn3 A X) i j k.
  Proof.
    intros I J K. rewrite !gnest3. symmetry.
    transitivity (sum3 (fun l => B i l * sum3 (fun m => B j m *
       sum3 (fun l' => A l l' * sum3 (fun m' => A m m' * sum3 (fun n' => P k n' * X l' m' n')))))%C).
    { apply sum3_ext; intros l L. f_equal. apply sum3_ext; intros m M. f_equal.
      transitivity (sum3 (fun n => B k n * sum3 (fun l' => A l l' * sum3 (fun m' => A m m' * sum3 (fun n' => A n n' * X l' m' n'))))%C).
      { apply sum3_ext; intros n N. rewrite gnest3. reflexivity. }
      rewrite pull. apply sum3_ext; intros l' L'. f_equal. rewrite pull. apply sum3_ext; intros m' M'. f_equal.
      apply (gsingle k (fun n' => X l' m' n')); auto. }
    transitivity (sum3 (fun l => B i l *
       sum3 (fun l' => A l l' * sum3 (fun m' => P j m' * sum3 (fun n' => P k n' * X l' m' n'))))%C).
    { apply sum3_ext; intros l L. f_equal. rewrite pull. apply sum3_ext; intros l' L'. f_equal.
      apply (gsingle j (fun m' => sum3 (fun n' => P k n' * X l' m' n')%C)); auto. }
    apply (gsingle i (fun l' => sum3 (fun m' => P j m' * sum3 (fun n' => P k n' * X l' m' n'))%C)); auto.
  Qed.

  Lemma turn4_compose X i j k h : i < 3 -> j < 3 -> k < 3 -> h < 3 ->
    turn4 P X i j k h = turn4 B (turn4 A X) i j k h.
  Proof.
    intros I J K Hh. rewrite !gnest4. symmetry.
    transitivity (sum3 (fun l => B i l * sum3 (fun m => B j m * sum3 (fun n => B k n *
       sum3 (fun l' => A l l' * sum3 (fun m' => A m m' * sum3 (fun n' => A n n' * sum3 (fun o' => P h o' * X l' m' n' o')))))))%C).
    { apply sum3_ext; intros l L. f_equal. apply sum3_ext; intros m M. f_equal. apply sum3_ext; intros n N. f_equal.
      transitivity (sum3 (fun o => B h o * sum3 (fun l' => A l l' * sum3 (fun m' => A m m' * sum3 (fun n' => A n n' *
        sum3 (fun o' => A o o' * X l' m' n' o')))))%C).
      { apply sum3_ext; intros o O. rewrite gnest4. reflexivity. }
      rewrite pull. apply sum3_ext; intros l' L'. f_equal. rewrite pull. apply sum3_ext; intros m' M'. f_equal.
      rewrite pull. apply sum3_ext; intros n' N'. f_equal.
      apply (gsingle h (fun o' => X l' m' n' o')); auto. }
    transitivity (sum3 (fun l => B i l * sum3 (fun m => B j m *
       sum3 (fun l' => A l l' * sum3 (fun m' => A m m' * sum3 (fun n' => P k n' * sum3 (fun o' => P h o' * X l' m' n' o'))))))%C).
    { apply sum3_ext; intros l L. f_equal. apply sum3_ext; intros m M. f_equal.
      rewrite pull. apply sum3_ext; intros l' L'. f_equal. rewrite pull. apply sum3_ext; intros m' M'. f_equal.
      apply (gsingle k (fun n' => sum3 (fun o' => P h o' * X l' m' n' o')%C)); auto. }
    transitivity (sum3 (fun l => B i l *
       sum3 (fun l' => A l l' * sum3 (fun m' => P j m' * sum3 (fun n' => P k n' *
         sum3 (fun o' => P h o' * X l' m' n' o')))))%C).
    { apply sum3_ext; intros l L. f_equal. rewrite pull. apply sum3_ext; intros l' L'. f_equal.
      apply (gsingle j (fun m' => sum3 (fun n' => P k n' * sum3 (fun o' => P h o' * X l' m' n' o'))%C)); auto. }
    apply (gsingle i (fun l' => sum3 (fun m' => P j m' * sum3 (fun n' => P k n' *
      sum3 (fun o' => P h o' * X l' m' n' o')))%C)); auto.
  Qed.
End Compose.

Lemma turn3_ext A X Y i j k : (forall l m n, l < 3 -> m < 3 -> n < 3 -> X l m n = Y l m n) -> turn3 A X i j k = turn3 A Y i j k.
Proof. intros H. unfold turn3. do 3 (apply sum3_ext; intros). rewrite H; auto. Qed.
Lemma turn4_ext A X Y i j k h : (forall l m n o, l < 3 -> m < 3 -> n < 3 -> o < 3 -> X l m n o = Y l m n o) ->
  turn4 A X i j k h = turn4 A Y i j k h.
Proof. intros H. unfold turn4. do 4 (apply sum3_ext; intros). rewrite H; auto. Qed.

(** ** Turning the crystal *)
Lemma intensity_turned th E M Q E' M' Q' inp out a y :
  (forall i j k, i < 3 -> j < 3 -> k < 3 -> E' i j k = turned3 a E i j k) ->
  (forall i j k, i < 3 -> j < 3 -> k < 3 -> M' i j k = turned3 a M i j k) ->
  (forall i j k h, i < 3 -> j < 3 -> k < 3 -> h < 3 -> Q' i j k h = turned4 a Q i j k h) ->
  intensity th E' M' Q' inp out y = intensity th E M Q inp out (y + a).
Proof.
  intros HE HM HQ. unfold intensity. apply detected_ext3. intros i I. apply transverse_ext3; auto.
  intros j J. replace (y + a)%R with (a + y)%R by ring. apply source_ext; auto; intros.
  - rewrite turned3_plus by auto. apply turned3_ext. auto.
  - rewrite turned3_plus by auto. apply turned3_ext. auto.
  - rewrite turned4_plus by auto. apply turned4_ext. auto.
Qed.

(** ** Scaling all tensors *)
Lemma turned3_scale a c X i j k : turned3 a (fun l m n => c * X l m n)%C i j k = (c * turned3 a X i j k)%C.
Proof. rewrite !nest3. unfold sum3. ring. Qed.
Lemma turned4_scale a c X i j k h : turned4 a (fun l m n o => c * X l m n o)%C i j k h = (c * turned4 a X i j k h)%C.
Proof. rewrite !nest4. unfold sum3. ring. Qed.
Lemma moment3_scale c X F i : moment3 (fun l m n => c * X l m n)%C F i = (c * moment3 X F i)%C.
Proof. unfold moment3, sum3. ring. Qed.
Lemma moment4_scale c X k F i : moment4 (fun l m n o => c * X l m n o)%C k F i = (c * moment4 X k F i)%C.
Proof. unfold moment4. rewrite <- sum3_mult_l. apply sum3_ext; intros. rewrite <- sum3_mult_l. apply sum3_ext; intros. unfold sum3. ring. Qed.
Lemma cross_scale c u v i : cross u (fun j => c * v j)%C i = (c * cross u v i)%C.
Proof. unfold cross, triple. destruct i as [|[|[|i]]]; ring. Qed.

Lemma source_scale th E M Q E' M' Q' c p y i : i < 3 ->
  (forall i j k, i < 3 -> j < 3 -> k < 3 -> E' i j k = (c * E i j k)%C) ->
  (forall i j k, i < 3 -> j < 3 -> k < 3 -> M' i j k = (c * M i j k)%C) ->
  (forall i j k h, i < 3 -> j < 3 -> k < 3 -> h < 3 -> Q' i j k h = (c * Q i j k h)%C) ->
  source th E' M' Q' p y i = (c * source th E M Q p y i)%C.
Proof.
  intros I HE HM HQ. unfold source. cbv zeta.
  rewrite (moment3_ext (turned3 y E') (fun l m n => c * turned3 y E l m n)%C)
    by (intros; rewrite <- turned3_scale; apply turned3_ext; auto).
  rewrite (cross_ext _ (moment3 (turned3 y M') (field th p)) (fun j => c * moment3 (turned3 y M) (field th p) j)%C)
    by (intros; rewrite <- moment3_scale; apply moment3_ext; intros; rewrite <- turned3_scale; apply turned3_ext; auto).
  rewrite (moment4_ext (turned4 y Q') (fun l m n o => c * turned4 y Q l m n o)%C)
    by (intros; rewrite <- turned4_scale; apply turned4_ext; auto).
  rewrite moment3_scale, moment4_scale, cross_scale. ring.
Qed.

Lemma Cmod_scale (c z : C) : (Cmod (Cmult c z) ^ 2 = Cmod c ^ 2 * Cmod z ^ 2)%R.
Proof. rewrite Cmod_mult. ring. Qed.

Lemma detected_scale th S S' c out : (forall i, i < 3 -> S' i = (c * S i)%C) ->
  detected (transverse th S') out = (Cmod c ^ 2 * detected (transverse th S) out)%R.
Proof.
  intros H. destruct out.
  - rewrite !detected_p. rewrite <- Cmod_scale. f_equal. f_equal. unfold dot3. rewrite <- sum3_mult_l. apply sum3_ext; intros.
    rewrite H by auto. ring.
  - rewrite !detected_s. rewrite H by lia. apply Cmod_scale.
Qed.

Lemma intensity_scale th E M Q E' M' Q' c inp out y :
  (forall i j k, i < 3 -> j < 3 -> k < 3 -> E' i j k = (c * E i j k)%C) ->
  (forall i j k, i < 3 -> j < 3 -> k < 3 -> M' i j k = (c * M i j k)%C) ->
  (forall i j k h, i < 3 -> j < 3 -> k < 3 -> h < 3 -> Q' i j k h = (c * Q i j k h)%C) ->
  intensity th E' M' Q' inp out y = (Cmod c ^ 2 * intensity th E M Q inp out y)%R.
Proof. intros HE HM HQ. unfold intensity. apply detected_scale. intros. apply source_scale; auto. Qed.

(** ** Mirrors containing the z axis *)
Definition flip (i : nat) : C := match i with 1 => (- RtoC 1)%C | _ => RtoC 1 end.
Definition mirror_y (i j : nat) : C := if i =? j then flip i else RtoC 0.

Lemma mirror_sum f i : i < 3 -> sum3 (fun l => mirror_y i l * f l)%C = (flip i * f i)%C.
Proof. intros I. cases3 i I; unfold sum3, mirror_y, flip; cbn [Nat.eqb]; ring. Qed.

Lemma turn3_mirror X i j k : i < 3 -> j < 3 -> k < 3 -> turn3 mirror_y X i j k = (flip i * flip j * flip k * X i j k)%C.
Proof. intros I J K. rewrite gnest3, mirror_sum, mirror_sum, mirror_sum by auto. ring. Qed.
Lemma turn4_mirror X i j k h : i < 3 -> j < 3 -> k < 3 -> h < 3 ->
  turn4 mirror_y X i j k h = (flip i * flip j * flip k * flip h * X i j k h)%C.
Proof. intros I J K H. rewrite gnest4, mirror_sum, mirror_sum, mirror_sum, mirror_sum by auto. ring. Qed.

(** Pairs of field components are not changed by the mirror. *)
Lemma flip_field th p j k : j < 3 -> k < 3 -> (flip j * field th p j * (flip k * field th p k) = field th p j * field th p k)%C.
Proof. intros J K. destruct p; cases3 j J; cases3 k K; unfold flip, field, triple; ring. Qed.
Lemma flip_k th j : j < 3 -> (flip j * k_incident th j = k_incident th j)%C.
Proof. intros J. cases3 j J; unfold flip, k_incident, triple; ring. Qed.

Lemma moment3_mirror X Y th p i : i < 3 ->
  (forall j k, j < 3 -> k < 3 -> Y i j k = flip i * flip j * flip k * X i j k)%C ->
  moment3 Y (field th p) i = (flip i * moment3 X (field th p) i)%C.
Proof.
  intros I H. unfold moment3. rewrite <- sum3_mult_l. apply sum3_ext; intros j J. rewrite <- sum3_mult_l. apply sum3_ext; intros k K.
  rewrite H by auto. transitivity (flip i * (X i j k * (flip j * field th p j * (flip k * field th p k))))%C; [ring|].
  rewrite flip_field by auto. ring.
Qed.
Lemma moment4_mirror X Y th p i : i < 3 ->
  (forall j k h, j < 3 -> k < 3 -> h < 3 -> Y i j k h = flip i * flip j * flip k * flip h * X i j k h)%C ->
  moment4 Y (k_incident th) (field th p) i = (flip i * moment4 X (k_incident th) (field th p) i)%C.
Proof.
  intros I H. unfold moment4. rewrite <- sum3_mult_l. apply sum3_ext; intros j J. rewrite <- sum3_mult_l. apply sum3_ext; intros k K.
  rewrite <- sum3_mult_l. apply sum3_ext; intros h Hh.
  rewrite H by auto.
  transitivity (flip i * (X i j k h * (flip j * k_incident th j) * (flip k * field th p k * (flip h * field th p h))))%C; [ring|].
  rewrite flip_field, flip_k by auto. ring.
Qed.

(** The source of the mirrored crystal (the magnetic tensor is axial). *)
Lemma source_mirror th E M Q E' M' Q' p y y' i : i < 3 ->
  (forall i j k, i < 3 -> j < 3 -> k < 3 -> turned3 y' E' i j k = flip i * flip j * flip k * turned3 y E i j k)%C ->
  (forall i j k, i < 3 -> j < 3 -> k < 3 -> turned3 y' M' i j k = - (flip i * flip j * flip k * turned3 y M i j k))%C ->
  (forall i j k h, i < 3 -> j < 3 -> k < 3 -> h < 3 -> turned4 y' Q' i j k h = flip i * flip j * flip k * flip h * turned4 y Q i j k h)%C ->
  source th E' M' Q' p y' i = (flip i * source th E M Q p y i)%C.
Proof.
  intros I HE HM HQ. unfold source. cbv zeta.
  rewrite (moment3_mirror (turned3 y E) (turned3 y' E')) by auto.
  rewrite (moment4_mirror (turned4 y Q) (turned4 y' Q')) by auto.
  assert (X : forall j, j < 3 -> moment3 (turned3 y' M') (field th p) j = (- (flip j * moment3 (turned3 y M) (field th p) j))%C).
  { intros j J. transitivity (- moment3 (fun a b c => - turned3 y' M' a b c)%C (field th p) j)%C.
    - unfold moment3, sum3. ring.
    - f_equal. apply moment3_mirror; auto. intros. rewrite HM by auto. ring. }
  assert (Y : cross (k_incident th) (moment3 (turned3 y' M') (field th p)) i =
    (flip i * cross (k_incident th) (moment3 (turned3 y M) (field th p)) i)%C).
  { rewrite (cross_ext _ _ (fun j => - (flip j * moment3 (turned3 y M) (field th p) j))%C) by auto.
    set (v := moment3 (turned3 y M) (field th p)). clearbody v.
    cases3 i I; unfold cross, k_incident, triple, flip; ring. }
  rewrite Y. ring.
Qed.

Lemma Cmod_flip i (z : C) : Cmod (Cmult (flip i) z) = Cmod z.
Proof.
  rewrite Cmod_mult. destruct i as [|[|i]]; cbn [flip]; rewrite ?Cmod_opp, Cmod_1; ring.
Qed.

Lemma detected_mirror th S S' out : (forall i, i < 3 -> S' i = (flip i * S i)%C) ->
  detected (transverse th S') out = detected (transverse th S) out.
Proof.
  intros H. destruct out.
  - rewrite !detected_p. f_equal. f_equal. unfold dot3, sum3. rewrite !H by lia. unfold flip, p_out, triple. ring.
  - rewrite !detected_s. rewrite H by lia. rewrite Cmod_flip. reflexivity.
Qed.

Lemma Rz_flip a i j : i < 3 -> j < 3 -> (flip i * Rz (- a) i j = Rz a i j * flip j)%C.
Proof.
  intros I J. cases3 i I; cases3 j J; unfold flip; cbn [Rz]; rewrite ?cos_neg, ?sin_neg; apply C_ext; unfold Re, Im; simpl; ring.
Qed.

(** The mirror plane that contains z and makes the angle a with the x axis. *)
Definition mirror_at (a : R) (i j : nat) : C := (Rz (2 * a) i j * flip j)%C.

Lemma mirror_at_product a : is_product (mirror_at a) (Rz (2 * a)) mirror_y.
Proof.
  intros i l I L. unfold mirror_at, sum3, mirror_y. cases3 l L; cbn [Nat.eqb]; ring.
Qed.

(** Rz(y) (Rz(2a) m) = m Rz(-y-2a) *)
Lemma turned3_mirror_at X a y i j k : i < 3 -> j < 3 -> k < 3 ->
  turned3 y (turn3 (mirror_at a) X) i j k = (flip i * flip j * flip k * turned3 (- y - 2 * a) X i j k)%C.
Proof.
  intros I J K. rewrite !turned3_turn.
  assert (P : is_product (fun i j => flip i * Rz (- y - 2 * a) i j)%C (Rz y) (mirror_at a)).
  { intros i' l I' L. replace (- y - 2 * a)%R with (- (2 * a + y))%R by ring. rewrite Rz_flip, Rz_plus by auto.
    unfold mirror_at, sum3. ring. }
  rewrite <- (turn3_compose _ _ _ P) by auto. unfold turn3. rewrite <- sum3_mult_l. apply sum3_ext; intros.
  rewrite <- sum3_mult_l. apply sum3_ext; intros. rewrite <- sum3_mult_l. apply sum3_ext; intros. ring.
Qed.
Lemma turned4_mirror_at X a y i j k h : i < 3 -> j < 3 -> k < 3 -> h < 3 ->
  turned4 y (turn4 (mirror_at a) X) i j k h = (flip i * flip j * flip k * flip h * turned4 (- y - 2 * a) X i j k h)%C.
Proof.
  intros I J K H. rewrite !turned4_turn.
  assert (P : is_product (fun i j => flip i * Rz (- y - 2 * a) i j)%C (Rz y) (mirror_at a)).
  { intros i' l I' L. replace (- y - 2 * a)%R with (- (2 * a + y))%R by ring. rewrite Rz_flip, Rz_plus by auto.
    unfold mirror_at, sum3. ring. }
  rewrite <- (turn4_compose _ _ _ P) by auto. unfold turn4. rewrite <- sum3_mult_l. apply sum3_ext; intros.
  rewrite <- sum3_mult_l. apply sum3_ext; intros. rewrite <- sum3_mult_l. apply sum3_ext; intros.
  rewrite <- sum3_mult_l. apply sum3_ext; intros. ring.
Qed.

Lemma source_mirror_at th E M Q a inp y :
  (forall i j k, i < 3 -> j < 3 -> k < 3 -> turn3 (mirror_at a) E i j k = E i j k) ->
  (forall i j k, i < 3 -> j < 3 -> k < 3 -> turn3 (mirror_at a) M i j k = (- M i j k)%C) ->
  (forall i j k h, i < 3 -> j < 3 -> k < 3 -> h < 3 -> turn4 (mirror_at a) Q i j k h = Q i j k h) ->
  forall i, i < 3 -> source th E M Q inp y i = (flip i * source th E M Q inp (- y - 2 * a) i)%C.
Proof.
  intros HE HM HQ i I. apply source_mirror; auto; intros.
  - rewrite <- turned3_mirror_at by auto. apply turned3_ext. intros. symmetry. auto.
  - rewrite <- turned3_mirror_at by auto.
    rewrite (turned3_ext y (turn3 (mirror_at a) M) (fun l m n => - RtoC 1 * M l m n)%C) by (intros; rewrite HM by auto; ring).
    rewrite turned3_scale. ring.
  - rewrite <- turned4_mirror_at by auto. apply turned4_ext. intros. symmetry. auto.
Qed.
Lemma intensity_mirror th E M Q a inp out y :
  (forall i j k, i < 3 -> j < 3 -> k < 3 -> turn3 (mirror_at a) E i j k = E i j k) ->
  (forall i j k, i < 3 -> j < 3 -> k < 3 -> turn3 (mirror_at a) M i j k = (- M i j k)%C) ->
  (forall i j k h, i < 3 -> j < 3 -> k < 3 -> h < 3 -> turn4 (mirror_at a) Q i j k h = Q i j k h) ->
  intensity th E M Q inp out y = intensity th E M Q inp out (- y - 2 * a).
Proof. intros HE HM HQ. unfold intensity. apply detected_mirror. intros i I. apply source_mirror_at; auto. Qed.
(** When the plane of incidence is the mirror plane no s-polarized light comes out. *)
Lemma intensity_mirror_s th E M Q a inp :
  (forall i j k, i < 3 -> j < 3 -> k < 3 -> turn3 (mirror_at a) E i j k = E i j k) ->
  (forall i j k, i < 3 -> j < 3 -> k < 3 -> turn3 (mirror_at a) M i j k = (- M i j k)%C) ->
  (forall i j k h, i < 3 -> j < 3 -> k < 3 -> h < 3 -> turn4 (mirror_at a) Q i j k h = Q i j k h) ->
  intensity th E M Q inp Sin (- a) = 0%R.
Proof.
  intros HE HM HQ. unfold intensity. rewrite detected_s.
  pose proof (source_mirror_at th E M Q a inp (- a) HE HM HQ 1 ltac:(lia)) as X.
  replace (- - a - 2 * a)%R with (- a)%R in X by ring. cbn [flip] in X.
  assert (Z : source th E M Q inp (- a) 1 = RtoC 0).
  { destruct (source th E M Q inp (- a) 1) as [u v]. injection X as A B. unfold RtoC. f_equal; lra. }
  rewrite Z, Cmod_0. ring.
Qed.

(** No source, no light *)
Lemma intensity_zero th E M Q inp out y :
  (forall i j k, i < 3 -> j < 3 -> k < 3 -> E i j k = RtoC 0) ->
  (forall i j k, i < 3 -> j < 3 -> k < 3 -> M i j k = RtoC 0) ->
  (forall i j k h, i < 3 -> j < 3 -> k < 3 -> h < 3 -> Q i j k h = RtoC 0) ->
  intensity th E M Q inp out y = 0%R.
Proof.
  intros HE HM HQ.
  rewrite (intensity_scale th E M Q E M Q (RtoC 0)).
  - rewrite Cmod_0. ring.
  - intros. rewrite HE by auto. ring.
  - intros. rewrite HM by auto. ring.
  - intros. rewrite HQ by auto. ring.
Qed.

(** ** Tensors of odd rank and the inversion *)
Definition minus (i j : nat) : C := if i =? j then (- RtoC 1)%C else RtoC 0.
Lemma minus_sum f i : i < 3 -> sum3 (fun l => minus i l * f l)%C = (- f i)%C.
Proof. intros I. cases3 i I; unfold sum3, minus; cbn [Nat.eqb]; ring. Qed.
Lemma turn3_minus X i j k : i < 3 -> j < 3 -> k < 3 -> turn3 minus X i j k = (- X i j k)%C.
Proof. intros I J K. rewrite gnest3, minus_sum, minus_sum, minus_sum by auto. ring. Qed.
Lemma turn4_minus X i j k h : i < 3 -> j < 3 -> k < 3 -> h < 3 -> turn4 minus X i j k h = X i j k h.
Proof. intros I J K H. rewrite gnest4, minus_sum, minus_sum, minus_sum, minus_sum by auto. ring. Qed.
Lemma inversion_kills X : (forall i j k, i < 3 -> j < 3 -> k < 3 -> turn3 minus X i j k = X i j k) ->
  forall i j k, i < 3 -> j < 3 -> k < 3 -> X i j k = RtoC 0.
Proof.
  intros H i j k I J K. specialize (H i j k I J K). rewrite turn3_minus in H by auto.
  destruct (X i j k) as [a b]. injection H as A B. unfold RtoC. f_equal; lra.
Qed.
