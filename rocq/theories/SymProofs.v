(** Proofs for C85, C86, C103: what the symmetry of the input fields, the sign of the
    tensors and the reversed angle of incidence do to the intensities. *)
From Coq Require Import String List Arith ZArith Bool Lia Reals Lra.
From Coquelicot Require Import Complex.
Import ListNotations.
From Verif Require Import PyBase CBase FourierBase TrigPoly Expr ExprProofs SpecForm TensorModel SpecTensor TensorInst TensorProofs UtilModel
  FormModel FormgenModel SpecGroups SpecFormgen FormgenProofs FormgenProofs2 FormgenPhys PhysProofs FormgenThms SpecFformgen FformgenThms SpecSym.
Local Open Scope nat_scope.

(** ** Symmetric parts *)
Lemma turned3_swap a X i j k : (turned3 a X i j k + turned3 a X i k j)%C = turned3 a (sym_part3 X) i j k.
Proof.
  assert (E : turned3 a X i k j = turned3 a (fun i j k => X i k j) i j k).
  { unfold turned3. apply sum3_ext; intros l _. rewrite sum3_swap. apply sum3_ext; intros m _. apply sum3_ext; intros n _. ring. }
  rewrite E. unfold turned3. rewrite <- sum3_plus. apply sum3_ext; intros. rewrite <- sum3_plus. apply sum3_ext; intros.
  rewrite <- sum3_plus. apply sum3_ext; intros. unfold sym_part3. ring.
Qed.
Lemma turned4_swap a X i j k h : (turned4 a X i j k h + turned4 a X i j h k)%C = turned4 a (sym_part4 X) i j k h.
Proof.
  assert (E : turned4 a X i j h k = turned4 a (fun i j k h => X i j h k) i j k h).
  { unfold turned4. apply sum3_ext; intros l _. apply sum3_ext; intros m _. rewrite sum3_swap.
    apply sum3_ext; intros n _. apply sum3_ext; intros o _. ring. }
  rewrite E. unfold turned4. rewrite <- sum3_plus. apply sum3_ext; intros. rewrite <- sum3_plus. apply sum3_ext; intros.
  rewrite <- sum3_plus. apply sum3_ext; intros. rewrite <- sum3_plus. apply sum3_ext; intros. unfold sym_part4. ring.
Qed.

Lemma moment3_sym X F i : (moment3 X F i + moment3 X F i)%C = moment3 (sym_part3 X) F i.
Proof. unfold moment3, sym_part3, sum3. ring. Qed.
Lemma moment4_sym X k F i : (moment4 X k F i + moment4 X k F i)%C = moment4 (sym_part4 X) k F i.
Proof.
  unfold moment4. rewrite <- sum3_plus. apply sum3_ext; intros. unfold sym_part4, sum3. ring.
Qed.

Lemma two_cancel (x y : C) : (x + x = y + y)%C -> x = y.
Proof.
  intros H. assert (A := f_equal Re H). assert (B := f_equal Im H). destruct x, y. unfold Re, Im in *. simpl in *.
  f_equal; lra.
Qed.

Lemma moment3_same a X Y F i : i < 3 ->
  (forall i j k, i < 3 -> j < 3 -> k < 3 -> sym_part3 X i j k = sym_part3 Y i j k) ->
  moment3 (turned3 a X) F i = moment3 (turned3 a Y) F i.
Proof.
  intros I H. apply two_cancel. rewrite !moment3_sym. apply moment3_ext. intros j k J K. unfold sym_part3 at 1 2.
  rewrite !turned3_swap. apply turned3_ext. auto.
Qed.
Lemma moment4_same a X Y kk F i : i < 3 ->
  (forall i j k h, i < 3 -> j < 3 -> k < 3 -> h < 3 -> sym_part4 X i j k h = sym_part4 Y i j k h) ->
  moment4 (turned4 a X) kk F i = moment4 (turned4 a Y) kk F i.
Proof.
  intros I H. apply two_cancel. rewrite !moment4_sym. apply moment4_ext. intros j k h J K Hh. unfold sym_part4 at 1 2.
  rewrite !turned4_swap. apply turned4_ext. auto.
Qed.

Lemma intensity_sym th E M Q E' M' Q' inp out y :
  (forall i j k, i < 3 -> j < 3 -> k < 3 -> sym_part3 E i j k = sym_part3 E' i j k) ->
  (forall i j k, i < 3 -> j < 3 -> k < 3 -> sym_part3 M i j k = sym_part3 M' i j k) ->
  (forall i j k h, i < 3 -> j < 3 -> k < 3 -> h < 3 -> sym_part4 Q i j k h = sym_part4 Q' i j k h) ->
  intensity th E M Q inp out y = intensity th E' M' Q' inp out y.
Proof.
  intros HE HM HQ. unfold intensity. apply detected_ext3. intros i I. apply transverse_ext3; auto.
  intros j J. unfold source. cbv zeta.
  rewrite (moment3_same y E E') by auto. rewrite (moment4_same y Q Q') by auto.
  rewrite (cross_ext _ (moment3 (turned3 y M) (field th inp)) (moment3 (turned3 y M') (field th inp))).
  - reflexivity.
  - intros. apply moment3_same; auto.
Qed.

(** ** The beam from the other side *)
Lemma field_minus th p i : i < 3 -> field (- th) p i = (- (sgn i * field th p i))%C.
Proof.
  intros I. destruct p; (destruct i as [|[|[|i]]]; [..|lia]); cbn; rewrite ?cos_neg, ?sin_neg; apply C_ext; unfold Re, Im; simpl; ring.
Qed.
Lemma incident_minus th i : i < 3 -> k_incident (- th) i = (sgn i * k_incident th i)%C.
Proof.
  intros I. destruct i as [|[|[|i]]]; [..|lia]; cbn; rewrite ?cos_neg, ?sin_neg; apply C_ext; unfold Re, Im; simpl; ring.
Qed.
Lemma reflected_minus th i : i < 3 -> k_reflected (- th) i = (sgn i * k_reflected th i)%C.
Proof.
  intros I. destruct i as [|[|[|i]]]; [..|lia]; cbn; rewrite ?cos_neg, ?sin_neg; apply C_ext; unfold Re, Im; simpl; ring.
Qed.
Lemma cross_sgn u v i : i < 3 -> cross (fun i => sgn i * u i)%C (fun i => sgn i * v i)%C i = (sgn i * cross u v i)%C.
Proof. intros I. destruct i as [|[|[|i]]]; [..|lia]; cbn [cross triple sgn]; ring. Qed.
Lemma cross_ext2 u u' v v' i : (forall j, j < 3 -> u j = u' j) -> (forall j, j < 3 -> v j = v' j) -> cross u v i = cross u' v' i.
Proof. intros H H'. unfold cross. rewrite !H, !H' by lia. reflexivity. Qed.

Lemma source_minus th E M Q p x i : i < 3 ->
  source (- th) E M Q p x i = (sgn i * source th E M Q p (x + PI) i)%C.
Proof.
  intros I. unfold source. cbv zeta.
  assert (M3 : forall X i, i < 3 -> moment3 (turned3 (x + PI) X) (field th p) i =
               (sgn i * moment3 (turned3 x X) (field (- th) p) i)%C).
  { clear i I. intros X i I. unfold moment3. rewrite <- sum3_mult_l. apply sum3_ext; intros j J. rewrite <- sum3_mult_l. apply sum3_ext; intros k K.
    rewrite turned3_plus, turned3_half by auto. rewrite !field_minus by auto. ring. }
  assert (M4 : moment4 (turned4 (x + PI) Q) (k_incident th) (field th p) i =
               (sgn i * moment4 (turned4 x Q) (k_incident (- th)) (field (- th) p) i)%C).
  { unfold moment4. rewrite <- sum3_mult_l. apply sum3_ext; intros j J. rewrite <- sum3_mult_l. apply sum3_ext; intros k K.
    rewrite <- sum3_mult_l. apply sum3_ext; intros h H.
    rewrite turned4_plus, turned4_half by auto. rewrite !field_minus, incident_minus by auto. ring. }
  rewrite M3, M4 by auto.
  rewrite (cross_ext2 (k_incident th) (fun j => sgn j * k_incident (- th) j)%C
    (moment3 (turned3 (x + PI) M) (field th p)) (fun j => sgn j * moment3 (turned3 x M) (field (- th) p) j)%C).
  - rewrite cross_sgn by auto.
    transitivity (sgn i * sgn i * (moment3 (turned3 x E) (field (- th) p) i + cross (k_incident (- th)) (moment3 (turned3 x M) (field (- th) p)) i +
      Ci * moment4 (turned4 x Q) (k_incident (- th)) (field (- th) p) i))%C; [rewrite sgn_sq; ring|ring].
  - intros j J. rewrite incident_minus by auto. transitivity (sgn j * sgn j * k_incident th j)%C; [rewrite sgn_sq; ring|ring].
  - intros j J. apply M3; exact J.
Qed.

Lemma Cmod_sgn i : Cmod (sgn i) = 1%R.
Proof. destruct i as [|[|[|i]]]; cbn [sgn]; rewrite ?Cmod_opp; apply Cmod_1. Qed.

Lemma intensity_minus th E M Q inp out x :
  intensity (- th) E M Q inp out x = intensity th E M Q inp out (x + PI).
Proof.
  unfold intensity. set (S := source th E M Q inp (x + PI)).
  assert (T : forall i, i < 3 -> transverse (- th) (source (- th) E M Q inp x) i = (sgn i * transverse th S i)%C).
  { intros i I. unfold transverse. rewrite source_minus by auto. fold S.
    assert (D : dot3 (k_reflected (- th)) (source (- th) E M Q inp x) = dot3 (k_reflected th) S).
    { unfold dot3. apply sum3_ext; intros j J. rewrite source_minus by auto. fold S. rewrite reflected_minus by auto.
      transitivity (sgn j * sgn j * (k_reflected th j * S j))%C; [ring|rewrite sgn_sq; ring]. }
    rewrite D, reflected_minus by auto. ring. }
  unfold detected. destruct out; rewrite !T by lia; rewrite !Cmod_mult, !Cmod_sgn, !Rmult_1_l; reflexivity.
Qed.

Section Gen.
Variable ev ex : expr -> expr.
Hypothesis EV : sound_ev ev.
Hypothesis EX : sound_ev ex.

Lemma formgen_sym theta e m q e' m' q' F F' rho th inp out x x' : shapes e m q -> shapes e' m' q' ->
  formgen ev ex theta e m q = Ok F -> formgen ev ex theta e' m' q' = Ok F' ->
  respects rho -> eval rho theta = RtoC th -> same_sym_part rho e e' m m' q q' ->
  dget (key inp out) F = Some x -> dget (key inp out) F' = Some x' -> eval rho x = eval rho x'.
Proof.
  intros Sh Sh' H H' Rs Ht (HE & HM & HQ) X X'.
  destruct (formgen_denotes ev ex EV EX theta e m q F rho th Sh H Rs Ht) as (_ & V).
  destruct (formgen_denotes ev ex EV EX theta e' m' q' F' rho th Sh' H' Rs Ht) as (_ & V').
  destruct (V inp out) as (y & Y & Ey). destruct (V' inp out) as (y' & Y' & Ey').
  rewrite X in Y. injection Y as <-. rewrite X' in Y'. injection Y' as <-. rewrite Ey, Ey'. f_equal.
  apply intensity_sym; assumption.
Qed.

Lemma formgen_minus theta theta' e m q F F' rho th inp out x x' : shapes e m q ->
  formgen ev ex theta e m q = Ok F -> formgen ev ex theta' e m q = Ok F' ->
  respects rho -> eval rho theta = RtoC th -> eval rho theta' = RtoC (- th) ->
  all_phi_free theta e m q -> ~ In phi (syms theta') ->
  dget (key inp out) F = Some x -> dget (key inp out) F' = Some x' ->
  forall y, eval (at_phi rho y) x' = eval (at_phi rho (y + PI)) x.
Proof.
  intros Sh H H' Rs Ht Ht' N N' X X' y.
  assert (NF : all_phi_free theta' e m q) by (split; [exact N'|apply N]).
  rewrite (formgen_function ev ex EV EX theta' e m q F' rho (- th) inp out x' Sh H' Rs Ht' NF X').
  rewrite (formgen_function ev ex EV EX theta e m q F rho th inp out x Sh H Rs Ht N X). f_equal. apply intensity_minus.
Qed.

Lemma formgen_opposite theta e m q e' m' q' F F' rho th inp out x x' : shapes e m q -> shapes e' m' q' ->
  formgen ev ex theta e m q = Ok F -> formgen ev ex theta e' m' q' = Ok F' ->
  respects rho -> eval rho theta = RtoC th -> opposite_values rho e e' m m' q q' ->
  dget (key inp out) F = Some x -> dget (key inp out) F' = Some x' -> eval rho x = eval rho x'.
Proof.
  intros Sh Sh' H H' Rs Ht (HE & HM & HQ) X X'.
  destruct (formgen_denotes ev ex EV EX theta e m q F rho th Sh H Rs Ht) as (_ & V).
  destruct (formgen_denotes ev ex EV EX theta e' m' q' F' rho th Sh' H' Rs Ht) as (_ & V').
  destruct (V inp out) as (y & Y & Ey). destruct (V' inp out) as (y' & Y' & Ey').
  rewrite X in Y. injection Y as <-. rewrite X' in Y'. injection Y' as <-. rewrite Ey, Ey'. f_equal. symmetry.
  rewrite (intensity_scale th (val3 rho e) (val3 rho m) (val4 rho q) _ _ _ (Copp (RtoC 1))).
  { rewrite Cmod_opp, Cmod_1. rewrite pow1, Rmult_1_l. reflexivity. }
  all: intros.
  { rewrite HE by assumption. ring. }
  { rewrite HM by assumption. ring. }
  { rewrite HQ by assumption. ring. }
Qed.

Lemma formgen_normal theta e m q F rho inp out x : shapes e m q ->
  formgen ev ex theta e m q = Ok F -> all_phi_free theta e m q ->
  respects rho -> eval rho theta = RtoC 0 -> dget (key inp out) F = Some x ->
  (forall y, eval (at_phi rho (y + PI)) x = eval (at_phi rho y) x) /\
  (forall k, Z.odd k = true -> fourier_coefficient (fun y => eval (at_phi rho y) x) k = RtoC 0).
Proof.
  intros Sh H N Rs Ht X.
  assert (P : forall y, eval (at_phi rho (y + PI)) x = eval (at_phi rho y) x).
  { intros y. symmetry. apply (formgen_minus theta theta e m q F F rho 0 inp out x x Sh H H Rs Ht); auto.
    - rewrite Ropp_0. exact Ht.
    - apply N. }
  split; [exact P|]. intros k K.
  apply (tp_periodic 8 _ 2 k).
  - exact (proj1 (formgen_trigpoly ev ex EV EX theta e m q F rho 0 inp out x Sh H Rs Ht N X)).
  - reflexivity.
  - intros y. replace (2 * PI / IZR 2)%R with PI by field. apply P.
  - intros (c & E). subst k. rewrite Z.odd_mul in K. rewrite Bool.andb_comm in K. discriminate K.
Qed.
End Gen.
