(** Consequences for the formulas [formgen] returns. *)
From Coq Require Import String List Arith ZArith Bool Lia Reals QArith Qreals Lra.
From Coquelicot Require Import Complex.
Import ListNotations.
From Verif Require Import PyBase CBase FourierBase Expr ExprProofs SpecForm TensorModel SpecTensor TensorInst TensorProofs TensorNat UtilModel
  DataModel FormModel FormProofs FormProofs4 FormgenModel SpecGroups GroupProofs SpecFormgen TrigPoly
  FormgenProofs FormgenProofs2 FormgenProofs3 FormgenProofs4 FormgenProofs5 FormgenPhys.
Import TensorModel.
Local Open Scope nat_scope.

Section Thms.
Variable ev ex : expr -> expr.
Hypothesis EV : sound_ev ev.
Hypothesis EX : sound_ev ex.

Lemma real_params_dec t : real_params t \/ ~ real_params t.
Proof.
  destruct t as [t|]; [|left; exact I]. destruct (assert_real_params t) as [[]|x] eqn:E.
  - left. apply assert_ok. exact E.
  - right. intros R. apply assert_ok in R. congruence.
Qed.

Lemma formgen_params theta e m q F : shapes e m q -> formgen ev ex theta e m q = Ok F ->
  real_params e /\ real_params m /\ real_params q /\ ~ (e = None /\ m = None /\ q = None).
Proof.
  intros (She & Shm & Shq) H. destruct (formgen_outcome ev ex EV theta e m q She Shm Shq) as [_ N].
  assert (D : (real_params e /\ real_params m /\ real_params q /\ ~ (e = None /\ m = None /\ q = None)) \/
    ~ (real_params e /\ real_params m /\ real_params q /\ ~ (e = None /\ m = None /\ q = None))).
  { destruct (real_params_dec e); [|right; tauto]. destruct (real_params_dec m); [|right; tauto].
    destruct (real_params_dec q); [|right; tauto].
    destruct e, m, q; try (left; split; [|split; [|split]]; auto; intros (?&?&?); discriminate). }
  destruct D as [D|D]; [exact D|]. specialize (N D). congruence.
Qed.

Lemma formgen_denotes theta e m q F rho th : shapes e m q -> formgen ev ex theta e m q = Ok F ->
  respects rho -> eval rho theta = RtoC th -> denotes rho th F e m q.
Proof.
  intros Sh H Rs Ht. destruct (formgen_params theta e m q F Sh H) as (Re & Rm & Rq & N).
  destruct Sh as (She & Shm & Shq).
  destruct (formgen_eval ev ex EV EX rho Rs theta th Ht e m q She Shm Shq Re Rm Rq N) as (F' & E & K & V).
  rewrite E in H. injection H as <-. split; [exact K|exact V].
Qed.

(** ** Functions of phi *)
Lemma fits3 i j k : i < 3 -> j < 3 -> k < 3 -> fits [3; 3; 3] [i; j; k].
Proof. intros. unfold fits. repeat (apply Forall2_cons; [assumption|]). apply Forall2_nil. Qed.
Lemma fits4 i j k h : i < 3 -> j < 3 -> k < 3 -> h < 3 -> fits [3; 3; 3; 3] [i; j; k; h].
Proof. intros. unfold fits. repeat (apply Forall2_cons; [assumption|]). apply Forall2_nil. Qed.

Lemma val3_at_phi rho y t i j k : has_shape [3; 3; 3] t -> phi_free t -> i < 3 -> j < 3 -> k < 3 ->
  val3 (at_phi rho y) t i j k = val3 rho t i j k.
Proof.
  destruct t as [t|]; cbn [val3 has_shape phi_free]; [|reflexivity]. intros Sh N I J K.
  apply at_phi_free. apply N. rewrite Sh. apply fits3; auto.
Qed.
Lemma val4_at_phi rho y t i j k h : has_shape [3; 3; 3; 3] t -> phi_free t -> i < 3 -> j < 3 -> k < 3 -> h < 3 ->
  val4 (at_phi rho y) t i j k h = val4 rho t i j k h.
Proof.
  destruct t as [t|]; cbn [val4 has_shape phi_free]; [|reflexivity]. intros Sh N I J K H.
  apply at_phi_free. apply N. rewrite Sh. apply fits4; auto.
Qed.

Lemma intensity_ext th E M Q E' M' Q' inp out y :
  (forall i j k, i < 3 -> j < 3 -> k < 3 -> E i j k = E' i j k) ->
  (forall i j k, i < 3 -> j < 3 -> k < 3 -> M i j k = M' i j k) ->
  (forall i j k h, i < 3 -> j < 3 -> k < 3 -> h < 3 -> Q i j k h = Q' i j k h) ->
  intensity th E M Q inp out y = intensity th E' M' Q' inp out y.
Proof.
  intros HE HM HQ. unfold intensity. apply detected_ext3. intros i I. apply transverse_ext3; auto.
  intros j J. apply source_ext; auto; intros; [apply turned3_ext|apply turned3_ext|apply turned4_ext]; auto.
Qed.

Lemma formgen_function theta e m q F rho th inp out x : shapes e m q -> formgen ev ex theta e m q = Ok F ->
  respects rho -> eval rho theta = RtoC th -> all_phi_free theta e m q -> dget (key inp out) F = Some x ->
  forall y, eval (at_phi rho y) x = RtoC (intensity th (val3 rho e) (val3 rho m) (val4 rho q) inp out y).
Proof.
  intros Sh H Rs Ht (Nt & Ne & Nm & Nq) X y.
  destruct (formgen_denotes theta e m q F (at_phi rho y) th Sh H) as (_ & V).
  - apply respects_at_phi. exact Rs.
  - rewrite at_phi_free by exact Nt. exact Ht.
  - destruct (V inp out) as (x' & X' & Vx). rewrite X in X'. injection X' as <-. rewrite Vx. f_equal.
    replace (Re (at_phi rho y phi)) with y by (pose proof (eval_phi rho y) as P; cbn [eval] in P; rewrite P; reflexivity).
    destruct Sh as (She & Shm & Shq).
    apply intensity_ext; intros; [apply val3_at_phi|apply val3_at_phi|apply val4_at_phi]; auto.
Qed.

(** ** Rotations *)
Lemma rot_z_entry a i j : i < 3 -> j < 3 -> at_ (rot_z a) [i; j] = Rz a i j.
Proof. intros I J. cases3 i I; cases3 j J; cbn [rot_z at_ Rz]; rewrite ?RtoC_opp; reflexivity. Qed.

Lemma opt_invariant3 rho a t : has_shape [3; 3; 3] t -> opt_invariant rho t (rot_z a) -> z_invariant3 a (val3 rho t).
Proof.
  destruct t as [t|]; cbn [has_shape opt_invariant].
  - intros Sh (v & T & Sv & Hv) i j k I J K.
    destruct (rotate3C (rot_z a) (instance rho t) eq_refl Sh) as (u & E & Su & Hu).
    assert (T' : transform (instance rho t) (rot_z a) = cprodC [rot_z a; rot_z a; rot_z a; instance rho t] [[1; 6]; [3; 7]; [5; 8]]).
    { unfold transform, rank, cprodC. cbn [instance tmap shape]. rewrite Sh. reflexivity. }
    rewrite T', E in T. injection T as <-. cbn [val3]. change (eval rho (at_ t [i; j; k])) with (at_ (instance rho t) [i; j; k]).
    rewrite <- Hv, Hu by (apply in_indices; rewrite Su; apply fits3; auto).
    unfold turned3. do 3 (apply sum3_ext; intros). rewrite !rot_z_entry by auto. reflexivity.
  - intros _ _ i j k I J K. unfold turned3. cbn [val3]. unfold sum3. ring.
Qed.
Lemma opt_invariant4 rho a t : has_shape [3; 3; 3; 3] t -> opt_invariant rho t (rot_z a) -> z_invariant4 a (val4 rho t).
Proof.
  destruct t as [t|]; cbn [has_shape opt_invariant].
  - intros Sh (v & T & Sv & Hv) i j k h I J K H.
    destruct (rotate4C (rot_z a) (instance rho t) eq_refl Sh) as (u & E & Su & Hu).
    assert (T' : transform (instance rho t) (rot_z a) =
      cprodC [rot_z a; rot_z a; rot_z a; rot_z a; instance rho t] [[1; 8]; [3; 9]; [5; 10]; [7; 11]]).
    { unfold transform, rank, cprodC. cbn [instance tmap shape]. rewrite Sh. reflexivity. }
    rewrite T', E in T. injection T as <-. cbn [val4]. change (eval rho (at_ t [i; j; k; h])) with (at_ (instance rho t) [i; j; k; h]).
    rewrite <- Hv, Hu by (apply in_indices; rewrite Su; apply fits4; auto).
    unfold turned4. do 4 (apply sum3_ext; intros). rewrite !rot_z_entry by auto. reflexivity.
  - intros _ _ i j k h I J K H. unfold turned4. cbn [val4]. unfold sum3. ring.
Qed.

Lemma formgen_periodic theta e m q F rho th inp out x a : shapes e m q -> formgen ev ex theta e m q = Ok F ->
  respects rho -> eval rho theta = RtoC th -> all_phi_free theta e m q -> dget (key inp out) F = Some x ->
  opt_invariant rho e (rot_z a) -> opt_invariant rho m (rot_z a) -> opt_invariant rho q (rot_z a) ->
  forall y, eval (at_phi rho (y + a)) x = eval (at_phi rho y) x.
Proof.
  intros Sh H Rs Ht N X Ie Im Iq y. rewrite !(formgen_function theta e m q F rho th inp out x Sh H Rs Ht N X).
  destruct Sh as (She & Shm & Shq). f_equal.
  apply intensity_periodic; auto using opt_invariant3, opt_invariant4.
Qed.

Lemma formgen_trigpoly theta e m q F rho th inp out x : shapes e m q -> formgen ev ex theta e m q = Ok F ->
  respects rho -> eval rho theta = RtoC th -> all_phi_free theta e m q -> dget (key inp out) F = Some x ->
  trigpoly 8 (fun y => eval (at_phi rho y) x) /\ (q = None -> trigpoly 6 (fun y => eval (at_phi rho y) x)).
Proof.
  intros Sh H Rs Ht N X. split; [|intros ->];
    (eapply tp_ext; [intros y; symmetry; apply (formgen_function theta e m _ F rho th inp out x Sh H Rs Ht N X)|]).
  - apply tp_intensity.
  - apply tp_intensity_dipole. intros i j k h _ _ _ _. reflexivity.
Qed.

Lemma formgen_normal theta e m q F rho inp out x x' : shapes e m q -> formgen ev ex theta e m q = Ok F ->
  respects rho -> eval rho theta = RtoC 0 -> all_phi_free theta e m q ->
  dget (key inp out) F = Some x -> dget (key (other inp) (other out)) F = Some x' ->
  forall y, eval (at_phi rho (y + PI / 2)) x' = eval (at_phi rho y) x.
Proof.
  intros Sh H Rs Ht N X X' y. rewrite (formgen_function theta e m q F rho 0 _ _ x' Sh H Rs Ht N X').
  rewrite (formgen_function theta e m q F rho 0 _ _ x Sh H Rs Ht N X). f_equal. apply normal_incidence.
Qed.
End Thms.
