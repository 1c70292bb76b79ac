(** Proofs for property C147. *)
From Coq Require Import String List Arith ZArith Bool Lia Reals QArith Qreals Lra Permutation.
From Coquelicot Require Import Complex.
Import ListNotations.
From Verif Require Import PyBase CBase Expr ExprProofs SpecPhys PhysThms SpecFormgen SpecFformgen TensorDefs TensorInst TensorProofs UtilModel SpecUtil FormgenTables SymProofs2 SpecMeas SpecOne.
From Verif Require Import SpecTensor TensorModel.
Local Open Scope nat_scope.

Lemma one_same th s d q E Q rho rho' : sreal s = Some true -> respects rho -> respects rho' -> one_parameter s d q E Q -> seen th E Q ->
  (same_patterns th (val3 rho' (Some d)) (val3 rho (Some d)) (val4 rho' (Some q)) (val4 rho (Some q)) <-> rho' s = rho s \/ rho' s = Copp (rho s)).
Proof.
  intros Rs Rr Rr' O (inp & out & x & Z).
  assert (V : forall r inp out x, setup_intensity (fformgen_setup th) (val3 r (Some d)) (val4 r (Some q)) inp out x =
    (Cmod (r s) ^ 2 * setup_intensity (fformgen_setup th) E Q inp out x)%R).
  { intros r inp' out' x'. destruct (O r) as [O3 O4]. apply setup_intensity_scale; assumption. }
  split.
  - intros S. specialize (S inp out x). rewrite !V in S. apply Rmult_eq_reg_r in S; [|exact Z].
    specialize (Rr s Rs). specialize (Rr' s Rs). destruct (rho s) as [a b], (rho' s) as [a' b']. unfold Im, snd in Rr, Rr'. subst b b'.
    change (a', 0%R) with (RtoC a') in *. change (a, 0%R) with (RtoC a) in *. rewrite !Cmod_R, !pow2_abs in S. assert (P : ((a' - a) * (a' + a) = 0)%R) by (ring_simplify; lra).
    apply Rmult_integral in P as [P|P].
    + left. f_equal. lra.
    + right. rewrite <- RtoC_opp. f_equal. lra.
  - intros H inp' out' x'. rewrite !V. f_equal. f_equal. destruct H as [-> | ->]; [reflexivity|apply Cmod_opp].
Qed.

Lemma one_unseen th s d q E Q rho rho' : one_parameter s d q E Q -> ~ seen th E Q ->
  same_patterns th (val3 rho' (Some d)) (val3 rho (Some d)) (val4 rho' (Some q)) (val4 rho (Some q)).
Proof.
  intros O N inp out x. destruct (O rho) as [O3 O4], (O rho') as [O3' O4'].
  rewrite (setup_intensity_scale th E Q _ _ (rho s) inp out x O3 O4), (setup_intensity_scale th E Q _ _ (rho' s) inp out x O3' O4').
  destruct (Req_dec (setup_intensity (fformgen_setup th) E Q inp out x) 0) as [-> | Z]; [ring|]. exfalso. apply N. exists inp, out, x. exact Z.
Qed.

(** Zincblende without quadrupole radiation *)
Definition zb_sym : sym := mksym "zyx" (Some true).
Definition no_quadrupole : tensor expr := mkT [3; 3; 3; 3] (fun _ => ENum 0 0).
Definition zb (i j k : nat) : C :=
  match i, j, k with 0, 1, 2 | 0, 2, 1 | 1, 0, 2 | 1, 2, 0 | 2, 0, 1 | 2, 1, 0 => RtoC 1 | _, _, _ => RtoC 0 end.
Lemma zb_one d : (do t <- dipole "T_d"; make_tensor_real (fun l => l) t) = Ok d ->
  one_parameter zb_sym d no_quadrupole zb (fun _ _ _ _ => RtoC 0).
Proof.
  intros H.
  assert (E : exists t, dipole "T_d" = Ok t) by (eexists; reflexivity). destruct E as (t & E). rewrite E in H. cbn [bind] in H.
  destruct plain_tables as (T1 & _). destruct (plain_lookup _ _ _ _ T1 E) as [P S]. rewrite (real_is _ t P) in H. injection H as <-.
  injection E as <-. intros rho.
  split; [|intros i j k h _ _ _ _; change (Expr.eval rho (num 0) = (rho zb_sym * RtoC 0)%C); rewrite eval_num, RMicromega.Q2R_0; ring].
  { intros i j k I J K. destruct i as [|[|[|i]]]; try lia; destruct j as [|[|[|j]]]; try lia; destruct k as [|[|[|k]]]; try lia.
    all: match goal with |- val3 ?r (Some ?t) ?i ?j ?k = _ => change (val3 r (Some t) i j k) with (Expr.eval r (at_ t [i; j; k])) end.
    all: match goal with |- Expr.eval ?r ?e = _ => let v := eval vm_compute in e in change e with v end.
    all: match goal with
      | |- Expr.eval ?r (ENum 0 0) = (?a * _)%C => change (Expr.eval r (num 0) = (a * RtoC 0)%C); rewrite eval_num, RMicromega.Q2R_0; ring
      | |- Expr.eval ?r (ESym ?s) = (?a * _)%C => change (a = (a * RtoC 1)%C); ring
      end. }
Qed.
Lemma zb_good d : (do t <- dipole "T_d"; make_tensor_real (fun l => l) t) = Ok d -> good_tensors d no_quadrupole.
Proof.
  intros H. assert (E : exists t, dipole "T_d" = Ok t) by (eexists; reflexivity). destruct E as (t & E). rewrite E in H. cbn [bind] in H.
  destruct plain_tables as (T1 & _). destruct (plain_lookup _ _ _ _ T1 E) as [P S].
  assert (It : iterates (fun l : list sym => l)) by (intros l; apply Permutation_refl).
  destruct (PhysThms.prepared_ready (fun l => l) t d 3 It P S (or_introl H)) as (Sd & Rd & _).
  split; [exact Sd|]. split; [reflexivity|]. split; [exact Rd|]. intros i s _ [].
Qed.
Lemma turned3_zero X i j k : i < 3 -> j < 3 -> k < 3 -> turned3 0 X i j k = X i j k.
Proof.
  intros I J K. unfold turned3, sum3, Rz. rewrite cos_0, sin_0.
  destruct i as [|[|[|i]]]; try lia; destruct j as [|[|[|j]]]; try lia; destruct k as [|[|[|k]]]; try lia; ring.
Qed.
Lemma moment4_none a k F i : moment4 (turned4 a (fun _ _ _ _ => RtoC 0)) k F i = RtoC 0.
Proof.
  assert (Z : forall x j l m, turned4 a (fun _ _ _ _ => RtoC 0) x j l m = RtoC 0) by (intros; unfold turned4, sum3; ring).
  unfold moment4, sum3. rewrite !Z. ring.
Qed.
Lemma zb_intensity th : setup_intensity (fformgen_setup th) zb (fun _ _ _ _ => RtoC 0) Pin Sin 0 = ((2 * sin th * cos th) ^ 2)%R.
Proof.
  rewrite <- (pow2_abs (2 * sin th * cos th)), <- Cmod_R.
  assert (M : forall i, i < 3 -> setup_source (fformgen_setup th) zb (fun _ _ _ _ => RtoC 0) Pin 0 i = triple (RtoC 0) (RtoC (2 * sin th * cos th)) (RtoC 0) i).
  { intros i I. unfold setup_source. rewrite moment4_none. unfold moment3, sum3. rewrite !turned3_zero by lia.
    destruct i as [|[|[|i]]]; try lia; cbn [zb triple fformgen_setup s_field]; try (replace (2 * sin th * cos th)%R with (sin th * cos th + sin th * cos th)%R by ring); rewrite ?RtoC_plus, ?RtoC_mult; ring. }
  unfold setup_intensity, detected, setup_transverse, dot3, sum3. rewrite !M by lia. cbn [triple fformgen_setup s_out].
  apply (f_equal (fun z => (Cmod z ^ 2)%R)). ring.
Qed.
(** At an angle of incidence between 0 and 90 degrees *)
Lemma zb_seen th : (0 < th < PI / 2)%R -> seen th zb (fun _ _ _ _ => RtoC 0).
Proof.
  intros [L U]. exists Pin, Sin, 0%R.
  rewrite zb_intensity. apply pow_nonzero. apply sin_gt_0 in L as Ls; [|lra]. assert (0 < cos th)%R by (apply cos_gt_0; lra).
  apply Rmult_integral_contrapositive_currified; [|lra]. lra.
Qed.
