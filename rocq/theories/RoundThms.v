(** A crystal whose rounded intensity is negative. *)
From Coq Require Import String List Arith ZArith Bool Lia Reals QArith Qreals Lra.
From Coquelicot Require Import Complex.
Import ListNotations.
From Verif Require Import PyBase CBase FourierBase Expr ExprProofs FDataModel FDataProofs SpecFData FormModel SpecForm FormProofs3 UtilModel FormgenModel
  SpecFormgen FormgenProofs FormgenProofs2 FormgenProofs3 FformgenModel SpecFformgen FformgenProofs SpecRound RoundProofs FormgenPhys FformgenThms PropertiesForm PropertiesFormgen PropertiesFformgen.
From Verif Require Import SpecTensor TensorModel.
Local Open Scope nat_scope.

Definition yyy : sym := mksym "yyy" (Some true).
Definition only_yyy : tensor expr := mkT [3; 3; 3] (fun i => match i with [1; 1; 1] => ESym yyy | _ => num 0 end).
Definition no_quad : tensor expr := mkT [3; 3; 3; 3] (fun _ => num 0).

Lemma only_yyy_good : good_tensors only_yyy no_quad.
Proof.
  split; [reflexivity|]. split; [reflexivity|]. split.
  - intros i s _. cbn [only_yyy at_].
    destruct i as [|[|[|i0]] i]; try intros []; destruct i as [|[|[|i1]] i]; try intros [];
      destruct i as [|[|[|i2]] i]; try intros []; destruct i; intros [<-|[]] || intros []; reflexivity.
  - intros i s _ [].
Qed.

Lemma yyy_intensity rho th x y : rho yyy = RtoC y ->
  setup_intensity (fformgen_setup th) (val3 rho (Some only_yyy)) (val4 rho (Some no_quad)) Sin Sin x = (y ^ 2 * cos x ^ 6)%R.
Proof.
  intros Y. unfold setup_intensity, detected, setup_transverse.
  assert (S : setup_source (fformgen_setup th) (val3 rho (Some only_yyy)) (val4 rho (Some no_quad)) Sin x 1 = RtoC (y * cos x ^ 3)).
  { assert (V : forall l m n, l < 3 -> m < 3 -> n < 3 -> val3 rho (Some only_yyy) l m n = if (l =? 1) && (m =? 1) && (n =? 1) then RtoC y else RtoC 0).
    { intros l m n L M N. cases3 l L; cases3 m M; cases3 n N; cbn [val3 only_yyy at_ Nat.eqb andb]; first [apply eval_num0|exact Y]. }
    assert (Z4 : forall i j k h, turned4 x (val4 rho (Some no_quad)) i j k h = RtoC 0).
    { intros. unfold turned4, sum3. cbn [val4 no_quad at_]. rewrite eval_num0. ring. }
    unfold setup_source, moment3, moment4, fformgen_setup, s_field, s_in, sum3. rewrite !Z4.
    rewrite !(turned3_ext x (val3 rho (Some only_yyy)) (fun l m n => if (l =? 1) && (m =? 1) && (n =? 1) then RtoC y else RtoC 0)) by exact V.
    unfold turned3, sum3. cbn [Nat.eqb andb triple Rz].
    transitivity (RtoC y * (RtoC (cos x) * (RtoC (cos x) * RtoC (cos x))))%C; [ring|]. rewrite <- !RtoC_mult. f_equal. ring. }
  rewrite S. clear S. set (T := setup_source _ _ _ _ _). clearbody T. unfold dot3, sum3. cbn [fformgen_setup s_out triple].
  replace (Cminus _ _) with (RtoC (y * cos x ^ 3)) by ring.
  rewrite Cmod_R, <- Rsqr_pow2, <- Rsqr_abs, Rsqr_pow2. ring.
Qed.

Lemma cis_power x n : cis (INR n * x) = Cpow (cis x) n.
Proof.
  induction n as [|n IH].
  - cbn [INR Cpow]. rewrite Rmult_0_l. unfold cis. rewrite cos_0, sin_0. reflexivity.
  - cbn [Cpow]. rewrite <- IH, <- cis_plus. f_equal. rewrite S_INR. ring.
Qed.

(** The Fourier coefficients of cos^6. *)
Definition c6 (m : Z) : Q :=
  match m with
  | 0%Z => 20 # 64 | 2%Z | (-2)%Z => 15 # 64 | 4%Z | (-4)%Z => 6 # 64 | 6%Z | (-6)%Z => 1 # 64 | _ => 0%Q
  end.

Lemma cos6 x : Csum (fun n => Cmult (RtoC (Q2R (c6 n))) (cis (IZR n * x))) (freqs 16) = RtoC (cos x ^ 6).
Proof.
  assert (E : forall n, cis (IZR (Zpos n) * x) = Cpow (cis x) (Pos.to_nat n)).
  { intros n. rewrite <- cis_power. f_equal. rewrite INR_IZR_INZ, positive_nat_Z. reflexivity. }
  assert (E' : forall n, cis (IZR (Zneg n) * x) = Cpow (cis (- x)) (Pos.to_nat n)).
  { intros n. rewrite <- cis_power. f_equal. rewrite INR_IZR_INZ, positive_nat_Z. change (Zneg n) with (- Zpos n)%Z. rewrite opp_IZR. ring. }
  change (freqs 16) with [-16; -15; -14; -13; -12; -11; -10; -9; -8; -7; -6; -5; -4; -3; -2; -1; 0; 1; 2; 3; 4; 5; 6; 7; 8; 9; 10; 11; 12; 13; 14; 15; 16]%Z.
  cbn [Csum fold_right c6]. rewrite !RMicromega.Q2R_0.
  replace (Q2R (20 # 64)) with (20 / 64)%R by (unfold Q2R; simpl; field). replace (Q2R (15 # 64)) with (15 / 64)%R by (unfold Q2R; simpl; field).
  replace (Q2R (6 # 64)) with (6 / 64)%R by (unfold Q2R; simpl; field). replace (Q2R (1 # 64)) with (1 / 64)%R by (unfold Q2R; simpl; field).
  rewrite (E 2%positive), (E 4%positive), (E 6%positive), (E' 2%positive), (E' 4%positive), (E' 6%positive).
  replace (cis (0 * x)) with (RtoC 1) by (rewrite Rmult_0_l; apply C_ext; unfold cis, Re, Im; simpl; rewrite ?cos_0, ?sin_0; reflexivity).
  assert (D : cis (- x) = (cos x, - sin x)%R) by (unfold cis; rewrite cos_neg, sin_neg; reflexivity).
  rewrite D. set (z := cis x). assert (Z : z = (cos x, sin x)) by reflexivity. rewrite Z.
  pose proof (sin2_cos2 x) as P. unfold Rsqr in P. revert P. generalize (cos x) (sin x). intros c s P.
  change (Pos.to_nat 2) with 2. change (Pos.to_nat 4) with 4. change (Pos.to_nat 6) with 6.
  assert (S2 : (s * s = 1 - c * c)%R) by lra.
  assert (P2 : Cplus (Cpow (c, s) 2) (Cpow (c, - s)%R 2) = RtoC (2 * (2 * (c * c) - 1))).
  { apply C_ext; unfold Re, Im; simpl; ring_simplify; try ring. replace (s ^ 2)%R with (s * s)%R by ring. rewrite S2. ring. }
  assert (P4 : Cplus (Cpow (c, s) 4) (Cpow (c, - s)%R 4) = RtoC (2 * (8 * (c * c) * (c * c) - 8 * (c * c) + 1))).
  { apply C_ext; unfold Re, Im; simpl; ring_simplify; try ring. replace (s ^ 4)%R with ((s * s) * (s * s))%R by ring. replace (s ^ 2)%R with (s * s)%R by ring. rewrite S2. ring. }
  assert (P6 : Cplus (Cpow (c, s) 6) (Cpow (c, - s)%R 6) = RtoC (2 * (32 * c ^ 6 - 48 * c ^ 4 + 18 * c ^ 2 - 1))).
  { apply C_ext; unfold Re, Im; simpl; ring_simplify; try ring. replace (s ^ 6)%R with ((s * s) * (s * s) * (s * s))%R by ring.
    replace (s ^ 4)%R with ((s * s) * (s * s))%R by ring. replace (s ^ 2)%R with (s * s)%R by ring. rewrite S2. ring. }
  transitivity (RtoC (20 / 64) + RtoC (15 / 64) * (Cplus (Cpow (c, s) 2) (Cpow (c, - s)%R 2)) + RtoC (6 / 64) * (Cplus (Cpow (c, s) 4) (Cpow (c, - s)%R 4))
     + RtoC (1 / 64) * (Cplus (Cpow (c, s) 6) (Cpow (c, - s)%R 6)))%C; [ring|].
  rewrite P2, P4, P6. apply C_ext; unfold Re, Im; simpl; field.
Qed.

(** ** An expanded form of the row *)
Section Expanded.
Variable row : list expr.
Hypothesis L : length row = 33.
Hypothesis V : forall rho m, respects rho -> In m (freqs 16) -> cell rho row m = Cmult (RtoC (Q2R (c6 m))) (Cpow (rho yyy) 2).

Definition c6_form (m : Z) : expr := if Qeq_bool (c6 m) 0 then EAdd [] else EAdd [EMul [ENum (c6 m) 0; EPow (ESym yyy) 2]].
Definition expand6 (e : expr) : expr :=
  match find (fun mc => expr_eqb e (snd mc)) (combine (freqs 16) row) with
  | Some mc => c6_form (fst mc)
  | None => e
  end.

Lemma c6_form_value rho m : eval rho (c6_form m) = Cmult (RtoC (Q2R (c6 m))) (Cpow (rho yyy) 2).
Proof.
  unfold c6_form. destruct (Qeq_bool (c6 m) 0) eqn:E.
  - apply Qeq_bool_eq, Qeq_eqR in E. rewrite RMicromega.Q2R_0 in E. rewrite E. cbn [eval map fold_right]. ring.
  - cbn [eval map fold_right]. rewrite RMicromega.Q2R_0. change (Q2R (c6 m), 0%R) with (RtoC (Q2R (c6 m))). ring.
Qed.

Lemma in_row m c : In (m, c) (combine (freqs 16) row) -> In m (freqs 16) /\ c = nth (Z.to_nat (m + 16)) row (num 0).
Proof.
  intros I. split; [apply in_combine_l in I; exact I|].
  apply (In_nth _ _ (0%Z, num 0)) in I as (i & Li & E).
  rewrite combine_length, length_freqs, L, Nat.min_id in Li. rewrite combine_nth in E by (rewrite length_freqs, L; reflexivity).
  rewrite freqs_nth in E by lia. injection E as E1 E2. subst m. replace (Z.to_nat _) with i by lia. auto.
Qed.

Lemma picked e m c : find (fun mc => expr_eqb e (snd mc)) (combine (freqs 16) row) = Some (m, c) ->
  forall rho, respects rho -> eval rho e = Cmult (RtoC (Q2R (c6 m))) (Cpow (rho yyy) 2).
Proof.
  intros F rho R. apply find_some in F as [I E]. apply in_row in I as [I ->]. cbn [snd] in E.
  rewrite (expr_eqb_eval rho _ _ E). apply (V rho m R I).
Qed.

Lemma expand6_sound : sound_ev expand6.
Proof.
  split.
  - intros rho e R. unfold expand6. destruct (find _ _) as [[m c]|] eqn:F; [|reflexivity]. cbn [fst].
    rewrite c6_form_value. symmetry. apply (picked e m c F); auto.
  - intros e s. unfold expand6. destruct (find _ _) as [[m c]|] eqn:F; [|auto]. cbn [fst]. unfold c6_form.
    destruct (Qeq_bool (c6 m) 0) eqn:E; [intros []|]. intros [<-|[]].
    destruct (in_dec sym_eq_dec yyy (syms e)) as [I|N]; [exact I|]. exfalso.
    set (r0 := fun _ : sym => RtoC 0). set (r1 := fun s => if sym_eq_dec s yyy then RtoC 1 else RtoC 0).
    assert (R0 : respects r0) by (intros s _; reflexivity).
    assert (R1 : respects r1) by (intros s _; unfold r1; destruct (sym_eq_dec s yyy); reflexivity).
    assert (X : eval r0 e = eval r1 e).
    { apply eval_ext. intros s I. unfold r0, r1. destruct (sym_eq_dec s yyy) as [->|]; [contradiction|reflexivity]. }
    rewrite (picked e m c F r0 R0), (picked e m c F r1 R1) in X.
    unfold r0, r1 in X. destruct (sym_eq_dec yyy yyy) as [_|]; [|congruence].
    apply (f_equal fst) in X. simpl in X. assert (Z : Q2R (c6 m) = 0%R) by lra.
    rewrite <- RMicromega.Q2R_0 in Z. apply eqR_Qeq in Z. apply Qeq_bool_iff in Z. congruence.
Qed.

(** Equal coefficients round equally. *)
Lemma c6_rounds m m' : In m (freqs 16) -> In m' (freqs 16) -> (c6 m == c6 m')%Q -> (qround 2 (c6 m) == qround 2 (c6 m'))%Q.
Proof.
  assert (H : forallb (fun m => forallb (fun m' => negb (Qeq_bool (c6 m) (c6 m')) || Qeq_bool (qround 2 (c6 m)) (qround 2 (c6 m'))) (freqs 16)) (freqs 16) = true) by (vm_compute; reflexivity).
  intros I I' E. rewrite forallb_forall in H. specialize (H m I). rewrite forallb_forall in H. specialize (H m' I').
  apply orb_true_iff in H as [H|H]; [|apply Qeq_bool_iff; exact H]. apply Qeq_bool_iff in E. rewrite E in H. discriminate.
Qed.

Lemma round_c6_form rho m : In m (freqs 16) ->
  eval rho (round_numbers 2 (c6_form m)) = Cmult (RtoC (Q2R (qround 2 (c6 m)))) (Cpow (rho yyy) 2).
Proof.
  intros I. unfold c6_form. destruct (Qeq_bool (c6 m) 0) eqn:E.
  - assert (Z : (qround 2 (c6 m) == 0)%Q).
    { assert (H : forallb (fun m => negb (Qeq_bool (c6 m) 0) || Qeq_bool (qround 2 (c6 m)) 0) (freqs 16) = true) by (vm_compute; reflexivity).
      rewrite forallb_forall in H. specialize (H m I). rewrite E in H. apply Qeq_bool_iff. exact H. }
    apply Qeq_eqR in Z. rewrite RMicromega.Q2R_0 in Z. rewrite Z. cbn [round_numbers eval map fold_right]. ring.
  - cbn [round_numbers eval map fold_right].
    rewrite (qround_short 2 0) by (exists 0%Z; apply Qmult_0_l). rewrite RMicromega.Q2R_0.
    change (Q2R (qround 2 (c6 m)), 0%R) with (RtoC (Q2R (qround 2 (c6 m)))). ring.
Qed.

Lemma expand6_rounded ev rho m : sound_ev ev -> respects rho -> In m (freqs 16) ->
  eval rho (round_expr ev expand6 2 (nth (Z.to_nat (m + 16)) row (num 0))) = Cmult (RtoC (Q2R (qround 2 (c6 m)))) (Cpow (rho yyy) 2).
Proof.
  intros EV R I. unfold round_expr. rewrite (proj1 EV) by auto. unfold expand6.
  set (e := nth (Z.to_nat (m + 16)) row (num 0)).
  assert (IM : In (m, e) (combine (freqs 16) row)).
  { apply In_freqs in I. assert (Li : Z.to_nat (m + 16) < 33) by lia.
    replace (m, e) with (nth (Z.to_nat (m + 16)) (combine (freqs 16) row) (0%Z, num 0)).
    - apply nth_In. rewrite combine_length, length_freqs, L. simpl. lia.
    - rewrite combine_nth by (rewrite length_freqs, L; reflexivity). rewrite freqs_nth by lia. unfold e. f_equal. lia. }
  destruct (find _ _) as [[m' c]|] eqn:F.
  - cbn [fst]. pose proof F as F'. apply find_some in F' as [I' _]. apply in_row in I' as [I' _].
    rewrite round_c6_form by auto. f_equal. f_equal. apply Qeq_eqR. apply c6_rounds; auto.
    set (r1 := fun s => if sym_eq_dec s yyy then RtoC 1 else RtoC 0).
    assert (R1 : respects r1) by (intros s _; unfold r1; destruct (sym_eq_dec s yyy); reflexivity).
    pose proof (picked e m' c F r1 R1) as X. pose proof (V r1 m R1 I) as Y. unfold cell in Y. fold e in Y. rewrite X in Y.
    unfold r1 in Y. destruct (sym_eq_dec yyy yyy) as [_|]; [|congruence].
    apply (f_equal fst) in Y. simpl in Y. apply eqR_Qeq. lra.
  - exfalso. apply (find_none _ _ F) in IM. cbn [snd] in IM. rewrite expr_eqb_refl in IM. discriminate.
Qed.

Lemma expand6_expanded : exists tss, Forall2 (fun e ts => expanded_as 2 (expand6 e) ts) row tss.
Proof.
  assert (H : forall l, incl l row -> exists tss, Forall2 (fun e ts => expanded_as 2 (expand6 e) ts) l tss).
  { induction l as [|e l IH]; intros I; [exists []; constructor|].
    destruct IH as [tss F]; [intros z Z; apply I; right; exact Z|].
    enough (exists ts, expanded_as 2 (expand6 e) ts) as [ts X] by (exists (ts :: tss); constructor; auto).
    unfold expand6. destruct (find _ _) as [[m c]|] eqn:Fd.
    - cbn [fst]. unfold c6_form. destruct (Qeq_bool (c6 m) 0).
      + exists []. split; [reflexivity|]. intros c0 fs f [].
      + exists [((c6 m, 0%Q), [EPow (ESym yyy) 2])]. split; [reflexivity|]. intros c0 fs f [X|[]]. injection X as _ <-. intros [<-|[]]. repeat constructor.
    - exfalso. assert (Ie : In e row) by (apply I; left; reflexivity).
      apply (In_nth _ _ (num 0)) in Ie as (i & Li & <-).
      assert (J : In (nth i (freqs 16) 0%Z, nth i row (num 0)) (combine (freqs 16) row)).
      { rewrite <- combine_nth by (rewrite length_freqs, L; reflexivity). apply nth_In. rewrite combine_length, length_freqs, L. rewrite L in Li. simpl. lia. }
      apply (find_none _ _ Fd) in J. cbn [snd] in J. rewrite expr_eqb_refl in J. discriminate. }
  apply H, incl_refl.
Qed.
End Expanded.

(** The rounded coefficients at a right angle. *)
Lemma rq m z : Qeq_bool (qround 2 (c6 m)) (z # 100) = true -> Q2R (qround 2 (c6 m)) = (IZR z / 100)%R.
Proof. intros H. apply Qeq_bool_eq, Qeq_eqR in H. rewrite H. reflexivity. Qed.
Lemma rounded_value : Csum (fun m => Cmult (RtoC (Q2R (qround 2 (c6 m)))) (cis (IZR m * (PI / 2)))) (freqs 16) = RtoC (- 1 / 100).
Proof.
  assert (E : forall k, cis (IZR k * PI) = RtoC (if Z.even k then 1 else -1)).
  { intros k. destruct (Z.even k) eqn:Ek.
    - apply Z.even_spec in Ek as [j ->]. rewrite mult_IZR. replace (2 * IZR j * PI)%R with (IZR j * (2 * PI))%R by ring. apply cis_2pi_Z.
    - assert (O : Z.odd k = true) by (rewrite <- Z.negb_even, Ek; reflexivity). apply Z.odd_spec in O as [j ->].
      rewrite plus_IZR, mult_IZR. replace ((2 * IZR j + 1) * PI)%R with (IZR j * (2 * PI) + PI)%R by ring. rewrite cis_plus, cis_2pi_Z.
      unfold cis. rewrite cos_PI, sin_PI. apply C_ext; unfold Re, Im; simpl; ring. }
  transitivity (Csum (fun m => Cmult (RtoC (Q2R (qround 2 (c6 m)))) (cis (IZR m * (PI / 2)))) [-6; -4; -2; 0; 2; 4; 6]%Z).
  - change (freqs 16) with [-16; -15; -14; -13; -12; -11; -10; -9; -8; -7; -6; -5; -4; -3; -2; -1; 0; 1; 2; 3; 4; 5; 6; 7; 8; 9; 10; 11; 12; 13; 14; 15; 16]%Z.
    cbn [Csum fold_right].
    rewrite (rq (-16) 0 eq_refl), (rq (-15) 0 eq_refl), (rq (-14) 0 eq_refl), (rq (-13) 0 eq_refl), (rq (-12) 0 eq_refl), (rq (-11) 0 eq_refl).
    rewrite (rq (-10) 0 eq_refl), (rq (-9) 0 eq_refl), (rq (-8) 0 eq_refl), (rq (-7) 0 eq_refl), (rq (-5) 0 eq_refl), (rq (-3) 0 eq_refl), (rq (-1) 0 eq_refl).
    rewrite (rq 16 0 eq_refl), (rq 15 0 eq_refl), (rq 14 0 eq_refl), (rq 13 0 eq_refl), (rq 12 0 eq_refl), (rq 11 0 eq_refl).
    rewrite (rq 10 0 eq_refl), (rq 9 0 eq_refl), (rq 8 0 eq_refl), (rq 7 0 eq_refl), (rq 5 0 eq_refl), (rq 3 0 eq_refl), (rq 1 0 eq_refl).
    replace (RtoC (0 / 100)) with (RtoC 0) by (f_equal; field). rewrite !Cmult_0_l, !Cplus_0_l, Cplus_0_r. reflexivity.
  - assert (H : forall k, cis (IZR (2 * k) * (PI / 2)) = RtoC (if Z.even k then 1 else -1)).
    { intros k. rewrite <- E. f_equal. rewrite mult_IZR. field. }
    cbn [Csum fold_right].
    pose proof (H (-3)%Z) as H1. pose proof (H (-2)%Z) as H2. pose proof (H (-1)%Z) as H3. pose proof (H 0%Z) as H4.
    pose proof (H 1%Z) as H5. pose proof (H 2%Z) as H6. pose proof (H 3%Z) as H7. cbn [Z.even Z.mul Pos.mul] in H1, H2, H3, H4, H5, H6, H7.
    rewrite H1, H2, H3, H4, H5, H6, H7.
    rewrite (rq (-6)%Z 2 eq_refl).
    rewrite (rq (-4)%Z 9 eq_refl).
    rewrite (rq (-2)%Z 23 eq_refl).
    rewrite (rq (0)%Z 31 eq_refl).
    rewrite (rq (2)%Z 23 eq_refl).
    rewrite (rq (4)%Z 9 eq_refl).
    rewrite (rq (6)%Z 2 eq_refl).
    apply C_ext; unfold Re, Im; simpl; field.
Qed.
