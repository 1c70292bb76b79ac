(** Tight bounds of PI from the standard library's alternating series. *)
From Coq Require Import Reals Lra Lia ZArith QArith Qreals Qround Qpower Machin Ratan.
Local Open Scope R_scope.

Definition tgQ (n : nat) : Q :=
  (2 * ((1 # 3) ^ Z.of_nat (2 * n + 1) / inject_Z (Z.of_nat (2 * n + 1))) + (1 # 7) ^ Z.of_nat (2 * n + 1) / inject_Z (Z.of_nat (2 * n + 1)))%Q.
Fixpoint sumQ (n : nat) : Q :=
  match n with O => Qred (tgQ 0) | S m => Qred (sumQ m + (if Nat.even (S m) then tgQ (S m) else - tgQ (S m)))%Q end.

Lemma Q2R_pow_nat q n : ~ (q == 0)%Q -> Q2R (q ^ Z.of_nat n)%Q = Q2R q ^ n.
Proof.
  intros NZ. induction n as [|n IH]; [unfold Q2R; cbn; field|].
  rewrite Nat2Z.inj_succ. unfold Z.succ.
  assert (E : (q ^ (Z.of_nat n + 1) == q ^ Z.of_nat n * q)%Q) by (rewrite Qpower_plus by exact NZ; cbn; ring).
  rewrite (Qeq_eqR _ _ E), Q2R_mult, IH. cbn [pow]. ring.
Qed.
Lemma Q2R_nat n : Q2R (inject_Z (Z.of_nat n)) = INR n.
Proof. unfold Q2R, inject_Z. cbn [Qnum Qden]. rewrite INR_IZR_INZ. field. Qed.

Lemma tgQ_R n : Q2R (tgQ n) = PI_2_3_7_tg n.
Proof.
  unfold tgQ, PI_2_3_7_tg, Ratan_seq.
  assert (N : ~ (inject_Z (Z.of_nat (2 * n + 1)) == 0)%Q) by (unfold Qeq, inject_Z; cbn [Qnum Qden]; lia).
  rewrite Q2R_plus, Q2R_mult. unfold Qdiv. rewrite !Q2R_mult, !Q2R_inv by exact N. rewrite !Q2R_pow_nat, Q2R_nat by (intros X; discriminate X).
  replace (Q2R (1 # 3)) with (/ 3) by (unfold Q2R; cbn; field). replace (Q2R (1 # 7)) with (/ 7) by (unfold Q2R; cbn; field).
  replace (Q2R 2) with 2 by (unfold Q2R; cbn; field). reflexivity.
Qed.
Lemma sumQ_R n : Q2R (sumQ n) = sum_f_R0 (tg_alt PI_2_3_7_tg) n.
Proof.
  induction n as [|n IH].
  - cbn [sumQ sum_f_R0]. rewrite (Qeq_eqR _ _ (Qred_correct _)), tgQ_R. unfold tg_alt. cbn. ring.
  - cbn [sumQ sum_f_R0]. rewrite (Qeq_eqR _ _ (Qred_correct _)), Q2R_plus, IH. f_equal. unfold tg_alt.
    assert (Od : forall m, (-1) ^ m = if Nat.even m then 1 else -1).
    { induction m as [|m IHm]; [reflexivity|]. cbn [pow]. rewrite IHm, Nat.even_succ, <- Nat.negb_even. destruct (Nat.even m); cbn; ring. }
    rewrite Od. destruct (Nat.even (S n)); [|rewrite Q2R_opp]; rewrite tgQ_R; ring.
Qed.

(** The double nearest to PI, and twice it. *)
Definition pi64Q : Q := 884279719003555 # 281474976710656.
Lemma PI_upper : PI <= Q2R (4 * sumQ 36).
Proof. pose proof (proj2 (PI_2_3_7_ineq 18)) as H. rewrite <- sumQ_R in H. cbn [Nat.mul Nat.add] in H. rewrite Q2R_mult. replace (Q2R 4) with 4 by (unfold Q2R; cbn; field). lra. Qed.
Lemma PI_lower : Q2R (4 * sumQ 37) <= PI.
Proof. pose proof (proj1 (PI_2_3_7_ineq 18)) as H. rewrite <- sumQ_R in H. cbn [Nat.mul Nat.add] in H. rewrite Q2R_mult. replace (Q2R 4) with 4 by (unfold Q2R; cbn; field). lra. Qed.

Lemma pi64_bound : Q2R pi64Q + / 10 ^ 16 <= PI <= Q2R pi64Q + 13 / 10 ^ 17.
Proof.
  split.
  - apply Rle_trans with (Q2R (4 * sumQ 37)); [|apply PI_lower].
    replace (/ 10 ^ 16) with (Q2R (1 # 10000000000000000)) by (unfold Q2R; cbn [Qnum Qden]; lra).
    rewrite <- Q2R_plus. apply Qle_Rle. apply Qle_bool_iff. vm_compute. reflexivity.
  - apply Rle_trans with (Q2R (4 * sumQ 36)); [apply PI_upper|].
    replace (13 / 10 ^ 17) with (Q2R (13 # 100000000000000000)) by (unfold Q2R; cbn [Qnum Qden]; lra).
    rewrite <- Q2R_plus. apply Qle_Rle. apply Qle_bool_iff. vm_compute. reflexivity.
Qed.
