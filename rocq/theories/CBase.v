(** Complex numbers: unit circle, finite sums, roots of unity. *)
From Coq Require Import List ZArith Reals Lra Lia Permutation.
From Coquelicot Require Import Complex.
From Verif Require Import PyBase RMod.
Import ListNotations.
Local Open Scope C_scope.

Lemma C_ext (a b : C) : Re a = Re b -> Im a = Im b -> a = b.
Proof. destruct a, b; simpl; intros; subst; reflexivity. Qed.

(** exp(i x) *)
Definition cis (x : R) : C := (cos x, sin x).

Lemma cis_plus x y : cis (x + y) = cis x * cis y.
Proof. unfold cis, Cmult; simpl. rewrite cos_plus, sin_plus. apply C_ext; unfold Re, Im; simpl; ring. Qed.
Lemma cis_0 : cis 0 = 1.
Proof. unfold cis. rewrite cos_0, sin_0. reflexivity. Qed.
Lemma cis_opp x : cis (- x) = Cconj (cis x).
Proof. unfold cis, Cconj; simpl. rewrite cos_neg, sin_neg. reflexivity. Qed.
Lemma Cmod_cis x : Cmod (cis x) = 1%R.
Proof.
  unfold Cmod, cis. replace (fst (cos x, sin x) ^ 2 + snd (cos x, sin x) ^ 2)%R with 1%R; [apply sqrt_1|].
  simpl. pose proof (sin2_cos2 x) as H. unfold Rsqr in H. lra.
Qed.
Lemma cis_neq_0 x : cis x <> 0.
Proof. intros E. pose proof (Cmod_cis x) as H. rewrite E, Cmod_0 in H. lra. Qed.

Lemma cos_period_Z x k : cos (x + IZR k * (2 * PI)) = cos x.
Proof.
  destruct k as [|p|p].
  - f_equal; ring.
  - replace (IZR (Z.pos p) * (2 * PI))%R with (2 * INR (Pos.to_nat p) * PI)%R.
    + apply cos_period.
    + rewrite INR_IZR_INZ, positive_nat_Z. ring.
  - rewrite <- (cos_period (x + IZR (Z.neg p) * (2 * PI)) (Pos.to_nat p)). f_equal.
    rewrite INR_IZR_INZ, positive_nat_Z. change (Z.neg p) with (- Z.pos p)%Z. rewrite opp_IZR. ring.
Qed.
Lemma sin_period_Z x k : sin (x + IZR k * (2 * PI)) = sin x.
Proof.
  destruct k as [|p|p].
  - f_equal; ring.
  - replace (IZR (Z.pos p) * (2 * PI))%R with (2 * INR (Pos.to_nat p) * PI)%R.
    + apply sin_period.
    + rewrite INR_IZR_INZ, positive_nat_Z. ring.
  - rewrite <- (sin_period (x + IZR (Z.neg p) * (2 * PI)) (Pos.to_nat p)). f_equal.
    rewrite INR_IZR_INZ, positive_nat_Z. change (Z.neg p) with (- Z.pos p)%Z. rewrite opp_IZR. ring.
Qed.
Lemma cis_period x k : cis (x + IZR k * (2 * PI)) = cis x.
Proof. unfold cis. rewrite cos_period_Z, sin_period_Z. reflexivity. Qed.
Lemma cis_2pi_Z k : cis (IZR k * (2 * PI)) = 1.
Proof. rewrite <- cis_0, <- (cis_period 0 k). f_equal; ring. Qed.
Lemma cis_mod2pi m x : cis (IZR m * mod2pi x) = cis (IZR m * x).
Proof.
  destruct (mod2pi_congr x) as [k E]. rewrite E at 2. unfold twopi.
  rewrite Rmult_plus_distr_l. replace (IZR m * (IZR k * (2 * PI)))%R with (IZR (m * k) * (2 * PI))%R
    by (rewrite mult_IZR; ring). now rewrite cis_period.
Qed.

(** cis x = 1 only at multiples of a turn *)
Lemma cis_eq_1 x : cis x = 1 -> exists k, x = (IZR k * (2 * PI))%R.
Proof.
  intros E. injection E as E1 E2.
  destruct (mod2pi_congr x) as [k K]. exists k. rewrite K.
  assert (H : mod2pi x = 0%R); [|rewrite H; unfold twopi; ring].
  set (y := mod2pi x) in *. pose proof (mod2pi_range x) as Y. fold y in Y. unfold twopi in Y.
  assert (C : cos y = 1%R).
  { rewrite <- E1, K. unfold twopi. now rewrite cos_period_Z. }
  assert (S : sin y = 0%R).
  { rewrite <- E2, K. unfold twopi. now rewrite sin_period_Z. }
  destruct (Rle_dec y PI) as [L|L].
  - destruct (Req_dec y 0) as [|N]; auto. exfalso.
    destruct (Req_dec y PI) as [->|N2]; [rewrite cos_PI in C; lra|].
    assert (0 < sin y)%R by (apply sin_gt_0; lra). lra.
  - exfalso. assert (sin y < 0)%R by (apply sin_lt_0; lra). lra.
Qed.

Lemma Cconj_plus a b : Cconj (a + b) = Cconj a + Cconj b.
Proof. apply C_ext; unfold Re, Im; simpl; ring. Qed.
Lemma Cconj_mult a b : Cconj (a * b) = Cconj a * Cconj b.
Proof. apply C_ext; unfold Re, Im; simpl; ring. Qed.
Lemma Cconj_opp a : Cconj (- a) = - Cconj a.
Proof. apply C_ext; unfold Re, Im; simpl; ring. Qed.
Lemma Cconj_conj a : Cconj (Cconj a) = a.
Proof. apply C_ext; unfold Re, Im; simpl; ring. Qed.
Lemma Cconj_R (x : R) : Cconj x = x.
Proof. apply C_ext; unfold Re, Im; simpl; ring. Qed.
Lemma Cconj_Ci : Cconj Ci = - Ci.
Proof. apply C_ext; unfold Re, Im; simpl; ring. Qed.
Lemma Cmult_conj a : a * Cconj a = RtoC (Cmod a ^ 2).
Proof.
  unfold Cmod. rewrite pow2_sqrt by (simpl; nra). apply C_ext; unfold Re, Im; simpl; ring.
Qed.
Lemma Re_conj_sum a : RtoC (Re a) = (a + Cconj a) / 2.
Proof. unfold Cdiv, Cinv. apply C_ext; unfold Re, Im; simpl; field. Qed.
Lemma Chalf a : (a + a) / RtoC 2 = a.
Proof. unfold Cdiv, Cinv. apply C_ext; unfold Re, Im; simpl; field. Qed.
Lemma Ci_sq : Ci * Ci = - (1).
Proof. apply C_ext; unfold Re, Im; simpl; ring. Qed.

(** * Finite sums *)

Definition Csum {A} (f : A -> C) (l : list A) : C := fold_right (fun a s => f a + s) 0 l.

Lemma Csum_nil {A} (f : A -> C) : Csum f [] = 0. Proof. reflexivity. Qed.
Lemma Csum_cons {A} (f : A -> C) a l : Csum f (a :: l) = f a + Csum f l. Proof. reflexivity. Qed.
Lemma Csum_app {A} (f : A -> C) l l' : Csum f (l ++ l') = Csum f l + Csum f l'.
Proof. induction l; simpl; [ring|]. rewrite IHl. ring. Qed.
Lemma Csum_ext_in {A} (f g : A -> C) l : (forall a, In a l -> f a = g a) -> Csum f l = Csum g l.
Proof.
  induction l; simpl; intros E; auto. rewrite E by auto. rewrite IHl; auto.
Qed.
Lemma Csum_ext {A} (f g : A -> C) l : (forall a, f a = g a) -> Csum f l = Csum g l.
Proof. intros; apply Csum_ext_in; auto. Qed.
Lemma Csum_plus {A} (f g : A -> C) l : Csum (fun a => f a + g a) l = Csum f l + Csum g l.
Proof. induction l; simpl; [ring|]. rewrite IHl. ring. Qed.
Lemma Csum_opp {A} (f : A -> C) l : Csum (fun a => - f a) l = - Csum f l.
Proof. induction l; simpl; [ring|]. rewrite IHl. ring. Qed.
Lemma Csum_mult_l {A} c (f : A -> C) l : Csum (fun a => c * f a) l = c * Csum f l.
Proof. induction l; simpl; [ring|]. rewrite IHl. ring. Qed.
Lemma Csum_mult_r {A} c (f : A -> C) l : Csum (fun a => f a * c) l = Csum f l * c.
Proof. induction l; simpl; [ring|]. rewrite IHl. ring. Qed.
Lemma Csum_0 {A} (l : list A) : Csum (fun _ => 0) l = 0.
Proof. induction l; simpl; [ring|]. rewrite IHl. ring. Qed.
Lemma Csum_0_in {A} (f : A -> C) (l : list A) : (forall a, In a l -> f a = 0) -> Csum f l = 0.
Proof. intros E. rewrite (Csum_ext_in f (fun _ => 0)); auto. apply Csum_0. Qed.
Lemma Csum_const {A} c (l : list A) : Csum (fun _ => c) l = RtoC (INR (length l)) * c.
Proof.
  induction l; [simpl; ring|]. change (length (a :: l)) with (S (length l)).
  rewrite S_INR, RtoC_plus, Csum_cons, IHl. ring.
Qed.
Lemma Csum_swap {A B} (f : A -> B -> C) l l' :
  Csum (fun a => Csum (f a) l') l = Csum (fun b => Csum (fun a => f a b) l) l'.
Proof.
  induction l; simpl; [now rewrite Csum_0|]. rewrite IHl, <- Csum_plus. reflexivity.
Qed.
Lemma Csum_map {A B} (g : A -> B) (f : B -> C) l : Csum f (map g l) = Csum (fun a => f (g a)) l.
Proof. induction l; simpl; auto. now rewrite IHl. Qed.
Lemma Csum_perm {A} (f : A -> C) l l' : Permutation l l' -> Csum f l = Csum f l'.
Proof. induction 1; simpl; try congruence. ring. Qed.
Lemma Csum_conj {A} (f : A -> C) l : Cconj (Csum f l) = Csum (fun a => Cconj (f a)) l.
Proof.
  induction l; simpl; [apply C_ext; unfold Re, Im; simpl; ring|]. rewrite Cconj_plus, IHl. reflexivity.
Qed.
Lemma Csum_flat_map {A B} (g : A -> list B) (f : B -> C) l :
  Csum f (flat_map g l) = Csum (fun a => Csum f (g a)) l.
Proof. induction l; simpl; auto. rewrite Csum_app, IHl. reflexivity. Qed.
Lemma Csum_filter {A} (p : A -> bool) (f : A -> C) l :
  Csum f (filter p l) = Csum (fun a => if p a then f a else 0) l.
Proof. induction l; simpl; auto. destruct (p a); simpl; rewrite IHl; ring. Qed.

(** A sum with one nonzero term. *)
Lemma Csum_single {A} (dec : forall x y : A, {x = y} + {x <> y}) (f : A -> C) a l :
  NoDup l -> In a l -> (forall b, In b l -> b <> a -> f b = 0) -> Csum f l = f a.
Proof.
  induction 1 as [|x l N ND IH]; simpl; intros I E; [tauto|].
  destruct I as [->|I].
  - rewrite Csum_0_in; [ring|]. intros b I. apply E; auto. intros ->; contradiction.
  - rewrite IH; auto. rewrite (E x); auto; [ring|]. intros ->; contradiction.
Qed.
Lemma Csum_single_Z (f : Z -> C) a l :
  NoDup l -> In a l -> (forall b, In b l -> b <> a -> f b = 0) -> Csum f l = f a.
Proof. apply Csum_single, Z.eq_dec. Qed.

Lemma Re_Csum {A} (f : A -> C) l : Re (Csum f l) = fold_right (fun a s => Re (f a) + s)%R 0%R l.
Proof. induction l; simpl; auto. unfold Re in *. simpl. now rewrite IHl. Qed.

(** * Geometric sums *)

Fixpoint Cpow (z : C) (n : nat) : C := match n with O => 1 | S n' => z * Cpow z n' end.

Lemma Cpow_cis x n : Cpow (cis x) n = cis (INR n * x).
Proof.
  induction n; [simpl; rewrite Rmult_0_l, cis_0; auto|].
  simpl Cpow. rewrite IHn, S_INR, <- cis_plus. f_equal. ring.
Qed.
Lemma Cpow_plus z a b : Cpow z (a + b) = Cpow z a * Cpow z b.
Proof. induction a; simpl; [ring|]. rewrite IHa. ring. Qed.
Lemma Cpow_mult_l x y a : Cpow (x * y) a = Cpow x a * Cpow y a.
Proof. induction a; simpl; [ring|]. rewrite IHa. ring. Qed.
Lemma Cpow_conj z a : Cconj (Cpow z a) = Cpow (Cconj z) a.
Proof. induction a; simpl; [apply Cconj_R|]. now rewrite Cconj_mult, IHa. Qed.

Lemma geom z n : (z - 1) * Csum (fun j => Cpow z j) (seq 0 n) = Cpow z n - 1.
Proof.
  induction n; [simpl; ring|]. rewrite seq_S, Csum_app. simpl. 
  replace ((z - 1) * (Csum (fun j : nat => Cpow z j) (seq 0 n) + (Cpow z n + 0)))
    with ((z - 1) * Csum (fun j : nat => Cpow z j) (seq 0 n) + (z - 1) * Cpow z n) by ring.
  rewrite IHn. ring.
Qed.

(** The sampling angles 2*pi*j/N. *)
Definition node (N j : nat) : R := (2 * PI * INR j / INR N)%R.

(** Orthogonality of the discrete exponentials. *)
Lemma roots_sum (N : nat) (m : Z) : (0 < N)%nat ->
  Csum (fun j => cis (IZR m * node N j)) (seq 0 N) =
  if (m mod Z.of_nat N =? 0)%Z then RtoC (INR N) else 0.
Proof.
  intros P. assert (NZ : INR N <> 0%R) by (apply not_0_INR; lia).
  rewrite (Csum_ext _ (fun j => Cpow (cis (IZR m * (2 * PI) / INR N)) j)).
  2:{ intros j. rewrite Cpow_cis. unfold node. f_equal. field; auto. }
  destruct (Z.eqb_spec (m mod Z.of_nat N) 0) as [E|E].
  - apply Z.mod_divide in E; [|lia]. destruct E as [q ->].
    rewrite (Csum_ext _ (fun _ => 1)).
    + rewrite Csum_const, seq_length. ring.
    + intros j. rewrite Cpow_cis.
      replace (INR j * (IZR (q * Z.of_nat N) * (2 * PI) / INR N))%R with (IZR (Z.of_nat j * q) * (2 * PI))%R.
      * apply cis_2pi_Z.
      * rewrite !mult_IZR, <- !INR_IZR_INZ. field; auto.
  - set (z := cis _). assert (Z1 : z - 1 <> 0).
    { intros H. assert (z = 1) by (replace z with (z - 1 + 1) by ring; rewrite H; ring).
      apply cis_eq_1 in H0 as [k K]. apply E. apply Z.mod_divide; [lia|]. exists k.
      apply eq_IZR. rewrite mult_IZR, <- INR_IZR_INZ.
      pose proof PI_RGT_0. apply (Rmult_eq_reg_r (2 * PI / INR N)).
      - transitivity (IZR m * (2 * PI) / INR N)%R; [field; auto|]. rewrite K. field; auto.
      - apply Rmult_integral_contrapositive_currified; [lra|]. apply Rinv_neq_0_compat; auto. }
    pose proof (geom z N) as G.
    assert (CN : Cpow z N = 1).
    { unfold z. rewrite Cpow_cis. replace (INR N * (IZR m * (2 * PI) / INR N))%R with (IZR m * (2 * PI))%R by (field; auto).
      apply cis_2pi_Z. }
    rewrite CN in G. replace (1 - 1) with (RtoC 0) in G by ring.
    destruct (Ceq_dec (Csum (fun j : nat => Cpow z j) (seq 0 N)) 0) as [|NZ']; auto.
    exfalso. apply (Cmult_neq_0 _ _ Z1 NZ'). auto.
Qed.

Lemma node_turn N j : (j < N)%nat -> (0 <= node N j < 2 * PI)%R.
Proof.
  intros L. unfold node. assert (0 < INR N)%R by (apply lt_0_INR; lia).
  assert (INR j < INR N)%R by (apply lt_INR; auto). pose proof (pos_INR j). pose proof PI_RGT_0. split.
  - apply Rmult_le_pos; [|left; apply Rinv_0_lt_compat; auto]. nra.
  - apply (Rmult_lt_reg_r (INR N)); auto. unfold Rdiv. rewrite Rmult_assoc, Rinv_l by lra. nra.
Qed.
Lemma node_lt N i j : (0 < N)%nat -> (i < j)%nat -> (node N i < node N j)%R.
Proof.
  intros P L. unfold node. apply Rmult_lt_compat_r; [apply Rinv_0_lt_compat, lt_0_INR; auto|].
  apply Rmult_lt_compat_l; [pose proof PI_RGT_0; lra|apply lt_INR; auto].
Qed.
