(** Algebra of the contracted transforms: four sums over indices make the
    squared modulus of the detected field. *)
From Coq Require Import List Arith Bool Lia Reals Lra.
From Coquelicot Require Import Complex.
Import ListNotations.
From Verif Require Import PyBase CBase SpecFormgen SpecFformgen FormgenProofs FormgenProofs2 FormgenPhys FformgenProofs3.
Local Open Scope nat_scope.

Lemma sum3_rot (g : nat -> nat -> nat -> C) :
  sum3 (fun k => sum3 (fun l => sum3 (fun m => g k l m))) = sum3 (fun m => sum3 (fun k => sum3 (fun l => g k l m))).
Proof.
  transitivity (sum3 (fun k => sum3 (fun m => sum3 (fun l => g k l m)))).
  - apply sum3_ext; intros. apply sum3_swap.
  - apply sum3_swap.
Qed.

Lemma inner3 (h f : nat -> C) (d : nat -> nat -> nat -> C) (B D : C) :
  sum3 (fun l => sum3 (fun k => sum3 (fun i => h i * f k * f l * B * D * d i k l)))%C =
  (sum3 (fun i => h i * moment3 d f i) * B * D)%C.
Proof.
  rewrite sum3_rev3. rewrite <- Cmult_assoc, <- sum3_mult_r. apply sum3_ext; intros i _. unfold moment3.
  rewrite <- !sum3_mult_l, <- sum3_mult_r. apply sum3_ext; intros k _.
  rewrite <- !sum3_mult_l, <- sum3_mult_r. apply sum3_ext; intros l _. ring.
Qed.
Lemma inner4 (h f e : nat -> C) (q : nat -> nat -> nat -> nat -> C) (B D G c : C) :
  sum3 (fun m => sum3 (fun l => sum3 (fun k => sum3 (fun i => h i * f k * f l * B * D * (c * e m) * G * q i m k l))))%C =
  (c * sum3 (fun i => h i * moment4 q e f i) * B * D * G)%C.
Proof.
  rewrite sum3_rev4. rewrite <- !Cmult_assoc, <- sum3_mult_r, <- sum3_mult_l. apply sum3_ext; intros i _. unfold moment4.
  rewrite (sum3_rot (fun k l m => h i * f k * f l * B * D * (c * e m) * G * q i m k l)%C).
  transitivity (c * (h i * sum3 (fun j => sum3 (fun l => sum3 (fun m => q i j l m * e j * f l * f m))) * (B * D * G)))%C; [|ring].
  rewrite <- !sum3_mult_l, <- sum3_mult_r, <- sum3_mult_l. apply sum3_ext; intros m _.
  rewrite <- !sum3_mult_l, <- sum3_mult_r, <- sum3_mult_l. apply sum3_ext; intros k _.
  rewrite <- !sum3_mult_l, <- sum3_mult_r, <- sum3_mult_l. apply sum3_ext; intros l _. ring.
Qed.

(** The second contraction *)
Lemma outer3 (g f : nat -> C) (d : nat -> nat -> nat -> C) :
  sum3 (fun c => sum3 (fun b => sum3 (fun a => g a * f b * f c * d a b c)))%C = sum3 (fun a => g a * moment3 d f a)%C.
Proof.
  rewrite sum3_rev3. apply sum3_ext; intros a _. unfold moment3. rewrite <- sum3_mult_l. apply sum3_ext; intros b _.
  rewrite <- sum3_mult_l. apply sum3_ext; intros c _. ring.
Qed.
Lemma outer4 (g f e : nat -> C) (q : nat -> nat -> nat -> nat -> C) (k : C) :
  sum3 (fun m => sum3 (fun c => sum3 (fun b => sum3 (fun a => g a * f b * f c * (k * e m) * q a m b c))))%C =
  (k * sum3 (fun a => g a * moment4 q e f a))%C.
Proof.
  rewrite sum3_rev4, <- sum3_mult_l. apply sum3_ext; intros a _. unfold moment4.
  rewrite (sum3_rot (fun b c m => g a * f b * f c * (k * e m) * q a m b c)%C).
  rewrite <- !sum3_mult_l. apply sum3_ext; intros m _.
  rewrite <- !sum3_mult_l. apply sum3_ext; intros b _.
  rewrite <- !sum3_mult_l. apply sum3_ext; intros c _. ring.
Qed.

(** Real vectors *)
Definition realv (f : nat -> C) : Prop := forall i, Cconj (f i) = f i.
Lemma conj_sum3 f : Cconj (sum3 f) = sum3 (fun i => Cconj (f i)).
Proof. unfold sum3. rewrite !Cconj_plus. reflexivity. Qed.
Lemma real_Rz x i j : Cconj (Rz x i j) = Rz x i j.
Proof. unfold Rz. destruct i as [|[|[|i]]], j as [|[|[|j]]]; rewrite <- ?RtoC_opp; apply Cconj_R. Qed.
Lemma real_fr F x : realv F -> realv (fr F x).
Proof. intros H j. unfold fr. rewrite conj_sum3. apply sum3_ext; intros. rewrite Cconj_mult, real_Rz, H. reflexivity. Qed.
Lemma moment3_conj X f i : realv f -> moment3 (fun a b c => Cconj (X a b c)) f i = Cconj (moment3 X f i).
Proof.
  intros H. unfold moment3. rewrite conj_sum3. apply sum3_ext; intros. rewrite conj_sum3. apply sum3_ext; intros.
  rewrite !Cconj_mult, !H. reflexivity.
Qed.
Lemma moment4_conj X k f i : realv f -> realv k -> moment4 (fun a b c d => Cconj (X a b c d)) k f i = Cconj (moment4 X k f i).
Proof.
  intros H K. unfold moment4. do 3 (rewrite conj_sum3; apply sum3_ext; intros). rewrite !Cconj_mult, !H, K. reflexivity.
Qed.

(** Turning the crystal or turning the fields back *)
Lemma back x F c : sum3 (fun m => c m * fr F x m)%C = sum3 (fun j => sum3 (fun m => Rz x j m * c m) * F j)%C.
Proof. unfold fr, sum3. ring. Qed.

Lemma moment3_back x X F l : moment3 X (fr F x) l =
  sum3 (fun j => sum3 (fun k => sum3 (fun m => Rz x j m * sum3 (fun n => Rz x k n * X l m n)) * F j * F k))%C.
Proof.
  transitivity (sum3 (fun m => sum3 (fun k => sum3 (fun n => Rz x k n * X l m n) * F k) * fr F x m))%C.
  { unfold moment3. apply sum3_ext; intros m _. rewrite <- back, <- sum3_mult_r. apply sum3_ext; intros. ring. }
  rewrite back. apply sum3_ext; intros j _. rewrite <- sum3_mult_r.
  transitivity (sum3 (fun m => sum3 (fun k => Rz x j m * sum3 (fun n => Rz x k n * X l m n) * F j * F k)))%C.
  { apply sum3_ext; intros m _. rewrite <- sum3_mult_l, <- sum3_mult_r. apply sum3_ext; intros. ring. }
  rewrite sum3_swap. apply sum3_ext; intros k _. rewrite <- !sum3_mult_r. reflexivity.
Qed.

Lemma turned3_moment x X F i : sum3 (fun j => Rz x i j * moment3 X (fr F x) j)%C = moment3 (turned3 x X) F i.
Proof.
  unfold moment3 at 2.
  transitivity (sum3 (fun j => sum3 (fun k => sum3 (fun l => Rz x i l * sum3 (fun m => Rz x j m * sum3 (fun n => Rz x k n * X l m n)) * F j * F k))))%C.
  2:{ do 2 (apply sum3_ext; intros). rewrite nest3. rewrite <- !sum3_mult_r. apply sum3_ext; intros. ring. }
  rewrite (sum3_rot (fun j k l => Rz x i l * sum3 (fun m => Rz x j m * sum3 (fun n => Rz x k n * X l m n)) * F j * F k)%C).
  apply sum3_ext; intros l _. rewrite moment3_back.
  do 2 (rewrite <- sum3_mult_l; apply sum3_ext; intros). ring.
Qed.

Lemma turned4_moment x X K F i : sum3 (fun j => Rz x i j * moment4 X (fr K x) (fr F x) j)%C = moment4 (turned4 x X) K F i.
Proof.
  assert (S : forall (Y : nat -> nat -> nat -> nat -> C) k f a, moment4 Y k f a = sum3 (fun j => moment3 (fun b c d => Y b j c d) f a * k j)%C).
  { intros. unfold moment4, moment3. apply sum3_ext; intros j _. do 2 (rewrite <- sum3_mult_r; apply sum3_ext; intros). ring. }
  transitivity (sum3 (fun j => Rz x i j * sum3 (fun b => sum3 (fun m => Rz x b m * moment3 (fun p q r => X p m q r) (fr F x) j) * K b)))%C.
  { apply sum3_ext; intros j _. rewrite S. f_equal. apply back. }
  rewrite S.
  transitivity (sum3 (fun b => sum3 (fun j => Rz x i j * (sum3 (fun m => Rz x b m * moment3 (fun p q r => X p m q r) (fr F x) j) * K b))))%C.
  { rewrite sum3_swap. apply sum3_ext; intros j _. rewrite <- sum3_mult_l. reflexivity. }
  apply sum3_ext; intros b _.
  transitivity (sum3 (fun j => sum3 (fun m => Rz x i j * (Rz x b m * moment3 (fun p q r => X p m q r) (fr F x) j))) * K b)%C.
  { rewrite <- sum3_mult_r. apply sum3_ext; intros j _. rewrite !sum3_mult_l. ring. }
  f_equal. rewrite sum3_swap.
  transitivity (sum3 (fun m => Rz x b m * moment3 (turned3 x (fun p q r => X p m q r)) F i))%C.
  { apply sum3_ext; intros m _. rewrite <- turned3_moment, <- sum3_mult_l. apply sum3_ext; intros. ring. }
  unfold moment3.
  transitivity (sum3 (fun j => sum3 (fun k => sum3 (fun m => Rz x b m * turned3 x (fun p q r => X p m q r) i j k * F j * F k))))%C.
  { rewrite (sum3_rot (fun j k m => Rz x b m * turned3 x (fun p q r => X p m q r) i j k * F j * F k)%C).
    apply sum3_ext; intros m _. do 2 (rewrite <- sum3_mult_l; apply sum3_ext; intros). ring. }
  apply sum3_ext; intros j _. apply sum3_ext; intros k _. rewrite !sum3_mult_r. f_equal. f_equal.
  rewrite nest4.
  transitivity (sum3 (fun m => sum3 (fun l => Rz x b m * (Rz x i l * sum3 (fun p => Rz x j p * sum3 (fun n => Rz x k n * X l m p n))))))%C.
  { apply sum3_ext; intros m _. rewrite nest3, <- sum3_mult_l. reflexivity. }
  rewrite sum3_swap. apply sum3_ext; intros l _. rewrite <- sum3_mult_l. apply sum3_ext; intros m _. ring.
Qed.

(** Which rows of the projection are kept *)
Definition masked (k : nat -> C) (out : pol) (i a : nat) : C :=
  let p := ((if i =? a then RtoC 1 else RtoC 0) - k i * k a)%C in
  match out, i with
  | Pin, 1 => RtoC 0 | Pin, _ => p
  | Sin, 1 => p | Sin, _ => RtoC 0
  end.

Lemma masked_transverse g out S i : i < 3 -> sum3 (fun a => masked (s_out g) out i a * S a)%C =
  match out, i with
  | Pin, 1 => RtoC 0 | Pin, _ => setup_transverse g S i
  | Sin, 1 => setup_transverse g S i | Sin, _ => RtoC 0
  end.
Proof.
  intros H. unfold masked, setup_transverse, dot3. destruct out; (destruct i as [|[|[|i]]]; [..|lia]);
    cbn [Nat.eqb]; unfold sum3; cbn [Nat.eqb]; ring.
Qed.

Definition real_setup (g : setup) : Prop := realv (s_field g Pin) /\ realv (s_field g Sin) /\ realv (s_in g) /\ realv (s_out g).

Section Total.
Variable g : setup.
Hypothesis RG : real_setup g.
Variables (E : nat -> nat -> nat -> C) (Q : nat -> nat -> nat -> nat -> C).
Variables (inp out : pol) (x : R).
Notation A := (masked (s_out g) out).
Notation F := (s_field g inp).
Notation K := (s_in g).
Notation f := (fr F x).
Notation kk := (kr K x).
Notation h2 := (H2 A x).
Notation Ec := (fun a b c => Cconj (E a b c)).
Notation Qc := (fun a b c d => Cconj (Q a b c d)).
Notation t1 := (T1 A F x).

Lemma realF : realv F. Proof. destruct RG as (? & ? & ? & ?), inp; auto. Qed.
Lemma realK : realv K. Proof. apply RG. Qed.
Lemma kr_fr : kk = fr K x. Proof. reflexivity. Qed.
Lemma realH1 i j : Cconj (H1 A x i j) = H1 A x i j.
Proof.
  unfold H1. rewrite conj_sum3. apply sum3_ext; intros a _. rewrite Cconj_mult, real_Rz. f_equal.
  destruct RG as (_ & _ & _ & H). unfold masked. destruct out; (destruct i as [|[|i]]);
    rewrite ?Cconj_R; unfold Cminus; rewrite ?Cconj_plus, ?Cconj_opp, ?Cconj_mult, ?H; repeat match goal with |- context [if ?b then _ else _] => destruct b end; rewrite ?Cconj_R; reflexivity.
Qed.

(** The four terms as the code sums them *)
Definition term1 : C := sum3 (fun c => sum3 (fun b => sum3 (fun a =>
  sum3 (fun l => sum3 (fun k => sum3 (fun i => t1 [i; a; k; l; b; c] * E i k l))) * Ec a b c)))%C.
Definition term2 : C := sum3 (fun e => sum3 (fun c => sum3 (fun b => sum3 (fun a =>
  sum3 (fun l => sum3 (fun k => sum3 (fun i => t1 [i; a; k; l; b; c; e] * (- Ci * kk e) * E i k l))) * Qc a e b c))))%C.
Definition term3 : C := sum3 (fun c => sum3 (fun b => sum3 (fun a =>
  sum3 (fun m => sum3 (fun l => sum3 (fun k => sum3 (fun i => t1 [i; a; k; l; b; c; m] * (Ci * kk m) * Q i m k l)))) * Ec a b c)))%C.
Definition term4 : C := sum3 (fun e => sum3 (fun c => sum3 (fun b => sum3 (fun a =>
  sum3 (fun m => sum3 (fun l => sum3 (fun k => sum3 (fun i => t1 [i; a; k; l; b; c; m; e] * (- Ci * kk m) * (Ci * kk e) * Q i m k l)))) * Qc a e b c))))%C.

Notation W1 := (moment3 E f).
Notation W2 := (moment4 Q kk f).
Definition pairing (u v : nat -> C) : C := sum3 (fun a => sum3 (fun i => h2 i a * u i) * Cconj (v a))%C.

Lemma term1_pairing : term1 = pairing W1 W1.
Proof.
  unfold term1, pairing.
  transitivity (sum3 (fun c => sum3 (fun b => sum3 (fun a => sum3 (fun i => h2 i a * W1 i) * f b * f c * Ec a b c))))%C.
  { do 3 (apply sum3_ext; intros). f_equal. unfold T1. cbn [nth]. rewrite (inner3 (fun i => h2 i _) f E). reflexivity. }
  rewrite (outer3 (fun a => sum3 (fun i => h2 i a * W1 i)%C) f Ec). apply sum3_ext; intros. f_equal.
  apply moment3_conj, real_fr, realF.
Qed.
Lemma term2_pairing : term2 = (- Ci * pairing W1 W2)%C.
Proof.
  unfold term2, pairing.
  transitivity (sum3 (fun e => sum3 (fun c => sum3 (fun b => sum3 (fun a => sum3 (fun i => h2 i a * W1 i) * f b * f c * (- Ci * kk e) * Qc a e b c)))))%C.
  { do 4 (apply sum3_ext; intros). f_equal. unfold T1. cbn [nth].
    rewrite <- (inner3 (fun i => h2 i _) f E), <- sum3_mult_r. do 2 (apply sum3_ext; intros; rewrite <- sum3_mult_r). apply sum3_ext; intros. ring. }
  rewrite (outer4 (fun a => sum3 (fun i => h2 i a * W1 i)%C) f kk Qc). f_equal. apply sum3_ext; intros. f_equal.
  apply moment4_conj; [apply real_fr, realF|]. apply real_fr, realK.
Qed.
Lemma term3_pairing : term3 = (Ci * pairing W2 W1)%C.
Proof.
  unfold term3, pairing.
  transitivity (sum3 (fun c => sum3 (fun b => sum3 (fun a => (Ci * sum3 (fun i => h2 i a * W2 i)) * f b * f c * Ec a b c))))%C.
  { do 3 (apply sum3_ext; intros). f_equal. unfold T1. cbn [nth].
    rewrite <- (Cmult_1_r (_ * _ * _)%C), <- (inner4 (fun i => h2 i _) f kk Q). do 4 (apply sum3_ext; intros). ring. }
  rewrite (outer3 (fun a => Ci * sum3 (fun i => h2 i a * W2 i))%C f Ec). rewrite <- sum3_mult_l. apply sum3_ext; intros.
  rewrite moment3_conj by (apply real_fr, realF). ring.
Qed.
Lemma term4_pairing : term4 = pairing W2 W2.
Proof.
  unfold term4, pairing.
  transitivity (sum3 (fun e => sum3 (fun c => sum3 (fun b => sum3 (fun a => (- Ci * sum3 (fun i => h2 i a * W2 i)) * f b * f c * (Ci * kk e) * Qc a e b c)))))%C.
  { do 4 (apply sum3_ext; intros). f_equal. unfold T1. cbn [nth].
    rewrite <- (inner4 (fun i => h2 i _) f kk Q). do 4 (apply sum3_ext; intros). ring. }
  rewrite (outer4 (fun a => - Ci * sum3 (fun i => h2 i a * W2 i))%C f kk Qc). rewrite <- sum3_mult_l. apply sum3_ext; intros a _.
  rewrite moment4_conj by (apply real_fr; apply realF || apply realK).
  transitivity (- (Ci * Ci) * (sum3 (fun i => h2 i a * W2 i) * Cconj (W2 a)))%C; [ring|]. rewrite Ci_sq. ring.
Qed.

Lemma total : (term1 + term2 + term3 + term4)%C = RtoC (setup_intensity g E Q inp out x).
Proof.
  rewrite term1_pairing, term2_pairing, term3_pairing, term4_pairing.
  set (W := fun i => (W1 i + Ci * W2 i)%C).
  transitivity (pairing W W).
  { unfold pairing, W. rewrite <- !sum3_mult_l, <- !sum3_plus. apply sum3_ext; intros a _.
    rewrite Cconj_plus, Cconj_mult, Cconj_Ci.
    assert (X : sum3 (fun i => h2 i a * (W1 i + Ci * W2 i))%C = (sum3 (fun i => h2 i a * W1 i) + Ci * sum3 (fun i => h2 i a * W2 i))%C).
    { rewrite <- sum3_mult_l, <- sum3_plus. apply sum3_ext; intros. ring. }
    rewrite X. clear X.
    transitivity (sum3 (fun i => h2 i a * W1 i) * Cconj (W1 a) + - Ci * (sum3 (fun i => h2 i a * W1 i) * Cconj (W2 a)) +
      Ci * (sum3 (fun i => h2 i a * W2 i) * Cconj (W1 a)) - (Ci * Ci) * (sum3 (fun i => h2 i a * W2 i) * Cconj (W2 a)))%C; [|ring].
    rewrite Ci_sq. ring. }
  transitivity (sum3 (fun p => sum3 (fun i => H1 A x p i * W i) * Cconj (sum3 (fun i => H1 A x p i * W i))))%C.
  { unfold pairing, H2.
    transitivity (sum3 (fun a => sum3 (fun p => sum3 (fun i => H1 A x p i * W i) * (H1 A x p a * Cconj (W a)))))%C.
    { apply sum3_ext; intros a _.
      transitivity (sum3 (fun p => sum3 (fun i => H1 A x p i * W i) * H1 A x p a) * Cconj (W a))%C.
      - f_equal. transitivity (sum3 (fun i => sum3 (fun p => H1 A x p i * W i * H1 A x p a)))%C.
        + apply sum3_ext; intros i _. rewrite <- sum3_mult_r. apply sum3_ext; intros. ring.
        + rewrite sum3_swap. apply sum3_ext; intros. rewrite sum3_mult_r. reflexivity.
      - rewrite <- sum3_mult_r. apply sum3_ext; intros. ring. }
    rewrite sum3_swap. apply sum3_ext; intros p _. rewrite sum3_mult_l. f_equal. rewrite conj_sum3.
    apply sum3_ext; intros. rewrite Cconj_mult, realH1. reflexivity. }
  set (S := setup_source g E Q inp x).
  assert (HS : forall p, sum3 (fun i => H1 A x p i * W i)%C = sum3 (fun a => A p a * S a)%C).
  { intros p. unfold H1.
    transitivity (sum3 (fun a => A p a * sum3 (fun i => Rz x a i * W i)))%C.
    - transitivity (sum3 (fun i => sum3 (fun a => A p a * (Rz x a i * W i))))%C.
      + apply sum3_ext; intros. rewrite <- sum3_mult_r. apply sum3_ext; intros. ring.
      + rewrite sum3_swap. apply sum3_ext; intros. rewrite sum3_mult_l. reflexivity.
    - apply sum3_ext; intros a _. f_equal. unfold S, setup_source, W. rewrite <- turned3_moment, <- turned4_moment.
      rewrite <- sum3_mult_l, <- sum3_plus. apply sum3_ext; intros. rewrite kr_fr. ring. }
  unfold sum3 at 1. rewrite !HS, !masked_transverse by lia. unfold setup_intensity, detected. fold S.
  destruct out; rewrite ?RtoC_plus, <- ?Cmult_conj, ?Cconj_R; ring.
Qed.
End Total.
