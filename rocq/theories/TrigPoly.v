(** Trigonometric polynomials in one angle: closure properties and Fourier
    coefficients. *)
From Coq Require Import List Arith ZArith Reals Lra Lia.
From Coquelicot Require Import Complex.
Import ListNotations.
From Verif Require Import PyBase CBase FourierBase FDataModel FDataProofs.
Local Open Scope nat_scope.

(** Sum of terms c exp(i k x), a frequency may occur several times *)
Definition mono (l : list (Z * C)) (x : R) : C := Csum (fun kc => snd kc * cis (IZR (fst kc) * x))%C l.
Definition trigpoly (n : nat) (f : R -> C) : Prop :=
  exists l, Forall (fun kc => (Z.abs (fst kc) <= Z.of_nat n)%Z) l /\ forall x, f x = mono l x.

Lemma tp_ext n f g : (forall x, f x = g x) -> trigpoly n f -> trigpoly n g.
Proof. intros E (l & F & H). exists l. split; auto. intros x. rewrite <- E. auto. Qed.

Lemma tp_le n m f : n <= m -> trigpoly n f -> trigpoly m f.
Proof. intros L (l & F & H). exists l. split; auto. eapply Forall_impl; [|exact F]. intros a A. simpl in A. lia. Qed.

Lemma tp_const n c : trigpoly n (fun _ => c).
Proof.
  exists [(0%Z, c)]. split; [constructor; [simpl; lia|constructor]|]. intros x. unfold mono. simpl.
  rewrite Rmult_0_l, cis_0. ring.
Qed.

Lemma tp_plus n f g : trigpoly n f -> trigpoly n g -> trigpoly n (fun x => f x + g x)%C.
Proof.
  intros (l & F & H) (l' & F' & H'). exists (l ++ l'). split; [apply Forall_app; auto|].
  intros x. unfold mono. rewrite Csum_app, H, H'. reflexivity.
Qed.

Lemma tp_mult n m f g : trigpoly n f -> trigpoly m g -> trigpoly (n + m) (fun x => f x * g x)%C.
Proof.
  intros (l & F & H) (l' & F' & H').
  exists (flat_map (fun a => map (fun b => (fst a + fst b, (snd a * snd b)%C)%Z) l') l). split.
  - apply Forall_forall. intros k I. apply in_flat_map in I as (a & Ia & I). apply in_map_iff in I as (b & <- & Ib).
    rewrite Forall_forall in F, F'. specialize (F a Ia). specialize (F' b Ib). simpl in *. lia.
  - intros x. rewrite H, H'. unfold mono. rewrite Csum_flat_map, <- Csum_mult_r. apply Csum_ext. intros a.
    rewrite Csum_map, <- Csum_mult_l. apply Csum_ext. intros b. cbn [fst snd].
    rewrite plus_IZR, Rmult_plus_distr_r, cis_plus. ring.
Qed.

Lemma tp_scale n c f : trigpoly n f -> trigpoly n (fun x => c * f x)%C.
Proof. intros T. apply (tp_mult 0 n (fun _ => c) f); auto. apply tp_const. Qed.

Lemma tp_opp n f : trigpoly n f -> trigpoly n (fun x => - f x)%C.
Proof. intros T. apply tp_ext with (f := fun x => (- (RtoC 1) * f x)%C); [intros; ring|]. apply tp_scale, T. Qed.

Lemma tp_minus n f g : trigpoly n f -> trigpoly n g -> trigpoly n (fun x => f x - g x)%C.
Proof. intros F G. apply tp_plus; auto. apply tp_opp, G. Qed.

Lemma tp_conj n f : trigpoly n f -> trigpoly n (fun x => Cconj (f x)).
Proof.
  intros (l & F & H). exists (map (fun kc => (- fst kc, Cconj (snd kc))%Z) l). split.
  - apply Forall_forall. intros k I. apply in_map_iff in I as (a & <- & Ia). rewrite Forall_forall in F.
    specialize (F a Ia). simpl in *. lia.
  - intros x. rewrite H. unfold mono. rewrite Csum_conj, Csum_map. apply Csum_ext. intros a. cbn [fst snd].
    rewrite Cconj_mult, opp_IZR, <- cis_opp. f_equal. f_equal. ring.
Qed.

Lemma tp_cos : trigpoly 1 (fun x => RtoC (cos x)).
Proof.
  exists [(1%Z, RtoC (/ 2)); ((-1)%Z, RtoC (/ 2))]. split; [repeat constructor; simpl; lia|].
  intros x. unfold mono. simpl. rewrite Rmult_1_l. replace (-1 * x)%R with (- x)%R by ring. unfold cis.
  rewrite cos_neg, sin_neg. apply C_ext; unfold Re, Im; simpl; field.
Qed.
Lemma tp_sin : trigpoly 1 (fun x => RtoC (sin x)).
Proof.
  exists [(1%Z, (0, - / 2)%R : C); ((-1)%Z, (0, / 2)%R : C)]. split; [repeat constructor; simpl; lia|].
  intros x. unfold mono. simpl. rewrite Rmult_1_l. replace (-1 * x)%R with (- x)%R by ring. unfold cis.
  rewrite cos_neg, sin_neg. apply C_ext; unfold Re, Im; simpl; field.
Qed.

(** Collecting equal frequencies *)
Definition coef_of (l : list (Z * C)) (k : Z) : C := Csum snd (filter (fun kc => Z.eqb (fst kc) k) l).

Lemma mono_freqs n l x : Forall (fun kc => (Z.abs (fst kc) <= Z.of_nat n)%Z) l ->
  mono l x = Csum (fun k => coef_of l k * cis (IZR k * x))%C (freqs n).
Proof.
  induction l as [|[k c] l IH]; intros F.
  - unfold mono, coef_of. simpl. symmetry. apply Csum_0_in. intros k _. simpl. ring.
  - inversion F as [|? ? K F']; subst. unfold mono in *. cbn [Csum fold_right].
    change (fold_right _ _ l) with (Csum (fun kc => snd kc * cis (IZR (fst kc) * x))%C l). rewrite (IH F'). clear IH.
    cbn [fst snd] in *.
    rewrite (Csum_ext (fun k0 => coef_of ((k, c) :: l) k0 * cis (IZR k0 * x))%C
      (fun k0 => (if Z.eqb k k0 then c * cis (IZR k * x) else RtoC 0) + coef_of l k0 * cis (IZR k0 * x))%C).
    + rewrite Csum_plus. f_equal. rewrite (Csum_single_Z _ k (freqs n)).
      * rewrite Z.eqb_refl. reflexivity.
      * apply NoDup_zrange.
      * apply In_freqs. lia.
      * intros b _ Nb. destruct (Z.eqb_spec k b); [congruence|reflexivity].
    + intros k0. unfold coef_of. cbn [filter fst]. destruct (Z.eqb_spec k k0) as [->|N].
      * rewrite Csum_cons. cbn [snd]. ring.
      * ring.
Qed.

Lemma tp_series n f : trigpoly n f -> exists c : Z -> C, forall x, f x = Csum (fun k => c k * cis (IZR k * x))%C (freqs n).
Proof. intros (l & F & H). exists (coef_of l). intros x. rewrite H. apply mono_freqs, F. Qed.

(** Coefficients of a trigonometric polynomial *)
Lemma tp_expand n f : trigpoly n f -> forall x, f x = Csum (fun k => fourier_coefficient f k * cis (IZR k * x))%C (freqs n).
Proof.
  intros T x. destruct (tp_series n f T) as (c & H). rewrite H. apply Csum_ext_in. intros k I. f_equal.
  rewrite (fourier_coefficient_ext _ _ k H), coefficient_trig by apply NoDup_zrange.
  destruct (in_dec Z.eq_dec k (freqs n)); [reflexivity|contradiction].
Qed.
Lemma tp_beyond n f k : trigpoly n f -> (Z.of_nat n < Z.abs k)%Z -> fourier_coefficient f k = RtoC 0.
Proof.
  intros T L. destruct (tp_series n f T) as (c & H).
  rewrite (fourier_coefficient_ext _ _ k H), coefficient_trig by apply NoDup_zrange.
  destruct (in_dec Z.eq_dec k (freqs n)) as [I|]; [|reflexivity]. apply In_freqs in I. lia.
Qed.

(** Translation multiplies coefficient k by exp(i k a) *)
Lemma tp_shift_coefficient n f a k : trigpoly n f ->
  fourier_coefficient (fun x => f (x + a)%R) k = (fourier_coefficient f k * cis (IZR k * a))%C.
Proof.
  intros T. destruct (tp_series n f T) as (c & H).
  rewrite (fourier_coefficient_ext f _ k H), coefficient_trig by apply NoDup_zrange.
  rewrite (fourier_coefficient_ext _ (fun x => Csum (fun k => (c k * cis (IZR k * a)) * cis (IZR k * x))%C (freqs n)) k).
  - rewrite (coefficient_trig (fun k => (c k * cis (IZR k * a))%C)) by apply NoDup_zrange.
    destruct (in_dec Z.eq_dec k (freqs n)); [reflexivity|]. ring.
  - intros x. rewrite H. apply Csum_ext. intros j. rewrite Rmult_plus_distr_l, cis_plus. ring.
Qed.

(** A trigonometric polynomial with period 2 pi / n has only frequencies
    divisible by n *)
Lemma tp_periodic d f n k : trigpoly d f -> (0 < n)%Z -> (forall x, f (x + 2 * PI / IZR n)%R = f x) ->
  ~ (n | k)%Z -> fourier_coefficient f k = RtoC 0.
Proof.
  intros T N P D.
  pose proof (tp_shift_coefficient d f (2 * PI / IZR n)%R k T) as S.
  rewrite (fourier_coefficient_ext _ f k P) in S.
  set (z := fourier_coefficient f k) in *. set (w := cis (IZR k * (2 * PI / IZR n))) in *.
  assert (W : w <> RtoC 1).
  { intros E. apply cis_eq_1 in E as (j & E). apply D. exists j.
    assert (Hn : IZR n <> 0%R) by (apply not_0_IZR; lia). pose proof PI_RGT_0.
    apply eq_IZR. rewrite mult_IZR. apply Rmult_eq_reg_r with (r := (2 * PI / IZR n)%R).
    - rewrite E. field. exact Hn.
    - apply Rmult_integral_contrapositive. split; [lra|]. apply Rinv_neq_0_compat. exact Hn. }
  assert (M : (z * (w - RtoC 1) = RtoC 0)%C).
  { transitivity (z * w - z)%C; [ring|]. rewrite <- S. ring. }
  destruct (Ceq_dec z (RtoC 0)) as [|Nz]; [assumption|]. exfalso. apply W.
  assert (w - RtoC 1 = RtoC 0)%C.
  { transitivity (/ z * (z * (w - RtoC 1)))%C; [field; exact Nz|]. rewrite M. ring. }
  transitivity ((w - RtoC 1) + RtoC 1)%C; [ring|]. rewrite H. ring.
Qed.

Lemma tp_scale_coefficient n c f k : trigpoly n f ->
  fourier_coefficient (fun x => c * f x)%C k = (c * fourier_coefficient f k)%C.
Proof.
  intros T. destruct (tp_series n f T) as (d & H).
  rewrite (fourier_coefficient_ext f _ k H), coefficient_trig by apply NoDup_zrange.
  rewrite (fourier_coefficient_ext _ (fun x => Csum (fun k => (c * d k) * cis (IZR k * x))%C (freqs n)) k).
  - rewrite (coefficient_trig (fun k => (c * d k)%C)) by apply NoDup_zrange.
    destruct (in_dec Z.eq_dec k (freqs n)); [reflexivity|]. ring.
  - intros x. rewrite H, <- Csum_mult_l. apply Csum_ext. intros j. ring.
Qed.
Lemma tp_cos_pow n : trigpoly n (fun x => RtoC (cos x ^ n)).
Proof.
  induction n as [|n IH]; [apply (tp_ext 0 (fun _ => RtoC 1)); [reflexivity|apply tp_const]|].
  apply (tp_ext (S n) (fun x => RtoC (cos x) * RtoC (cos x ^ n))%C); [intros; rewrite <- RtoC_mult; reflexivity|].
  change (S n) with (1 + n). apply tp_mult; [apply tp_cos|exact IH].
Qed.
