(** Fourier coefficients as integrals over one turn, and those of trigonometric
    polynomials. *)
From Coq Require Import List ZArith Reals Lra Lia.
From Coquelicot Require Import Coquelicot.
From Verif Require Import PyBase CBase.
Import ListNotations.
Open Scope R_scope.

(** (1/2pi) * integral over one turn of f(x) exp(-i n x), real and imaginary
    part. *)
Definition fourier_coefficient (f : R -> C) (n : Z) : C :=
  (/ (2 * PI) * RInt (fun x => Re (Cmult (f x) (cis (- IZR n * x)))) 0 (2 * PI),
   / (2 * PI) * RInt (fun x => Im (Cmult (f x) (cis (- IZR n * x)))) 0 (2 * PI)).

Definition is_Cint (f : R -> C) (a b : R) (v : C) : Prop :=
  is_RInt (fun x => Re (f x)) a b (Re v) /\ is_RInt (fun x => Im (f x)) a b (Im v).

Lemma is_Cint_ext f g a b v : (forall x, f x = g x) -> is_Cint f a b v -> is_Cint g a b v.
Proof.
  intros E [H1 H2]; split.
  - apply is_RInt_ext with (2 := H1). intros; now rewrite E.
  - apply is_RInt_ext with (2 := H2). intros; now rewrite E.
Qed.

Lemma is_Cint_plus f g a b v w : is_Cint f a b v -> is_Cint g a b w ->
  is_Cint (fun x => Cplus (f x) (g x)) a b (Cplus v w).
Proof.
  intros [H1 H2] [H3 H4]; split.
  - apply (is_RInt_plus _ _ _ _ _ _ H1 H3).
  - apply (is_RInt_plus _ _ _ _ _ _ H2 H4).
Qed.

Lemma is_Cint_mult c f a b v : is_Cint f a b v -> is_Cint (fun x => Cmult c (f x)) a b (Cmult c v).
Proof.
  intros [H1 H2]; split.
  - apply (is_RInt_minus _ _ _ _ _ _ (is_RInt_scal _ _ _ (Re c) _ H1) (is_RInt_scal _ _ _ (Im c) _ H2)).
  - apply (is_RInt_plus _ _ _ _ _ _ (is_RInt_scal _ _ _ (Re c) _ H2) (is_RInt_scal _ _ _ (Im c) _ H1)).
Qed.

Lemma is_Cint_0 a b : is_Cint (fun _ => RtoC 0) a b (RtoC 0).
Proof.
  split; simpl.
  - apply is_RInt_ext with (fun _ : R => 0); [reflexivity|].
    generalize (is_RInt_const a b (0 : R)). unfold scal; simpl; unfold mult; simpl. now rewrite Rmult_0_r.
  - apply is_RInt_ext with (fun _ : R => 0); [reflexivity|].
    generalize (is_RInt_const a b (0 : R)). unfold scal; simpl; unfold mult; simpl. now rewrite Rmult_0_r.
Qed.

Lemma is_Cint_sum {A} (f : A -> R -> C) (v : A -> C) l a b : (forall i, In i l -> is_Cint (f i) a b (v i)) ->
  is_Cint (fun x => Csum (fun i => f i x) l) a b (Csum v l).
Proof.
  induction l as [|i l IH]; simpl; intros H.
  - apply is_Cint_0.
  - apply is_Cint_plus; auto.
Qed.

Lemma int_cos (k : Z) : is_RInt (fun x => cos (IZR k * x)) 0 (2 * PI) (if Z.eqb k 0 then 2 * PI else 0).
Proof.
  destruct (Z.eqb_spec k 0) as [->|N].
  - apply is_RInt_ext with (fun _ : R => 1).
    + intros; now rewrite Rmult_0_l, cos_0.
    + generalize (is_RInt_const 0 (2 * PI) (1 : R)). unfold scal; simpl; unfold mult; simpl.
      now rewrite Rmult_1_r, Rminus_0_r.
  - assert (K : IZR k <> 0) by (apply not_0_IZR; auto).
    replace 0 with (minus (sin (IZR k * (2 * PI)) / IZR k) (sin (IZR k * 0) / IZR k)) at 2.
    + apply (is_RInt_derive (fun x => sin (IZR k * x) / IZR k)).
      * intros x _. auto_derive; auto. field; auto.
      * intros x _. apply continuity_pt_filterlim. apply continuity_pt_comp with (f2 := cos).
        -- apply derivable_continuous_pt. apply derivable_pt_mult; [apply derivable_pt_const|apply derivable_pt_id].
        -- apply continuity_cos.
    + replace (IZR k * (2 * PI)) with (0 + IZR k * (2 * PI)) by ring.
      rewrite sin_period_Z, Rmult_0_r, sin_0. unfold minus, plus, opp; simpl. field; auto.
Qed.

Lemma int_sin (k : Z) : is_RInt (fun x => sin (IZR k * x)) 0 (2 * PI) 0.
Proof.
  destruct (Z.eqb_spec k 0) as [->|N].
  - apply is_RInt_ext with (fun _ : R => 0).
    + intros; now rewrite Rmult_0_l, sin_0.
    + generalize (is_RInt_const 0 (2 * PI) (0 : R)). unfold scal; simpl; unfold mult; simpl.
      now rewrite Rmult_0_r.
  - assert (K : IZR k <> 0) by (apply not_0_IZR; auto).
    replace 0 with (minus (- cos (IZR k * (2 * PI)) / IZR k) (- cos (IZR k * 0) / IZR k)) at 2.
    + apply (is_RInt_derive (fun x => - cos (IZR k * x) / IZR k)).
      * intros x _. auto_derive; auto. field; auto.
      * intros x _. apply continuity_pt_filterlim. apply continuity_pt_comp with (f2 := sin).
        -- apply derivable_continuous_pt. apply derivable_pt_mult; [apply derivable_pt_const|apply derivable_pt_id].
        -- apply continuity_sin.
    + replace (IZR k * (2 * PI)) with (0 + IZR k * (2 * PI)) by ring.
      rewrite cos_period_Z, Rmult_0_r, cos_0. unfold minus, plus, opp; simpl. field; auto.
Qed.

Lemma int_cis (k : Z) : is_Cint (fun x => cis (IZR k * x)) 0 (2 * PI) (if Z.eqb k 0 then RtoC (2 * PI) else RtoC 0).
Proof.
  split; simpl.
  - replace (Re (if Z.eqb k 0 then RtoC (2 * PI) else RtoC 0)) with (if Z.eqb k 0 then 2 * PI else 0)
      by (destruct (Z.eqb k 0); reflexivity).
    apply int_cos.
  - replace (Im (if Z.eqb k 0 then RtoC (2 * PI) else RtoC 0)) with 0 by (destruct (Z.eqb k 0); reflexivity).
    apply int_sin.
Qed.

Lemma fourier_coefficient_int f n v : is_Cint (fun x => Cmult (f x) (cis (- IZR n * x))) 0 (2 * PI) v ->
  fourier_coefficient f n = Cmult (RtoC (/ (2 * PI))) v.
Proof.
  intros [H1 H2]. unfold fourier_coefficient.
  rewrite (is_RInt_unique _ _ _ _ H1), (is_RInt_unique _ _ _ _ H2).
  apply C_ext; unfold Re, Im; simpl; ring.
Qed.

Lemma fourier_coefficient_ext f g n : (forall x, f x = g x) -> fourier_coefficient f n = fourier_coefficient g n.
Proof.
  intros E. unfold fourier_coefficient. f_equal; f_equal; apply RInt_ext; intros; now rewrite E.
Qed.

(** Coefficients of a trigonometric polynomial. *)
Lemma coefficient_trig (c : Z -> C) (l : list Z) (n : Z) : NoDup l ->
  fourier_coefficient (fun x => Csum (fun m => Cmult (c m) (cis (IZR m * x))) l) n =
  if in_dec Z.eq_dec n l then c n else RtoC 0.
Proof.
  intros N.
  rewrite (fourier_coefficient_int _ _ (Csum (fun m => Cmult (c m) (if Z.eqb (m - n) 0 then RtoC (2 * PI) else RtoC 0)) l)).
  - assert (P : PI <> 0) by (generalize PI_RGT_0; lra).
    destruct (in_dec Z.eq_dec n l) as [I|NI].
    + rewrite (Csum_single_Z _ n l); auto.
      * rewrite Z.sub_diag. simpl. apply C_ext; unfold Re, Im; simpl; field; auto.
      * intros b Ib Nb. replace (b - n =? 0)%Z with false by (symmetry; apply Z.eqb_neq; lia).
        apply C_ext; unfold Re, Im; simpl; ring.
    + rewrite Csum_0_in; [apply C_ext; unfold Re, Im; simpl; ring|].
      intros a Ia. replace (a - n =? 0)%Z with false.
      * apply C_ext; unfold Re, Im; simpl; ring.
      * symmetry; apply Z.eqb_neq. intros E. assert (a = n) by lia. congruence.
  - apply is_Cint_ext with (f := fun x => Csum (fun m => Cmult (c m) (cis (IZR (m - n) * x))) l).
    + intros x. rewrite <- Csum_mult_r. apply Csum_ext. intros m. rewrite <- Cmult_assoc, <- cis_plus.
      f_equal. f_equal. rewrite minus_IZR. ring.
    + apply is_Cint_sum. intros m _. apply is_Cint_mult, int_cis.
Qed.
