(** Real-number helpers: python's [%], [round] and integer truncation, and
    stable sorting of points by angle. *)
From Coq Require Import Reals Lra Lia ZArith List Permutation Sorted.
Import ListNotations.
Open Scope R_scope.

(** [x % y] of python/numpy for positive [y]: x - y*floor(x/y). *)
Definition pymod (x y : R) : R := x - y * IZR (Int_part (x / y)).

Definition twopi : R := 2 * PI.
Definition mod2pi (x : R) : R := pymod x twopi.

Lemma twopi_pos : 0 < twopi.
Proof. unfold twopi; pose proof PI_RGT_0; lra. Qed.

Lemma pymod_range x y : 0 < y -> 0 <= pymod x y < y.
Proof.
  intros Hy. unfold pymod. destruct (base_Int_part (x / y)) as [H1 H2].
  assert (E : x = y * (x / y)) by (field; lra).
  assert (y * IZR (Int_part (x / y)) <= y * (x / y)) by (apply Rmult_le_compat_l; lra).
  assert (y * (x / y - 1) < y * IZR (Int_part (x / y))) by (apply Rmult_lt_compat_l; lra).
  lra.
Qed.

Lemma pymod_congr x y : exists k : Z, x = pymod x y + IZR k * y.
Proof. exists (Int_part (x / y)). unfold pymod. ring. Qed.

Lemma Int_part_unique r z : IZR z <= r < IZR z + 1 -> Int_part r = z.
Proof.
  intros [H1 H2]. destruct (base_Int_part r) as [H3 H4].
  assert (IZR (Int_part r) < IZR z + 1) by lra.
  assert (IZR z < IZR (Int_part r) + 1) by lra.
  rewrite <- plus_IZR in *. apply lt_IZR in H, H0. lia.
Qed.

(** The defining property: the result is the only representative in [0,y). *)
Lemma pymod_unique x y r k : 0 < y -> 0 <= r < y -> x = r + IZR k * y -> pymod x y = r.
Proof.
  intros Hy Hr E. unfold pymod.
  assert (Int_part (x / y) = k) as ->.
  { apply Int_part_unique. subst x.
    assert ((r + IZR k * y) / y = r / y + IZR k) as -> by (field; lra).
    assert (0 <= r / y) by (apply Rmult_le_pos; [lra|left; apply Rinv_0_lt_compat; lra]).
    assert (r / y < 1) by (apply Rmult_lt_reg_r with y; auto; unfold Rdiv;
      rewrite Rmult_assoc, Rinv_l by lra; lra).
    lra. }
  rewrite E. ring.
Qed.

Lemma pymod_small x y : 0 <= x < y -> pymod x y = x.
Proof. intros. apply pymod_unique with (k := 0%Z); try lra. Qed.

Lemma pymod_add_mult x y k : 0 < y -> pymod (x + IZR k * y) y = pymod x y.
Proof.
  intros Hy. destruct (pymod_congr x y) as [j Ej].
  apply pymod_unique with (k := (j + k)%Z); auto.
  - apply pymod_range; auto.
  - rewrite plus_IZR. rewrite Ej at 1. ring.
Qed.

Lemma pymod_pymod_add x a y : 0 < y -> pymod (pymod x y + a) y = pymod (x + a) y.
Proof.
  intros Hy. destruct (pymod_congr x y) as [j Ej].
  rewrite Ej at 2.
  replace (pymod x y + IZR j * y + a) with ((pymod x y + a) + IZR j * y) by ring.
  now rewrite pymod_add_mult.
Qed.

Lemma mod2pi_range x : 0 <= mod2pi x < twopi.
Proof. apply pymod_range, twopi_pos. Qed.

Lemma mod2pi_small x : 0 <= x < twopi -> mod2pi x = x.
Proof. apply pymod_small. Qed.

Lemma mod2pi_idem x : mod2pi (mod2pi x) = mod2pi x.
Proof. apply mod2pi_small, mod2pi_range. Qed.

Lemma mod2pi_mod_add x a : mod2pi (mod2pi x + a) = mod2pi (x + a).
Proof. apply pymod_pymod_add, twopi_pos. Qed.

Lemma mod2pi_congr x : exists k : Z, x = mod2pi x + IZR k * twopi.
Proof. apply pymod_congr. Qed.

Lemma mod2pi_period x k : mod2pi (x + IZR k * twopi) = mod2pi x.
Proof. apply pymod_add_mult, twopi_pos. Qed.

Lemma mod2pi_unique x r k : 0 <= r < twopi -> x = r + IZR k * twopi -> mod2pi x = r.
Proof. apply pymod_unique, twopi_pos. Qed.

(** Conversion to an integer array element: truncation toward zero. *)
Definition rtrunc (x : R) : R :=
  if Rle_dec 0 x then IZR (Int_part x) else - IZR (Int_part (- x)).

Lemma Int_part_nonneg x : 0 <= x -> (0 <= Int_part x)%Z.
Proof.
  intros H. destruct (base_Int_part x) as [_ H2].
  assert (IZR (-1) < IZR (Int_part x)) by (simpl; lra).
  apply lt_IZR in H0. lia.
Qed.

Lemma rtrunc_nonneg x : 0 <= x -> 0 <= rtrunc x <= x.
Proof.
  intros H. unfold rtrunc. destruct (Rle_dec 0 x); [|contradiction].
  split; [apply IZR_le, Int_part_nonneg; auto|]. apply base_Int_part.
Qed.

Lemma rtrunc_IZR z : rtrunc (IZR z) = IZR z.
Proof.
  unfold rtrunc. destruct (Rle_dec 0 (IZR z)).
  - f_equal. apply Int_part_unique. lra.
  - rewrite (Int_part_unique (- IZR z) (- z)) by (rewrite opp_IZR; lra).
    rewrite opp_IZR; ring.
Qed.

(** Points of one polarization: (angle, value). *)
Notation pts := (list (R * R)) (only parsing).

(** Stable insertion: the new element goes before the first element with a
    strictly larger key; inserting from the right keeps equal keys in order,
    as python's [sorted] does. *)
Fixpoint insert (p : R * R) (l : pts) : pts :=
  match l with
  | [] => [p]
  | q :: l' => if Rle_dec (fst p) (fst q) then p :: q :: l' else q :: insert p l'
  end.

Fixpoint isort (l : pts) : pts :=
  match l with [] => [] | p :: l' => insert p (isort l') end.

Definition le_x (p q : R * R) : Prop := fst p <= fst q.

Lemma insert_perm p l : Permutation (p :: l) (insert p l).
Proof.
  induction l as [|q l IH]; simpl; auto. destruct (Rle_dec (fst p) (fst q)); auto.
  apply perm_trans with (q :: p :: l); [constructor|]. constructor; auto.
Qed.

Lemma isort_perm l : Permutation l (isort l).
Proof.
  induction l as [|p l IH]; simpl; auto.
  apply perm_trans with (p :: isort l); auto. apply insert_perm.
Qed.

Lemma insert_sorted p l : StronglySorted le_x l -> StronglySorted le_x (insert p l).
Proof.
  induction l as [|q l IH]; simpl; intros S; [repeat constructor|].
  inversion S as [|? ? S' F]; subst.
  destruct (Rle_dec (fst p) (fst q)) as [L|L].
  - constructor; auto. constructor; auto. eapply Forall_impl; [|exact F].
    unfold le_x; intros a; simpl; lra.
  - constructor; auto. apply Forall_forall. intros r I.
    apply Permutation_in with (l' := p :: l) in I; [|apply Permutation_sym, insert_perm].
    destruct I as [<-|I]; [unfold le_x; lra|]. rewrite Forall_forall in F; auto.
Qed.

Lemma isort_sorted l : StronglySorted le_x (isort l).
Proof. induction l; simpl; [constructor|]. apply insert_sorted; auto. Qed.

Lemma isort_length l : length (isort l) = length l.
Proof. apply Permutation_length, Permutation_sym, isort_perm. Qed.

Lemma isort_In l p : In p (isort l) <-> In p l.
Proof.
  split; apply Permutation_in; [apply Permutation_sym|]; apply isort_perm.
Qed.

Lemma isort_sorted_id l : StronglySorted le_x l -> isort l = l.
Proof.
  induction 1 as [|p l S IH F]; simpl; auto. rewrite IH.
  destruct l as [|q l]; simpl; auto.
  destruct (Rle_dec (fst p) (fst q)) as [|N]; auto.
  exfalso; apply N. inversion F; auto.
Qed.

(** Two sorted lists with the same points and pairwise distinct angles are equal. *)
Lemma sorted_perm_eq l1 l2 :
  NoDup (map fst l1) -> Permutation l1 l2 ->
  StronglySorted le_x l1 -> StronglySorted le_x l2 -> l1 = l2.
Proof.
  revert l2; induction l1 as [|p l1 IH]; intros l2 N P S1 S2.
  - apply Permutation_nil in P; auto.
  - destruct l2 as [|q l2]; [apply Permutation_sym, Permutation_nil in P; discriminate|].
    inversion S1 as [|? ? S1' F1]; inversion S2 as [|? ? S2' F2]; subst.
    inversion N as [|? ? N1 N2]; subst.
    assert (p = q) as <-.
    { assert (I1 : In q (p :: l1)) by (apply Permutation_in with (q :: l2); [apply Permutation_sym; auto|left; auto]).
      assert (I2 : In p (q :: l2)) by (apply Permutation_in with (p :: l1); [auto|left; auto]).
      destruct I1 as [|I1]; auto. destruct I2 as [|I2]; auto.
      rewrite Forall_forall in F1, F2. specialize (F1 _ I1). specialize (F2 _ I2).
      unfold le_x in *. exfalso; apply N1. replace (fst p) with (fst q) by lra.
      apply in_map; auto. }
    f_equal. apply IH; auto. apply Permutation_cons_inv with p; auto.
Qed.

Lemma isort_perm_eq l1 l2 :
  NoDup (map fst l1) -> Permutation l1 l2 -> isort l1 = isort l2.
Proof.
  intros N P. apply sorted_perm_eq; try apply isort_sorted.
  - apply Permutation_NoDup with (map fst l1); auto. apply Permutation_map, isort_perm.
  - apply perm_trans with l1; [apply Permutation_sym, isort_perm|].
    apply perm_trans with l2; auto. apply isort_perm.
Qed.

(** Real comparison as booleans, mirroring python's [<], [>] and [==]. *)
Definition Rltb (x y : R) : bool := if Rlt_dec x y then true else false.
Definition Reqb (x y : R) : bool := if Req_EM_T x y then true else false.

Lemma Rltb_true x y : Rltb x y = true <-> x < y.
Proof. unfold Rltb; destruct (Rlt_dec x y); split; intros; try discriminate; auto; contradiction. Qed.
Lemma Rltb_false x y : Rltb x y = false <-> y <= x.
Proof. unfold Rltb; destruct (Rlt_dec x y); split; intros; try discriminate; lra || auto. Qed.
Lemma Reqb_true x y : Reqb x y = true <-> x = y.
Proof. unfold Reqb; destruct (Req_EM_T x y); split; intros; try discriminate; auto; contradiction. Qed.
Lemma Reqb_false x y : Reqb x y = false <-> x <> y.
Proof. unfold Reqb; destruct (Req_EM_T x y); split; intros; try discriminate; auto; contradiction. Qed.
