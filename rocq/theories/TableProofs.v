(** The lookup table holds the Fourier coefficients of cos^c sin^s: each row is
    obtained from a neighbouring row by multiplication with cos or sin. *)
From Coq Require Import List ZArith QArith Qreals Reals Lra Lia Bool.
From Coquelicot Require Import Complex.
From Verif Require Import PyBase CBase Expr ExprProofs LookupTable FormModel FourierBase.
Import ListNotations.
Local Open Scope nat_scope.

Definition qc (q : Q * Q) : C := (Q2R (fst q), Q2R (snd q)).

(** The trigonometric polynomial whose coefficients from frequency a on are l. *)
Fixpoint sem (a : Z) (l : list (Q * Q)) (x : R) : C :=
  match l with
  | [] => RtoC 0
  | q :: l' => Cplus (Cmult (qc q) (cis (IZR a * x))) (sem (a + 1) l' x)
  end.

Lemma sem_app a l l' x : sem a (l ++ l') x = Cplus (sem a l x) (sem (a + Z.of_nat (length l)) l' x).
Proof.
  revert a; induction l as [|q l IH]; intros a; cbn [app sem length].
  - rewrite Z.add_0_r. now rewrite Cplus_0_l.
  - rewrite IH. replace (a + 1 + Z.of_nat (length l))%Z with (a + Z.of_nat (S (length l)))%Z by lia. ring.
Qed.

Lemma qc_0 : qc (0, 0)%Q = RtoC 0.
Proof. unfold qc; simpl. rewrite Q2R_0'. reflexivity. Qed.

Lemma sem_0 a l x : sem a ((0, 0)%Q :: l) x = sem (a + 1) l x.
Proof. simpl. rewrite qc_0. ring. Qed.

Lemma sem_l0 a l x : sem a (l ++ [(0, 0)%Q]) x = sem a l x.
Proof. rewrite sem_app. simpl. rewrite qc_0. ring. Qed.

Definition gplus (p q : Q * Q) : Q * Q := (fst p + fst q, snd p + snd q)%Q.
Definition gminus (p q : Q * Q) : Q * Q := (fst p - fst q, snd p - snd q)%Q.
Definition ghalf (p : Q * Q) : Q * Q := ((1 # 2) * fst p, (1 # 2) * snd p)%Q.
(** times -i/2 *)
Definition gmihalf (p : Q * Q) : Q * Q := ((1 # 2) * snd p, - (1 # 2) * fst p)%Q.
Fixpoint zip (f : Q * Q -> Q * Q -> Q * Q) (l l' : list (Q * Q)) : list (Q * Q) :=
  match l, l' with a :: l, b :: l' => f a b :: zip f l l' | _, _ => [] end.

Definition O2 : list (Q * Q) := [(0, 0); (0, 0)]%Q.
Definition cosmul (l : list (Q * Q)) : list (Q * Q) := map ghalf (zip gplus (O2 ++ l) (l ++ O2)).
Definition sinmul (l : list (Q * Q)) : list (Q * Q) := map gmihalf (zip gminus (O2 ++ l) (l ++ O2)).

Lemma Q2R_half : Q2R (1 # 2) = (/ 2)%R.
Proof. unfold Q2R; simpl. lra. Qed.

Lemma qc_gplus p q : qc (gplus p q) = Cplus (qc p) (qc q).
Proof. unfold qc, gplus; simpl. rewrite !Q2R_plus. reflexivity. Qed.
Lemma qc_gminus p q : qc (gminus p q) = Cminus (qc p) (qc q).
Proof. unfold qc, gminus; simpl. rewrite !Q2R_minus. reflexivity. Qed.
Lemma qc_ghalf p : qc (ghalf p) = Cmult (RtoC (/ 2)) (qc p).
Proof. unfold qc, ghalf; simpl. rewrite !Q2R_mult, Q2R_half. apply C_ext; unfold Re, Im; simpl; ring. Qed.
Lemma qc_gmihalf p : qc (gmihalf p) = Cmult (0, (- / 2))%R (qc p).
Proof.
  unfold qc, gmihalf; cbn [fst snd]. rewrite !Q2R_mult, Q2R_half.
  replace (Q2R (- (1 # 2))) with (- / 2)%R by (unfold Q2R; simpl; lra).
  apply C_ext; unfold Re, Im; simpl; ring.
Qed.

Lemma sem_zip f g a l l' x : (forall p q, qc (f p q) = g (qc p) (qc q)) ->
  (forall u v w z t, Cplus (Cmult (g u v) t) (g w z) = g (Cplus (Cmult u t) w) (Cplus (Cmult v t) z)) ->
  g (RtoC 0) (RtoC 0) = RtoC 0 ->
  length l = length l' -> sem a (zip f l l') x = g (sem a l x) (sem a l' x).
Proof.
  intros F G Z0. revert a l'; induction l as [|p l IH]; intros a [|q l'] E; simpl in *; try discriminate; auto.
  rewrite IH by lia. rewrite F. apply G.
Qed.

Lemma sem_map f c a l x : (forall p, qc (f p) = Cmult c (qc p)) -> sem a (map f l) x = Cmult c (sem a l x).
Proof.
  intros F. revert a; induction l as [|p l IH]; intros a; simpl.
  - ring.
  - rewrite IH, F. ring.
Qed.

Lemma sem_shift a b l x : sem (a + b) l x = Cmult (cis (IZR b * x)) (sem a l x).
Proof.
  revert a; induction l as [|p l IH]; intros a; simpl.
  - ring.
  - replace (a + b + 1)%Z with (a + 1 + b)%Z by lia. rewrite IH, plus_IZR, Rmult_plus_distr_r, cis_plus. ring.
Qed.

Lemma sem_O2l a l x : sem a (O2 ++ l) x = sem (a + 2) l x.
Proof. unfold O2. cbn [app]. rewrite !sem_0. f_equal; lia. Qed.

Lemma sem_lO2 a l x : sem a (l ++ O2) x = sem a l x.
Proof. unfold O2. change [(0, 0)%Q; (0, 0)%Q] with ([(0, 0)%Q] ++ [(0, 0)%Q]). rewrite app_assoc, !sem_l0. auto. Qed.

Lemma cis_p1 x : cis (IZR 1 * x) = (cos x, sin x).
Proof. rewrite Rmult_1_l. reflexivity. Qed.
Lemma cis_m1 x : cis (IZR (-1) * x) = (cos x, - sin x)%R.
Proof. replace (IZR (-1) * x)%R with (- x)%R by ring. unfold cis. now rewrite cos_neg, sin_neg. Qed.

Lemma sem_cosmul a l x : sem (a - 1) (cosmul l) x = Cmult (RtoC (cos x)) (sem a l x).
Proof.
  unfold cosmul. rewrite (sem_map _ _ _ _ _ qc_ghalf).
  rewrite (sem_zip gplus Cplus); [|apply qc_gplus|intros; ring|ring|rewrite !app_length; simpl; lia].
  rewrite sem_O2l, sem_lO2. replace (a - 1 + 2)%Z with (a + 1)%Z by lia.
  replace (a - 1)%Z with (a + -1)%Z by lia. rewrite !sem_shift.
  rewrite cis_p1, cis_m1. destruct (sem a l x) as [u v]. apply C_ext; unfold Re, Im; simpl; field.
Qed.

Lemma sem_sinmul a l x : sem (a - 1) (sinmul l) x = Cmult (RtoC (sin x)) (sem a l x).
Proof.
  unfold sinmul. rewrite (sem_map _ _ _ _ _ qc_gmihalf).
  rewrite (sem_zip gminus Cminus); [|apply qc_gminus|intros; ring|ring|rewrite !app_length; simpl; lia].
  rewrite sem_O2l, sem_lO2. replace (a - 1 + 2)%Z with (a + 1)%Z by lia.
  replace (a - 1)%Z with (a + -1)%Z by lia. rewrite !sem_shift.
  rewrite cis_p1, cis_m1. destruct (sem a l x) as [u v]. apply C_ext; unfold Re, Im; simpl; field.
Qed.

Fixpoint glist_eqb (l l' : list (Q * Q)) : bool :=
  match l, l' with
  | [], [] => true
  | p :: l, q :: l' => Qeq_bool (fst p) (fst q) && Qeq_bool (snd p) (snd q) && glist_eqb l l'
  | _, _ => false
  end.

Lemma glist_eqb_sem l l' a x : glist_eqb l l' = true -> sem a l x = sem a l' x.
Proof.
  revert a l'; induction l as [|p l IH]; intros a [|q l']; simpl; try discriminate; auto.
  intros E. apply andb_true_iff in E as [E E3]. apply andb_true_iff in E as [E1 E2].
  rewrite (IH _ _ E3). apply Qeq_bool_iff in E1, E2. apply Qeq_eqR in E1, E2.
  unfold qc. rewrite E1, E2. reflexivity.
Qed.

Definition pad (l : list (Q * Q)) : list (Q * Q) := (0, 0)%Q :: l ++ [(0, 0)%Q].
Lemma sem_pad a l x : sem (a - 1) (pad l) x = sem a l x.
Proof. unfold pad. rewrite sem_0, sem_l0. f_equal; lia. Qed.

(** A row follows from the row with one cosine or one sine less. *)
Definition row_ok (e : (nat * nat) * list (Q * Q)) : bool :=
  let '((c, s), l) := e in
  (length l =? 33)%nat &&
  match c, s with
  | O, O => glist_eqb l (repeat (0, 0)%Q 16 ++ [(1, 0)%Q] ++ repeat (0, 0)%Q 16)
  | S c', s =>
      match dget (c', s) lookup_table with Some l' => glist_eqb (pad l) (cosmul l') | None => false end
  | O, S s' =>
      match dget (0%nat, s') lookup_table with Some l' => glist_eqb (pad l) (sinmul l') | None => false end
  end.

Lemma table_rows_ok : forallb row_ok lookup_table = true.
Proof. vm_compute. reflexivity. Qed.

Lemma table_complete : forallb (fun c => forallb (fun s => dmem (c, s) lookup_table || negb (c + s <=? 8)%nat) (seq 0 9)) (seq 0 9) = true.
Proof. vm_compute. reflexivity. Qed.

Lemma table_small : forallb (fun e => (fst (fst e) + snd (fst e) <=? 8)%nat) lookup_table = true.
Proof. vm_compute. reflexivity. Qed.

Lemma table_has c s : (c + s <= 8)%nat -> exists l, dget (c, s) lookup_table = Some l.
Proof.
  intros L. generalize table_complete. rewrite forallb_forall. intros H.
  assert (Ic : In c (seq 0 9)) by (apply in_seq; lia). specialize (H c Ic). rewrite forallb_forall in H.
  assert (Is : In s (seq 0 9)) by (apply in_seq; lia). specialize (H s Is).
  apply orb_true_iff in H as [H|H].
  - unfold dmem in H. destruct (dget (c, s) lookup_table) eqn:E; [|discriminate]. eauto.
  - apply negb_true_iff, Nat.leb_gt in H. lia.
Qed.

Lemma table_only c s l : dget (c, s) lookup_table = Some l -> (c + s <= 8)%nat /\ length l = 33%nat.
Proof.
  intros E. apply dget_In in E. generalize table_small table_rows_ok. rewrite !forallb_forall.
  intros H1 H2. specialize (H1 _ E). specialize (H2 _ E). simpl in H1, H2. apply Nat.leb_le in H1.
  apply andb_true_iff in H2 as [H2 _]. apply Nat.eqb_eq in H2. auto.
Qed.

Lemma sem_repeat0 a n l x : sem a (repeat (0, 0)%Q n ++ l) x = sem (a + Z.of_nat n) l x.
Proof.
  revert a; induction n as [|n IH]; intros a; cbn [repeat app].
  - rewrite Z.add_0_r; auto.
  - rewrite sem_0, IH. f_equal; lia.
Qed.

Theorem table_sem c s l x : dget (c, s) lookup_table = Some l ->
  sem (-16) l x = Cmult (Cpow (RtoC (cos x)) c) (Cpow (RtoC (sin x)) s).
Proof.
  revert s l. induction c as [|c IHc].
  - induction s as [|s IHs]; intros l E.
    + generalize (dget_In _ _ _ E). intros I. generalize table_rows_ok. rewrite forallb_forall.
      intros H. specialize (H _ I). unfold row_ok in H. apply andb_true_iff in H as [_ H].
      rewrite (glist_eqb_sem _ _ _ _ H), sem_repeat0. cbn [app].
      change ((1, 0)%Q :: repeat (0, 0)%Q 16) with ([(1, 0)%Q] ++ repeat (0, 0)%Q 16).
      rewrite sem_app. rewrite <- (app_nil_r (repeat _ 16)), sem_repeat0. simpl.
      unfold qc; simpl. rewrite Q2R_0', Q2R_1', Rmult_0_l, cis_0. apply C_ext; unfold Re, Im; simpl; ring.
    + generalize (dget_In _ _ _ E). intros I. generalize table_rows_ok. rewrite forallb_forall.
      intros H. specialize (H _ I). unfold row_ok in H. apply andb_true_iff in H as [_ H].
      destruct (dget (0%nat, s) lookup_table) as [l'|] eqn:E'; [|discriminate].
      rewrite <- sem_pad, (glist_eqb_sem _ _ _ _ H), sem_sinmul, (IHs _ eq_refl). simpl. ring.
  - intros s l E.
    generalize (dget_In _ _ _ E). intros I. generalize table_rows_ok. rewrite forallb_forall.
    intros H. specialize (H _ I). unfold row_ok in H. apply andb_true_iff in H as [_ H].
    destruct (dget (c, s) lookup_table) as [l'|] eqn:E'; [|discriminate].
    rewrite <- sem_pad, (glist_eqb_sem _ _ _ _ H), sem_cosmul, (IHc _ _ E'). simpl. ring.
Qed.

(** The polynomial as a sum over frequencies. *)
Lemma sem_Csum l : forall a x, sem a l x =
  Csum (fun m => Cmult (qc (nth (Z.to_nat (m - a)) l (0, 0)%Q)) (cis (IZR m * x))) (zrange a (a + Z.of_nat (length l))).
Proof.
  induction l as [|p l IH]; intros a x.
  - unfold zrange. simpl. replace (Z.to_nat (a + 0 - a)) with 0%nat by lia. reflexivity.
  - cbn [sem length]. rewrite IH.
    assert (Z : zrange a (a + Z.of_nat (S (length l))) = a :: zrange (a + 1) (a + 1 + Z.of_nat (length l))).
    { unfold zrange. replace (Z.to_nat (a + Z.of_nat (S (length l)) - a)) with (S (length l)) by lia.
      replace (Z.to_nat (a + 1 + Z.of_nat (length l) - (a + 1))) with (length l) by lia.
      cbn [seq map]. f_equal; [lia|]. rewrite <- seq_shift, map_map. apply map_ext. intros; lia. }
    rewrite Z. cbn [Csum fold_right]. rewrite Z.sub_diag. cbn [Z.to_nat nth]. f_equal.
    apply Csum_ext_in. intros m Im. apply In_zrange in Im.
    replace (Z.to_nat (m - a)) with (S (Z.to_nat (m - (a + 1)))) by lia. reflexivity.
Qed.

Theorem table_coefficient c s l n : dget (c, s) lookup_table = Some l -> (-16 <= n <= 16)%Z ->
  qc (nth (Z.to_nat (n + 16)) l (0, 0)%Q) =
  fourier_coefficient (fun x => Cmult (Cpow (RtoC (cos x)) c) (Cpow (RtoC (sin x)) s)) n.
Proof.
  intros E L. destruct (table_only _ _ _ E) as [_ Len].
  rewrite (fourier_coefficient_ext _ (fun x => Csum (fun m => Cmult (qc (nth (Z.to_nat (m - -16)) l (0, 0)%Q)) (cis (IZR m * x))) (zrange (-16) (-16 + Z.of_nat (length l))))).
  - rewrite coefficient_trig by apply NoDup_zrange.
    destruct (in_dec Z.eq_dec n _) as [I|NI].
    + replace (n - -16)%Z with (n + 16)%Z by lia. reflexivity.
    + exfalso; apply NI. apply In_zrange. rewrite Len. lia.
  - intros x. rewrite <- (table_sem _ _ _ x E). apply sem_Csum.
Qed.
