(** Rounding the numbers of an expression. *)
From Coq Require Import List Arith ZArith QArith Qreals Qround Qabs Reals Lra Lia Bool.
From Coq Require Lqa.
From Coquelicot Require Import Complex.
From Verif Require Import PyBase CBase Expr ExprProofs SpecForm UtilModel FformgenModel SpecRound.
Import ListNotations.
Local Open Scope nat_scope.

Lemma Q2R_inject z : Q2R (inject_Z z) = IZR z.
Proof. unfold Q2R, inject_Z. simpl. field. Qed.
Lemma scale_pos nd : (0 < 10 ^ Z.of_nat nd)%Z.
Proof. apply Z.pow_pos_nonneg; lia. Qed.
Lemma Q2R_scale nd : Q2R (inject_Z (10 ^ Z.of_nat nd)) = (10 ^ nd)%R.
Proof. rewrite Q2R_inject. rewrite <- pow_IZR. reflexivity. Qed.

Lemma nearest_err q : (Rabs (IZR (round_half_even q) - Q2R q) <= / 2)%R.
Proof.
  unfold round_half_even. pose proof (Qfloor_le q) as L. pose proof (Qlt_floor q) as U.
  set (f := Qfloor q) in *.
  apply Qle_Rle in L. rewrite Q2R_inject in L. apply Qlt_Rlt in U. rewrite Q2R_inject, plus_IZR in U.
  assert (D : Q2R (q - inject_Z f) = (Q2R q - IZR f)%R) by (rewrite Q2R_minus, Q2R_inject; auto).
  assert (H : Q2R (1 # 2) = (/ 2)%R) by (unfold Q2R; simpl; lra).
  destruct (Qle_bool (q - inject_Z f) (1 # 2)) eqn:B1.
  - apply Qle_bool_iff, Qle_Rle in B1. rewrite D, H in B1.
    destruct (Qeq_bool (q - inject_Z f) (1 # 2)) eqn:B2.
    + apply Qeq_bool_eq, Qeq_eqR in B2. rewrite D, H in B2.
      destruct (Z.even f); [|rewrite plus_IZR]; [rewrite Rabs_left1|rewrite Rabs_right]; lra.
    + rewrite Rabs_left1; lra.
  - assert (B3 : (1 # 2 < q - inject_Z f)%Q).
    { apply Qnot_le_lt. intros X. apply Qle_bool_iff in X. congruence. }
    apply Qlt_Rlt in B3. rewrite D, H in B3. rewrite plus_IZR, Rabs_right; lra.
Qed.

Lemma Q2R_qround nd q : Q2R (qround nd q) = (IZR (round_half_even (q * inject_Z (10 ^ Z.of_nat nd))) / 10 ^ nd)%R.
Proof.
  unfold qround. rewrite Q2R_div, Q2R_inject, Q2R_scale; auto.
  intros E. apply Qeq_eqR in E. rewrite Q2R_scale, RMicromega.Q2R_0 in E. pose proof (pow_lt 10 nd ltac:(lra)). lra.
Qed.

Lemma qround_err nd q : (Rabs (Q2R (qround nd q) - Q2R q) <= half_unit nd)%R.
Proof.
  rewrite Q2R_qround. pose proof (nearest_err (q * inject_Z (10 ^ Z.of_nat nd))) as E.
  rewrite Q2R_mult, Q2R_scale in E. assert (P : (0 < 10 ^ nd)%R) by (apply pow_lt; lra).
  set (z := IZR _) in *. replace (z / 10 ^ nd - Q2R q)%R with ((z - Q2R q * 10 ^ nd) * / 10 ^ nd)%R by (field; lra).
  rewrite Rabs_mult, (Rabs_right (/ 10 ^ nd)) by (apply Rle_ge, Rlt_le, Rinv_0_lt_compat; auto).
  unfold half_unit. apply Rmult_le_compat_r; [apply Rlt_le, Rinv_0_lt_compat; auto|exact E].
Qed.

Lemma nearest_int q z : (q == inject_Z z)%Q -> round_half_even q = z.
Proof.
  intros E. unfold round_half_even. rewrite (Qfloor_comp _ _ E), Qfloor_Z.
  assert (D : (q - inject_Z z == 0)%Q) by (rewrite E; ring).
  replace (Qle_bool (q - inject_Z z) (1 # 2)) with true by (symmetry; apply Qle_bool_iff; rewrite D; discriminate).
  destruct (Qeq_bool (q - inject_Z z) (1 # 2)) eqn:B; auto.
  apply Qeq_bool_eq in B. rewrite D in B. discriminate.
Qed.

Lemma qround_short nd q : short nd q -> Q2R (qround nd q) = Q2R q.
Proof.
  intros [z E]. rewrite Q2R_qround, (nearest_int _ z E). apply Qeq_eqR in E. rewrite Q2R_mult, Q2R_scale, Q2R_inject in E.
  rewrite <- E. field. apply pow_nonzero. lra.
Qed.

Lemma round_short nd rho e : short_numbers nd e -> eval rho (round_numbers nd e) = eval rho e.
Proof.
  induction e as [a b|s|l IH|l IH|b n IH|e IH|e IH|e IH|e IH|e IH] using expr_ind'; intros S; inversion_clear S; cbn [round_numbers eval].
  - f_equal; apply qround_short; auto.
  - reflexivity.
  - rewrite map_map. f_equal. apply map_ext_in. intros e I. rewrite Forall_forall in IH. auto.
  - rewrite map_map. f_equal. apply map_ext_in. intros e I. rewrite Forall_forall in IH. auto.
  - rewrite IH; auto.
  - rewrite IH; auto.
  - rewrite IH; auto.
  - rewrite IH; auto.
  - rewrite IH; auto.
  - rewrite IH; auto.
Qed.

Lemma round_syms nd e : syms (round_numbers nd e) = syms e.
Proof.
  induction e as [a b|s|l IH|l IH|b n IH|e IH|e IH|e IH|e IH|e IH] using expr_ind'; cbn [round_numbers syms]; auto.
  - induction IH as [|x l Hx _ IH]; simpl; auto. rewrite Hx, IH. reflexivity.
  - induction IH as [|x l Hx _ IH]; simpl; auto. rewrite Hx, IH. reflexivity.
Qed.

Lemma Cmod_parts (x y u v : R) : (Cmod (Cminus (x, y) (u, v)) <= Rabs (x - u) + Rabs (y - v))%R.
Proof.
  replace (Cminus (x, y) (u, v)) with (Cplus (RtoC (x - u)) (Cmult Ci (RtoC (y - v)))) by (apply C_ext; unfold Re, Im; simpl; ring).
  eapply Rle_trans; [apply Cmod_triangle|]. rewrite Cmod_mult, !Cmod_R.
  replace (Cmod Ci) with 1%R; [lra|]. unfold Cmod, Ci. cbn [fst snd]. replace (0 ^ 2 + 1 ^ 2)%R with 1%R by ring. rewrite sqrt_1. reflexivity.
Qed.

(** One coefficient. *)
Definition coefficient_error (nd : nat) (c : Q * Q) : R :=
  (Rabs (Q2R (qround nd (fst c)) - Q2R (fst c)) + Rabs (Q2R (qround nd (snd c)) - Q2R (snd c)))%R.

Lemma weighted_error nd rho c fs : (forall f, In f fs -> short_numbers nd f) ->
  (Cmod (Cminus (eval rho (round_numbers nd (weighted (c, fs)))) (eval rho (weighted (c, fs)))) <= coefficient_error nd c * Cmod (eval rho (EMul fs)))%R.
Proof.
  intros S. unfold weighted. cbn [fst snd round_numbers map eval fold_right].
  assert (E : map (eval rho) (map (round_numbers nd) fs) = map (eval rho) fs).
  { rewrite map_map. apply map_ext_in. intros f I. apply round_short. auto. }
  rewrite E. set (p := fold_right Cmult (RtoC 1) (map (eval rho) fs)).
  replace (Cminus (Cmult (Q2R (qround nd (fst c)), Q2R (qround nd (snd c))) p) (Cmult (Q2R (fst c), Q2R (snd c)) p))
    with (Cmult (Cminus (Q2R (qround nd (fst c)), Q2R (qround nd (snd c))) (Q2R (fst c), Q2R (snd c))) p) by ring.
  rewrite Cmod_mult. apply Rmult_le_compat_r; [apply Cmod_ge_0|]. apply Cmod_parts.
Qed.

Lemma expanded_error nd rho e ts b : expanded_as nd e ts -> (0 <= b)%R -> (forall c fs, In (c, fs) ts -> (coefficient_error nd c <= b)%R) ->
  (Cmod (Cminus (eval rho (round_numbers nd e)) (eval rho e)) <= b * spread rho ts)%R.
Proof.
  intros [-> S] B H. cbn [round_numbers eval]. unfold spread. rewrite !map_map.
  induction ts as [|[c fs] ts IH].
  - cbn [map fold_right]. replace (Cminus (RtoC 0) (RtoC 0)) with (RtoC 0) by ring. rewrite Cmod_0. lra.
  - specialize (IH ltac:(intros c' fs' f I; apply (S c' fs'); right; exact I) ltac:(intros c' fs' I; apply (H c' fs'); right; exact I)).
    cbn [map fold_right snd].
    set (x := eval rho (round_numbers nd (weighted (c, fs)))). set (y := eval rho (weighted (c, fs))).
    set (u := fold_right Cplus (RtoC 0) (map (fun t => eval rho (round_numbers nd (weighted t))) ts)) in *.
    set (v := fold_right Cplus (RtoC 0) (map (fun t => eval rho (weighted t)) ts)) in *.
    replace (Cminus (Cplus x u) (Cplus y v)) with (Cplus (Cminus x y) (Cminus u v)) by ring.
    eapply Rle_trans; [apply Cmod_triangle|]. rewrite Rmult_plus_distr_l. apply Rplus_le_compat.
    + eapply Rle_trans; [apply weighted_error; intros f I; apply (S c fs f); [left; reflexivity|exact I]|].
      apply Rmult_le_compat_r; [apply Cmod_ge_0|]. apply (H c fs). left; reflexivity.
    + exact IH.
Qed.

Lemma half_unit_pos nd : (0 < half_unit nd)%R.
Proof. unfold half_unit. apply Rmult_lt_0_compat; [lra|apply Rinv_0_lt_compat, pow_lt; lra]. Qed.

Lemma any_coefficient nd c : (coefficient_error nd c <= 2 * half_unit nd)%R.
Proof. unfold coefficient_error. pose proof (qround_err nd (fst c)). pose proof (qround_err nd (snd c)). lra. Qed.
Lemma real_coefficient nd c : (snd c == 0)%Q -> (coefficient_error nd c <= half_unit nd)%R.
Proof.
  intros E. unfold coefficient_error. pose proof (qround_err nd (fst c)).
  rewrite (qround_short nd (snd c)) by (exists 0%Z; rewrite E; apply Qmult_0_l).
  rewrite (Rminus_diag_eq (Q2R (snd c)) (Q2R (snd c))), Rabs_R0 by auto. lra.
Qed.
Lemma imaginary_coefficient nd c : (fst c == 0)%Q -> (coefficient_error nd c <= half_unit nd)%R.
Proof.
  intros E. unfold coefficient_error. pose proof (qround_err nd (snd c)).
  rewrite (qround_short nd (fst c)) by (exists 0%Z; rewrite E; apply Qmult_0_l).
  rewrite (Rminus_diag_eq (Q2R (fst c)) (Q2R (fst c))), Rabs_R0 by auto. lra.
Qed.

(** ** The contraction step *)
Section Contracted.
Variables ev expand : expr -> expr.

Lemma contracted_rounded prefix fs d q M nd :
  contracted_dict ev expand prefix fs d q M (Some nd) =
  do D <- contracted_dict ev expand prefix fs d q M None; Ok (dmap (map (round_expr ev expand nd)) D).
Proof.
  unfold contracted_dict. destruct (assert_real_params d); [|reflexivity]. cbn [bind]. destruct (assert_real_params q); [|reflexivity]. cbn [bind].
  destruct (mapM _ pcs) as [l|]; [|reflexivity]. cbn [bind].
  induction l as [|[pc t] l IH]; [reflexivity|]. cbn [mapM fst snd].
  destruct (contract_terms _ _ _ _ _ _ _); [|reflexivity]. cbn [bind]. rewrite IH. clear IH. destruct (mapM _ l); reflexivity.
Qed.
End Contracted.

Lemma qround_is_short nd q : short nd (qround nd q).
Proof.
  exists (round_half_even (q * inject_Z (10 ^ Z.of_nat nd))). unfold qround.
  field. intros E. unfold Qeq, inject_Z in E. simpl in E. pose proof (scale_pos nd). lia.
Qed.
Lemma round_is_short nd e : short_numbers nd (round_numbers nd e).
Proof.
  induction e as [a b|s|l IH|l IH|b n IH|e IH|e IH|e IH|e IH|e IH] using expr_ind'; cbn [round_numbers]; constructor; auto using qround_is_short.
  - intros e I. apply in_map_iff in I as (x & <- & I). rewrite Forall_forall in IH. auto.
  - intros e I. apply in_map_iff in I as (x & <- & I). rewrite Forall_forall in IH. auto.
Qed.

Lemma nearest_even_int q : (Qabs (inject_Z (round_half_even q) - q) <= 1 # 2)%Q /\ ((Qabs (inject_Z (round_half_even q) - q) == 1 # 2)%Q -> Z.Even (round_half_even q)).
Proof.
  unfold round_half_even. pose proof (Qfloor_le q) as L. pose proof (Qlt_floor q) as U.
  set (f := Qfloor q) in *. clearbody f. assert (E1 : (inject_Z (f + 1) == inject_Z f + 1)%Q) by (rewrite inject_Z_plus; reflexivity).
  destruct (Qle_bool (q - inject_Z f) (1 # 2)) eqn:B1.
  { apply Qle_bool_iff in B1. destruct (Qeq_bool (q - inject_Z f) (1 # 2)) eqn:B2.
    { apply Qeq_bool_eq in B2. destruct (Z.even f) eqn:Ev.
      { split; [apply Qabs_Qle_condition; split; Lqa.lra|]. intros _. apply Z.even_spec. exact Ev. }
      split; [apply Qabs_Qle_condition; split; Lqa.lra|]. intros _. apply Z.even_spec. rewrite Z.even_add, Ev. reflexivity. }
    apply Qeq_bool_neq in B2. split; [apply Qabs_Qle_condition; split; Lqa.lra|].
    intros X. exfalso. apply B2. rewrite Qabs_neg in X by Lqa.lra. Lqa.lra. }
  assert (B3 : (1 # 2 < q - inject_Z f)%Q).
  { apply Qnot_le_lt. intros X. apply Qle_bool_iff in X. congruence. }
  split; [apply Qabs_Qle_condition; split; Lqa.lra|]. intros X. exfalso. rewrite Qabs_pos in X by Lqa.lra. Lqa.lra.
Qed.
Lemma qround_nearest nd q : nearest_even nd q (qround nd q).
Proof.
  exists (round_half_even (q * inject_Z (10 ^ Z.of_nat nd))). split; [|apply nearest_even_int].
  unfold qround. field. intros E. unfold Qeq, inject_Z in E. simpl in E. pose proof (scale_pos nd). lia.
Qed.
Lemma round_renumbers nd e : renumbered (nearest_even nd) e (round_numbers nd e).
Proof.
  induction e as [a b|s|l IH|l IH|b n IH|e IH|e IH|e IH|e IH|e IH] using expr_ind'; cbn [round_numbers]; constructor; auto using qround_nearest.
  - induction IH; constructor; auto.
  - induction IH; constructor; auto.
Qed.
(** Two such roundings are the same number. *)
Lemma nearest_even_unique nd q r r' : nearest_even nd q r -> nearest_even nd q r' -> (r == r')%Q.
Proof.
  intros (z & E & A & T) (z' & E' & A' & T').
  assert (N : ~ (inject_Z (10 ^ Z.of_nat nd) == 0)%Q).
  { intros X. unfold Qeq, inject_Z in X. simpl in X. pose proof (scale_pos nd). lia. }
  enough (z = z') by (subst z'; apply (Qmult_inj_r _ _ _ N); rewrite E, E'; reflexivity).
  set (x := (q * inject_Z (10 ^ Z.of_nat nd))%Q) in *. clearbody x. clear E E' N.
  apply Qabs_Qle_condition in A as [A1 A2]. assert (AB := A'). apply Qabs_Qle_condition in AB as [B1 B2].
  destruct (Z.lt_trichotomy z z') as [L|[L|L]]; [exfalso|exact L|exfalso].
  - assert (D : (inject_Z z + 1 <= inject_Z z')%Q) by (change 1%Q with (inject_Z 1); rewrite <- (inject_Z_plus z 1), <- Zle_Qle; lia).
    assert (E1 : (inject_Z z - x == - (1 # 2))%Q) by Lqa.lra. assert (E2 : (inject_Z z' - x == 1 # 2)%Q) by Lqa.lra.
    assert (F : (inject_Z (z' - z) == inject_Z 1)%Q) by (unfold Z.sub; rewrite inject_Z_plus, inject_Z_opp; change (inject_Z 1) with 1%Q; Lqa.lra).
    assert (G : z' = (z + 1)%Z) by (unfold Qeq, inject_Z in F; simpl in F; lia).
    destruct T as [u Hu]; [rewrite E1; reflexivity|]. destruct T' as [v Hv]; [rewrite E2; reflexivity|]. lia.
  - assert (D : (inject_Z z' + 1 <= inject_Z z)%Q) by (change 1%Q with (inject_Z 1); rewrite <- (inject_Z_plus z' 1), <- Zle_Qle; lia).
    assert (E1 : (inject_Z z' - x == - (1 # 2))%Q) by Lqa.lra. assert (E2 : (inject_Z z - x == 1 # 2)%Q) by Lqa.lra.
    assert (F : (inject_Z (z - z') == inject_Z 1)%Q) by (unfold Z.sub; rewrite inject_Z_plus, inject_Z_opp; change (inject_Z 1) with 1%Q; Lqa.lra).
    assert (G : z = (z' + 1)%Z) by (unfold Qeq, inject_Z in F; simpl in F; lia).
    destruct T as [u Hu]; [rewrite E2; reflexivity|]. destruct T' as [v Hv]; [rewrite E1; reflexivity|]. lia.
Qed.

(** ** A rounded series *)
Lemma Cexpi_mod m x : Cmod (Cexpi (Cmult (RtoC (IZR m)) (RtoC x))) = 1%R.
Proof.
  replace (Cmult (RtoC (IZR m)) (RtoC x)) with (RtoC (IZR m * x)) by (apply C_ext; unfold Re, Im; simpl; ring).
  unfold Cexpi. rewrite Cmod_mult, Cmod_R. unfold Im, Re, RtoC. cbn [fst snd]. rewrite Ropp_0, exp_0, Rabs_R1.
  unfold Cmod, cis. cbn [fst snd]. set (t := (IZR m * x)%R). replace (cos t ^ 2 + sin t ^ 2)%R with 1%R; [rewrite sqrt_1; ring|].
  pose proof (sin2_cos2 t). unfold Rsqr in H. rewrite <- H. ring.
Qed.

Lemma series_error rho rho' (b : R) (f : expr -> expr) r : forall tss zs x, length zs = length r ->
  Forall2 (fun e ts => (Cmod (Cminus (eval rho (f e)) (eval rho e)) <= b * spread rho' ts)%R) r tss ->
  (Cmod (Cminus (Csum (fun mc => Cmult (snd mc) (Cexpi (Cmult (RtoC (IZR (fst mc))) (RtoC x)))) (combine zs (map (eval rho) (map f r))))
               (Csum (fun mc => Cmult (snd mc) (Cexpi (Cmult (RtoC (IZR (fst mc))) (RtoC x)))) (combine zs (map (eval rho) r))))
   <= b * fold_right Rplus 0%R (map (spread rho') tss))%R.
Proof.
  induction r as [|e r IH]; intros tss zs x L H; inversion H as [|? ts ? tss' H1 H2]; subst; destruct zs as [|m zs]; try discriminate.
  - cbn [map combine Csum fold_right]. replace (Cminus (RtoC 0) (RtoC 0)) with (RtoC 0) by ring. rewrite Cmod_0. lra.
  - specialize (IH tss' zs x ltac:(simpl in L; lia) H2). cbn [map combine Csum fold_right fst snd].
    set (z := Cexpi _). unfold Csum in IH.
    match type of IH with (Cmod (Cminus ?u ?v) <= _)%R => set (A := u) in *; set (B := v) in * end.
    replace (Cminus (Cplus (Cmult (eval rho (f e)) z) A) (Cplus (Cmult (eval rho e) z) B))
      with (Cplus (Cmult (Cminus (eval rho (f e)) (eval rho e)) z) (Cminus A B)) by ring.
    eapply Rle_trans; [apply Cmod_triangle|]. rewrite Rmult_plus_distr_l. apply Rplus_le_compat; [|exact IH].
    rewrite Cmod_mult. unfold z. rewrite Cexpi_mod, Rmult_1_r. exact H1.
Qed.
