(** The evaluation of SpecParts is sound and leaves no real or imaginary part of
    a formula in real parameters. *)
From Coq Require Import String List Arith ZArith Bool Reals QArith Qreals Lra Lia.
From Coquelicot Require Import Complex.
From Verif Require Import PyBase RMod CBase Expr ExprProofs FormModel FormProofs FitModel SpecFit FitProofs FitProofs3 SpecParts.
Import ListNotations.
Local Open Scope nat_scope.

Lemma all_some_Forall2 {A B} (f : A -> option B) l ps : all_some (map f l) = Some ps -> Forall2 (fun a p => f a = Some p) l ps.
Proof.
  revert ps. induction l as [|a l IH]; intros ps E; cbn [map all_some] in E; [injection E as <-; constructor|].
  destruct (f a) as [p|] eqn:Ea; [|discriminate]. destruct (all_some (map f l)) as [qs|]; cbn [option_map] in E; [|discriminate].
  injection E as <-. constructor; [exact Ea|apply IH; reflexivity].
Qed.
Lemma all_some_total {A B} (f : A -> option B) l : Forall (fun a => exists p, f a = Some p) l -> exists ps, all_some (map f l) = Some ps.
Proof.
  induction 1 as [|a l (p & E) F (ps & IH)]; [exists []; reflexivity|]. cbn [map all_some]. rewrite E, IH. cbn. eauto.
Qed.
Lemma declared_real_iff s : declared_real s = true <-> sreal s = Some true.
Proof. unfold declared_real. destruct (sreal s) as [[]|]; split; intros E; congruence. Qed.

Lemma real_C (z : C) : Im z = 0%R -> z = RtoC (Re z).
Proof. destruct z as (a, b). cbn. intros ->. reflexivity. Qed.
Lemma Im_mult (z w : C) : Im z = 0%R -> Im w = 0%R -> Im (Cmult z w) = 0%R.
Proof. intros A B. rewrite (real_C z A), (real_C w B). cbn. ring. Qed.
Section Values.
Variables (rho : sym -> C) (xs : nat -> R).
Hypothesis RES : respects rho.
Notation v := (keval rho xs).

Lemma visibly_real_ok e : visibly_real e = true -> Im (v e) = 0%R.
Proof.
  induction e as [z|s|i|l F|l F|b n IH|e IH|e IH|e IH|e IH|e IH] using code_deep; cbn [visibly_real keval]; intros E; try discriminate.
  - apply Reqb_true in E. exact E.
  - apply RES. apply declared_real_iff. exact E.
  - induction F as [|a l A F IH]; cbn [map fold_right]; [reflexivity|]. cbn [forallb] in E. apply andb_true_iff in E as (E1 & E2).
    specialize (A E1). specialize (IH E2). rewrite (real_C _ A), (real_C _ IH). cbn. ring.
  - induction F as [|a l A F IH]; cbn [map fold_right]; [reflexivity|]. cbn [forallb] in E. apply andb_true_iff in E as (E1 & E2).
    specialize (A E1). specialize (IH E2). rewrite (real_C _ A), (real_C _ IH). cbn. ring.
  - specialize (IH E). induction n as [|n IHn]; [reflexivity|]. change (Cpow (v b) (S n)) with (Cmult (v b) (Cpow (v b) n)). apply Im_mult; assumption.
  - specialize (IH E). rewrite (real_C _ IH). rewrite Ccos_R. reflexivity.
  - specialize (IH E). rewrite (real_C _ IH). rewrite Csin_R. reflexivity.
Qed.

Definition split_value (z : C) (p : code * code) : Prop := v (fst p) = RtoC (Re z) /\ v (snd p) = RtoC (Im z).
Lemma part_mul_ok z w p q : split_value z p -> split_value w q -> split_value (Cmult z w) (part_mul p q).
Proof.
  intros (A & B) (C0 & D). unfold split_value, part_mul. cbn [fst snd keval map fold_right]. rewrite A, B, C0, D. split; apply C_ext; unfold Re, Im; simpl; ring.
Qed.
Lemma one_ok : split_value (RtoC 1) part_one.
Proof. split; reflexivity. Qed.
Lemma parts_ok e p : parts e = Some p -> split_value (v e) p.
Proof.
  revert p. induction e as [z|s|i|l F|l F|b n IH|e IH|e IH|e IH|e IH|e IH] using code_deep; cbn [parts keval]; intros p E.
  - injection E as <-. split; reflexivity.
  - destruct (declared_real s) eqn:D; [|discriminate]. injection E as <-. apply declared_real_iff in D. split; cbn [fst snd keval].
    + apply real_C. apply RES. exact D.
    + rewrite (RES s D). reflexivity.
  - discriminate.
  - destruct (all_some (map parts l)) as [ps|] eqn:A; cbn [option_map] in E; [|discriminate]. injection E as <-. apply all_some_Forall2 in A.
    induction A as [|a q l ps Ea A IH]; [split; reflexivity|]. apply Forall_inv in F as Fa. apply Forall_inv_tail in F. specialize (IH F).
    destruct IH as (I1 & I2). destruct (Fa q Ea) as (J1 & J2). unfold split_value in *. cbn [fst snd keval map fold_right] in *. rewrite I1, I2, J1, J2.
    split; apply C_ext; unfold Re, Im; simpl; ring.
  - destruct (all_some (map parts l)) as [ps|] eqn:A; cbn [option_map] in E; [|discriminate]. injection E as <-. apply all_some_Forall2 in A.
    induction A as [|a q l ps Ea A IH]; [exact one_ok|]. apply Forall_inv in F as Fa. apply Forall_inv_tail in F. specialize (IH F).
    cbn [map fold_right]. apply part_mul_ok; [exact (Fa q Ea)|exact IH].
  - destruct (parts b) as [q|]; cbn [option_map] in E; [|discriminate]. injection E as <-. specialize (IH q eq_refl).
    induction n as [|n IHn]; [exact one_ok|]. cbn [Nat.iter nat_rect]. change (Cpow (v b) (S n)) with (Cmult (v b) (Cpow (v b) n)).
    apply part_mul_ok; [exact IH|exact IHn].
  - destruct (visibly_real e) eqn:D; [|discriminate]. injection E as <-. apply visibly_real_ok in D. unfold split_value. cbn [fst snd keval].
    rewrite (real_C _ D), Ccos_R. split; reflexivity.
  - destruct (visibly_real e) eqn:D; [|discriminate]. injection E as <-. apply visibly_real_ok in D. unfold split_value. cbn [fst snd keval].
    rewrite (real_C _ D), Csin_R. split; reflexivity.
  - destruct (parts e) as [q|]; cbn [option_map] in E; [|discriminate]. injection E as <-. destruct (IH q eq_refl) as (A & B). unfold split_value.
    cbn [fst snd keval map fold_right]. rewrite A, B. split; apply C_ext; unfold Re, Im; simpl; ring.
  - destruct (parts e) as [q|]; cbn [option_map] in E; [|discriminate]. injection E as <-. destruct (IH q eq_refl) as (A & B). unfold split_value.
    cbn [fst snd keval]. rewrite A. split; reflexivity.
  - destruct (parts e) as [q|]; cbn [option_map] in E; [|discriminate]. injection E as <-. destruct (IH q eq_refl) as (A & B). unfold split_value.
    cbn [fst snd keval]. rewrite B. split; reflexivity.
Qed.
End Values.

(** Symbols and elements do not appear from nowhere; no part is left. *)
Section Occur.
Context {X : Type} (f : code -> list X).
Hypothesis fN : forall z, f (KNum z) = [].
Hypothesis fA : forall l, f (KAdd l) = flat_map f l.
Hypothesis fM : forall l, f (KMul l) = flat_map f l.
Hypothesis fP : forall b n, f (KPow b n) = f b.
Hypothesis fC : forall e, f (KConj e) = f e.
Hypothesis fR : forall e, f (KRe e) = f e.
Hypothesis fI : forall e, f (KIm e) = f e.
Definition within (l : list X) (p : code * code) : Prop := incl (f (fst p)) l /\ incl (f (snd p)) l.
Lemma times_within l p q : within l p -> within l q -> within l (part_mul p q).
Proof.
  intros (A & B) (C0 & D). split; cbn [part_mul fst snd]; rewrite fA; cbn [flat_map]; rewrite !fM; cbn [flat_map]; rewrite ?fN, ?app_nil_r; cbn [app];
    repeat apply incl_app; auto; try (intros ? []).
Qed.
Lemma one_within l : within l part_one.
Proof. split; cbn [part_one fst snd]; rewrite fN; intros ? []. Qed.
Lemma within_mono l l' p : incl l l' -> within l p -> within l' p.
Proof. intros I (A & B). split; eapply incl_tran; eauto. Qed.
Lemma parts_within e p : parts e = Some p -> within (f e) p.
Proof.
  revert p. induction e as [z|s|i|l F|l F|b n IH|e IH|e IH|e IH|e IH|e IH] using code_deep; cbn [parts]; intros p E.
  - injection E as <-. split; cbn [fst snd]; rewrite fN; intros ? [].
  - destruct (declared_real s); [|discriminate]. injection E as <-. split; cbn [fst snd]; [apply incl_refl|rewrite fN; intros ? []].
  - discriminate.
  - destruct (all_some (map parts l)) as [ps|] eqn:A; cbn [option_map] in E; [|discriminate]. injection E as <-. apply all_some_Forall2 in A.
    unfold within. cbn [fst snd]. rewrite !fA. induction A as [|a q l ps Ea A IH]; [split; apply incl_refl|].
    apply Forall_inv in F as Fa. apply Forall_inv_tail in F. destruct (IH F) as (I1 & I2). destruct (Fa q Ea) as (J1 & J2).
    cbn [map flat_map]. split; apply incl_app; solve [apply incl_appl; assumption|apply incl_appr; assumption].
  - destruct (all_some (map parts l)) as [ps|] eqn:A; cbn [option_map] in E; [|discriminate]. injection E as <-. apply all_some_Forall2 in A.
    rewrite fM. induction A as [|a q l ps Ea A IH]; [apply one_within|]. apply Forall_inv in F as Fa. apply Forall_inv_tail in F. specialize (IH F).
    cbn [fold_right flat_map]. apply times_within; [apply (within_mono (f a)); [apply incl_appl, incl_refl|exact (Fa q Ea)]|].
    apply (within_mono (flat_map f l)); [apply incl_appr, incl_refl|exact IH].
  - destruct (parts b) as [q|]; cbn [option_map] in E; [|discriminate]. injection E as <-. rewrite fP. specialize (IH q eq_refl).
    induction n as [|n IHn]; [apply one_within|]. cbn [Nat.iter nat_rect]. apply times_within; [exact IH|exact IHn].
  - destruct (visibly_real e); [|discriminate]. injection E as <-. split; cbn [fst snd]; [apply incl_refl|rewrite fN; intros ? []].
  - destruct (visibly_real e); [|discriminate]. injection E as <-. split; cbn [fst snd]; [apply incl_refl|rewrite fN; intros ? []].
  - destruct (parts e) as [q|]; cbn [option_map] in E; [|discriminate]. injection E as <-. rewrite fC. destruct (IH q eq_refl) as (A & B).
    split; cbn [fst snd]; [exact A|]. rewrite fM. cbn [flat_map]. rewrite fN, app_nil_r. exact B.
  - destruct (parts e) as [q|]; cbn [option_map] in E; [|discriminate]. injection E as <-. rewrite fR. destruct (IH q eq_refl) as (A & B).
    split; cbn [fst snd]; [exact A|rewrite fN; intros ? []].
  - destruct (parts e) as [q|]; cbn [option_map] in E; [|discriminate]. injection E as <-. rewrite fI. destruct (IH q eq_refl) as (A & B).
    split; cbn [fst snd]; [exact B|rewrite fN; intros ? []].
Qed.
Lemma take_within e : incl (f (take_parts e)) (f e).
Proof.
  destruct e; try apply incl_refl; cbn [take_parts]; destruct (parts e) as [p|] eqn:E; try apply incl_refl.
  - rewrite fR. apply (parts_within e p E).
  - rewrite fI. apply (parts_within e p E).
Qed.
End Occur.

Lemma take_parts_sound : sound_kev take_parts.
Proof.
  split; [|split].
  - intros rho xs e RES. destruct e; try reflexivity; cbn [take_parts keval]; destruct (parts e) as [p|] eqn:E; try reflexivity.
    + apply (parts_ok rho xs RES e p E).
    + apply (parts_ok rho xs RES e p E).
  - intros e. apply take_within; reflexivity.
  - intros e. apply take_within; reflexivity.
Qed.

(** No part is left. *)
Lemma visibly_no_parts e : visibly_real e = true -> no_parts e.
Proof.
  induction e as [z|s|i|l F|l F|b n IH|e IH|e IH|e IH|e IH|e IH] using code_deep; cbn [visibly_real no_parts]; intros E; try discriminate; auto.
  - induction F as [|a l A F IH]; cbn [fold_right]; [exact I|]. cbn [forallb] in E. apply andb_true_iff in E as (E1 & E2). auto.
  - induction F as [|a l A F IH]; cbn [fold_right]; [exact I|]. cbn [forallb] in E. apply andb_true_iff in E as (E1 & E2). auto.
Qed.
Definition both (p : code * code) : Prop := no_parts (fst p) /\ no_parts (snd p).
Lemma times_both p q : both p -> both q -> both (part_mul p q).
Proof. intros (A & B) (C0 & D). unfold both. cbn. tauto. Qed.
Lemma one_both : both part_one.
Proof. split; exact I. Qed.
Lemma parts_both e p : parts e = Some p -> both p.
Proof.
  revert p. induction e as [z|s|i|l F|l F|b n IH|e IH|e IH|e IH|e IH|e IH] using code_deep; cbn [parts]; intros p E.
  - injection E as <-. split; exact I.
  - destruct (declared_real s); [|discriminate]. injection E as <-. split; exact I.
  - discriminate.
  - destruct (all_some (map parts l)) as [ps|] eqn:A; cbn [option_map] in E; [|discriminate]. injection E as <-. apply all_some_Forall2 in A.
    unfold both. cbn [fst snd no_parts]. induction A as [|a q l ps Ea A IH]; [split; exact I|].
    apply Forall_inv in F as Fa. apply Forall_inv_tail in F. destruct (IH F) as (I1 & I2). destruct (Fa q Ea) as (J1 & J2).
    cbn [map fold_right]. auto.
  - destruct (all_some (map parts l)) as [ps|] eqn:A; cbn [option_map] in E; [|discriminate]. injection E as <-. apply all_some_Forall2 in A.
    induction A as [|a q l ps Ea A IH]; [apply one_both|]. apply Forall_inv in F as Fa. apply Forall_inv_tail in F. specialize (IH F).
    cbn [fold_right]. apply times_both; [exact (Fa q Ea)|exact IH].
  - destruct (parts b) as [q|]; cbn [option_map] in E; [|discriminate]. injection E as <-. specialize (IH q eq_refl).
    induction n as [|n IHn]; [apply one_both|]. cbn [Nat.iter nat_rect]. apply times_both; [exact IH|exact IHn].
  - destruct (visibly_real e) eqn:V; [|discriminate]. injection E as <-. split; cbn [fst snd no_parts]; [apply visibly_no_parts; exact V|exact I].
  - destruct (visibly_real e) eqn:V; [|discriminate]. injection E as <-. split; cbn [fst snd no_parts]; [apply visibly_no_parts; exact V|exact I].
  - destruct (parts e) as [q|]; cbn [option_map] in E; [|discriminate]. injection E as <-. destruct (IH q eq_refl) as (A & B). split; cbn; auto.
  - destruct (parts e) as [q|]; cbn [option_map] in E; [|discriminate]. injection E as <-. destruct (IH q eq_refl) as (A & B). split; cbn; auto.
  - destruct (parts e) as [q|]; cbn [option_map] in E; [|discriminate]. injection E as <-. destruct (IH q eq_refl) as (A & B). split; cbn; auto.
Qed.
Lemma xreplace_no_parts mp e : no_parts (xreplace mp e) <-> no_parts e.
Proof.
  induction e as [z|s|i|l F|l F|b n IH|e IH|e IH|e IH|e IH|e IH] using code_deep; cbn [xreplace no_parts]; try tauto.
  - destruct (dget s mp); cbn; tauto.
  - induction F as [|a l A F IH]; cbn [map fold_right]; tauto.
  - induction F as [|a l A F IH]; cbn [map fold_right]; tauto.
Qed.
Lemma take_no_parts e : no_parts e -> take_parts e = e.
Proof. destruct e; cbn [no_parts]; intros H; try reflexivity; destruct H. Qed.

(** Formulas in real parameters *)
Lemma expr_deep (P : expr -> Prop) : (forall a b, P (ENum a b)) -> (forall s, P (ESym s)) -> (forall l, Forall P l -> P (EAdd l)) -> (forall l, Forall P l -> P (EMul l)) ->
  (forall b n, P b -> P (EPow b n)) -> (forall e, P e -> P (ECos e)) -> (forall e, P e -> P (ESin e)) -> (forall e, P e -> P (EConj e)) ->
  (forall e, P e -> P (ERe e)) -> (forall e, P e -> P (EIm e)) -> forall e, P e.
Proof.
  intros HN HS HA HM HP Hc Hs HC HR HI. fix G 1. intros [a b|s|l|l|b n|e|e|e|e|e].
  - apply HN.
  - apply HS.
  - apply HA. induction l as [|x l IH]; constructor; [apply G|exact IH].
  - apply HM. induction l as [|x l IH]; constructor; [apply G|exact IH].
  - apply HP, G.
  - apply Hc, G.
  - apply Hs, G.
  - apply HC, G.
  - apply HR, G.
  - apply HI, G.
Qed.
Lemma real_expr_ok e : real_expr e = true -> visibly_real (embed e) = true.
Proof.
  induction e as [a b|s|l F|l F|b n IH|e IH|e IH|e IH|e IH|e IH] using expr_deep; cbn [real_expr embed visibly_real]; intros E; try discriminate; auto.
  - apply Reqb_true. cbn. apply Qeq_bool_iff, Qeq_eqR in E. rewrite E. unfold Q2R. cbn. lra.
  - induction F as [|a l A F IH]; [reflexivity|]. cbn [map forallb] in *. apply andb_true_iff in E as (E1 & E2). rewrite A, IH by assumption. reflexivity.
  - induction F as [|a l A F IH]; [reflexivity|]. cbn [map forallb] in *. apply andb_true_iff in E as (E1 & E2). rewrite A, IH by assumption. reflexivity.
Qed.
Lemma real_coefficients_ok e : real_coefficients e = true -> exists p, parts (embed e) = Some p.
Proof.
  induction e as [a b|s|l F|l F|b n IH|e IH|e IH|e IH|e IH|e IH] using expr_deep; cbn [real_coefficients embed parts]; intros E.
  - eauto.
  - rewrite E. eauto.
  - destruct (all_some_total parts (map embed l)) as (ps & ->); [|cbn; eauto]. rewrite Forall_map. rewrite forallb_forall in E.
    rewrite Forall_forall in *. intros x I. apply F; auto.
  - destruct (all_some_total parts (map embed l)) as (ps & ->); [|cbn; eauto]. rewrite Forall_map. rewrite forallb_forall in E.
    rewrite Forall_forall in *. intros x I. apply F; auto.
  - destruct (IH E) as (p & ->). cbn. eauto.
  - rewrite (real_expr_ok e E). eauto.
  - rewrite (real_expr_ok e E). eauto.
  - destruct (IH E) as (p & ->). cbn. eauto.
  - destruct (IH E) as (p & ->). cbn. eauto.
  - destruct (IH E) as (p & ->). cbn. eauto.
Qed.
Lemma real_formula_taken F : real_formula F -> parts_taken take_parts F.
Proof.
  intros H k r e mp I J. destruct (real_coefficients_ok e (H k r e I J)) as (p & E). cbn [take_parts]. rewrite E.
  destruct (parts_both _ _ E) as (A & B). split; rewrite take_no_parts; apply xreplace_no_parts; assumption.
Qed.
