(** Lemmas about values, free symbols and substitution. *)
From Coq Require Import String List Bool QArith Qreals Reals Lra.
Import ListNotations.
From Coquelicot Require Import Complex.
From Verif Require Import PyBase CBase Expr.

Lemma eval_add rho l : eval rho (EAdd l) = fold_right Cplus (RtoC 0) (map (eval rho) l).
Proof. reflexivity. Qed.
Lemma eval_mul rho l : eval rho (EMul l) = fold_right Cmult (RtoC 1) (map (eval rho) l).
Proof. reflexivity. Qed.

(** The value depends on the symbols that occur only. *)
Lemma eval_ext rho rho' e : (forall s, In s (syms e) -> rho s = rho' s) -> eval rho e = eval rho' e.
Proof.
  induction e as [a b|s|l IH|l IH|b n IH|e IH|e IH|e IH|e IH|e IH] using expr_ind'; simpl; intros E;
    try (rewrite IH; auto); auto.
  - f_equal. apply map_ext_in. intros x I. rewrite Forall_forall in IH. apply IH; auto.
    intros s Is. apply E. apply in_flat_map. exists x; auto.
  - f_equal. apply map_ext_in. intros x I. rewrite Forall_forall in IH. apply IH; auto.
    intros s Is. apply E. apply in_flat_map. exists x; auto.
Qed.

Definition upd (rho : sym -> C) (x : sym) (v : C) : sym -> C := fun s => if sym_eqb s x then v else rho s.

Lemma eval_subst rho x r e : eval rho (subst x r e) = eval (upd rho x (eval rho r)) e.
Proof.
  induction e as [a b|s|l IH|l IH|b n IH|e IH|e IH|e IH|e IH|e IH] using expr_ind'; simpl;
    try (rewrite IH; auto); auto.
  - unfold upd. destruct (sym_eqb s x); auto.
  - f_equal. rewrite map_map. apply map_ext_in. intros y I. rewrite Forall_forall in IH. apply IH; auto.
  - f_equal. rewrite map_map. apply map_ext_in. intros y I. rewrite Forall_forall in IH. apply IH; auto.
Qed.

Lemma syms_subst x r e s : In s (syms (subst x r e)) <->
  (In s (syms e) /\ s <> x) \/ (In x (syms e) /\ In s (syms r)).
Proof.
  induction e as [a b|y|l IH|l IH|b n IH|e IH|e IH|e IH|e IH|e IH] using expr_ind'; simpl; try tauto.
  - destruct (sym_eqb_spec y x) as [->|N]; simpl.
    + intuition congruence.
    + intuition congruence.
  - rewrite Forall_forall in IH. rewrite !in_flat_map. split.
    + intros (y & I & Hs). apply in_map_iff in I as (z & <- & Iz). apply IH in Hs; auto.
      destruct Hs as [[Hs N]|[Hx Hs]]; [left|right]; (split; [exists z; auto|auto]).
    + intros [[(z & Iz & Hs) N]|[(z & Iz & Hx) Hs]].
      * exists (subst x r z). split; [apply in_map; auto|]. apply IH; auto.
      * exists (subst x r z). split; [apply in_map; auto|]. apply IH; auto.
  - rewrite Forall_forall in IH. rewrite !in_flat_map. split.
    + intros (y & I & Hs). apply in_map_iff in I as (z & <- & Iz). apply IH in Hs; auto.
      destruct Hs as [[Hs N]|[Hx Hs]]; [left|right]; (split; [exists z; auto|auto]).
    + intros [[(z & Iz & Hs) N]|[(z & Iz & Hx) Hs]].
      * exists (subst x r z). split; [apply in_map; auto|]. apply IH; auto.
      * exists (subst x r z). split; [apply in_map; auto|]. apply IH; auto.
Qed.

Lemma subst_absent x r e : ~ In x (syms e) -> subst x r e = e.
Proof.
  induction e as [a b|y|l IH|l IH|b n IH|e IH|e IH|e IH|e IH|e IH] using expr_ind'; simpl; intros N;
    try (rewrite IH; auto); auto.
  - destruct (sym_eqb_spec y x) as [->|]; auto. exfalso; auto.
  - f_equal. rewrite <- (map_id l) at 2. apply map_ext_in. intros y I. rewrite Forall_forall in IH. apply IH; auto.
    intros Iy. apply N. apply in_flat_map. exists y; auto.
  - f_equal. rewrite <- (map_id l) at 2. apply map_ext_in. intros y I. rewrite Forall_forall in IH. apply IH; auto.
    intros Iy. apply N. apply in_flat_map. exists y; auto.
Qed.

Lemma in_free_symbols s e : In s (free_symbols e) <-> In s (syms e).
Proof. apply nodup_In. Qed.

Lemma NoDup_free_symbols e : NoDup (free_symbols e).
Proof. apply NoDup_nodup. Qed.

Lemma Q2R_neg1 : Q2R (-1) = (-1)%R.
Proof. unfold Q2R; simpl; lra. Qed.
Lemma Q2R_0' : Q2R 0 = 0%R.
Proof. unfold Q2R; simpl; lra. Qed.
Lemma Q2R_1' : Q2R 1 = 1%R.
Proof. unfold Q2R; simpl; lra. Qed.

Lemma eval_num rho q : eval rho (num q) = RtoC (Q2R q).
Proof. simpl. rewrite Q2R_0'. reflexivity. Qed.

Lemma eval_EI rho : eval rho EI = Ci.
Proof. simpl. rewrite Q2R_0', Q2R_1'. reflexivity. Qed.

Lemma eval_esub rho a b : eval rho (esub a b) = Cminus (eval rho a) (eval rho b).
Proof.
  unfold esub. simpl. rewrite Q2R_neg1, Q2R_0'. apply C_ext; unfold Re, Im; simpl; ring.
Qed.

Lemma expr_eqb_eval rho a : forall b, expr_eqb a b = true -> eval rho a = eval rho b.
Proof.
  induction a as [p q|s|l IH|l IH|b n IH|e IH|e IH|e IH|e IH|e IH] using expr_ind';
    intros [p' q'|s'|l'|l'|b' n'|e'|e'|e'|e'|e'] E; simpl in E; try discriminate; simpl;
    try (rewrite (IH _ E); auto).
  - apply andb_true_iff in E as [E1 E2]. apply Qeq_bool_iff in E1, E2. apply Qeq_eqR in E1, E2. congruence.
  - destruct (sym_eqb_spec s s'); congruence.
  - revert l' E. induction IH as [|x l Hx F IHl]; intros [|y l'] E; try discriminate; auto.
    apply andb_true_iff in E as [E1 E2]. simpl. rewrite (Hx _ E1), (IHl _ E2). auto.
  - revert l' E. induction IH as [|x l Hx F IHl]; intros [|y l'] E; try discriminate; auto.
    apply andb_true_iff in E as [E1 E2]. simpl. rewrite (Hx _ E1), (IHl _ E2). auto.
  - apply andb_true_iff in E as [E1 E2]. apply Nat.eqb_eq in E2. rewrite (IH _ E1), E2. auto.
Qed.

Lemma expr_eqb_refl a : expr_eqb a a = true.
Proof.
  induction a as [p q|s|l IH|l IH|b n IH|e IH|e IH|e IH|e IH|e IH] using expr_ind'; simpl; auto.
  - rewrite !Qeq_bool_refl; auto.
  - destruct (sym_eqb_spec s s); congruence.
  - induction IH; auto. rewrite H; auto.
  - induction IH; auto. rewrite H; auto.
  - rewrite IH, Nat.eqb_refl; auto.
Qed.
