(** When [formgen] succeeds, and the deprecated generators. *)
From Coq Require Import String List Arith Bool Lia Reals QArith Qreals Lra.
From Coquelicot Require Import Complex.
Import ListNotations.
From Verif Require Import PyBase CBase Expr ExprProofs SpecForm TensorModel SpecTensor TensorInst TensorNat UtilModel
  DataModel FormModel FormgenModel SpecFormgen FormgenProofs FormgenProofs2 FormgenProofs3.
Local Open Scope nat_scope.

Definition rho0 : sym -> C := fun _ => RtoC 0.
Lemma respects0 : respects rho0.
Proof. intros s _. reflexivity. Qed.

Section Outcome.
Variable ev ex : expr -> expr.
Hypothesis EV : sound_ev ev.

Lemma is1_self rho t : shape t = [3] -> is1 rho t (fun i => eval rho (at_ t [i])).
Proof. split; auto. Qed.

Lemma rotate3_shape t : shape t = [3; 3; 3] -> exists r, rotate3 ev t = Ok r /\ shape r = [3; 3; 3].
Proof. intros Sh. destruct (rotate3_eval ev EV rho0 respects0 t _ (is3_self rho0 t Sh)) as (r & E & H & _). eauto. Qed.
Lemma rotate4_shape t : shape t = [3; 3; 3; 3] -> exists r, rotate4 ev t = Ok r /\ shape r = [3; 3; 3; 3].
Proof. intros Sh. destruct (rotate4_eval ev EV rho0 respects0 t _ (is4_self rho0 t Sh)) as (r & E & H & _). eauto. Qed.
Lemma dipole_shape t F : shape t = [3; 3; 3] -> shape F = [3] -> exists r, dipole_source ev t F = Ok r /\ shape r = [3].
Proof.
  intros Sh ShF. destruct (dipole_eval ev EV rho0 respects0 t _ F _ (is3_self rho0 t Sh) (is1_self rho0 F ShF)) as (r & E & H & _). eauto.
Qed.
Lemma magnetic_shape K t F : shape K = [3] -> shape t = [3; 3; 3] -> shape F = [3] ->
  exists r, magnetic_source ev K t F = Ok r /\ shape r = [3].
Proof.
  intros ShK Sh ShF.
  destruct (magnetic_eval ev EV rho0 respects0 t _ K _ F _ (is3_self rho0 t Sh) (is1_self rho0 K ShK) (is1_self rho0 F ShF)) as (r & E & H & _).
  eauto.
Qed.
Lemma quadrupole_shape t K F : shape K = [3] -> shape t = [3; 3; 3; 3] -> shape F = [3] ->
  exists r, quadrupole_source ev t K F = Ok r /\ shape r = [3].
Proof.
  intros ShK Sh ShF.
  destruct (quadrupole_eval ev EV rho0 respects0 t _ K _ F _ (is4_self rho0 t Sh) (is1_self rho0 K ShK) (is1_self rho0 F ShF)) as (r & E & H & _).
  eauto.
Qed.
Lemma project_shape theta t : shape t = [3] -> exists r, project ev theta t = Ok r /\ shape r = [3].
Proof.
  intros Sh. unfold project, dot. rewrite Sh. cbn [k_out vector shape Nat.eqb bind].
  unfold tsub, tzip. change (shape (tscale ev _ (k_out ev theta))) with [3]. rewrite Sh. cbn [shape_eqb].
  eexists. split; reflexivity.
Qed.
Lemma tadd_shape a b : shape a = [3] -> shape b = [3] -> exists r, tadd ev a b = Ok r /\ shape r = [3].
Proof. intros Sa Sb. unfold tadd, tzip. rewrite Sa, Sb. cbn [shape_eqb]. eexists. split; reflexivity. Qed.

Definition sacc (acc : option (tensor expr * tensor expr)) : Prop :=
  match acc with None => True | Some (p, s) => shape p = [3] /\ shape s = [3] end.

Lemma opt_add_shape acc p s : sacc acc -> shape p = [3] -> shape s = [3] ->
  exists r, opt_add ev acc p s = Ok r /\ sacc (Some r).
Proof.
  intros A P S. unfold opt_add. destruct acc as [[a b]|]; cbn [option_map fst snd acc_add].
  - destruct A as [A1 A2]. destruct (tadd_shape a p A1 P) as (x & -> & X). cbn [bind].
    destruct (tadd_shape b s A2 S) as (y & -> & Y). cbn [bind]. eexists. split; [reflexivity|]. simpl. auto.
  - cbn [bind]. eexists. split; [reflexivity|]. simpl. auto.
Qed.

(** A contribution succeeds if its parameters are real and raises ValueError otherwise *)
Definition good_step (sh : list nat) (f : option (tensor expr * tensor expr) -> tensor expr -> res (tensor expr * tensor expr)) : Prop :=
  forall acc t, sacc acc -> shape t = sh ->
    (real_params (Some t) -> exists r, f acc t = Ok r /\ sacc (Some r)) /\
    (~ real_params (Some t) -> f acc t = Raise ValueError).

Lemma good_eee theta : good_step [3; 3; 3] (add_eee ev ex theta).
Proof.
  intros acc t A Sh. unfold add_eee. split; intros R.
  - rewrite (proj1 (assert_ok t) R). cbn [bind]. destruct (rotate3_shape t Sh) as (r & -> & Hr). cbn [bind]. cbv zeta.
    assert (Hx : shape (tmap ex r) = [3; 3; 3]) by exact Hr.
    destruct (dipole_shape _ F_s Hx eq_refl) as (s & -> & Hs). cbn [bind].
    destruct (dipole_shape _ (F_p ev theta) Hx eq_refl) as (p & -> & Hp). cbn [bind]. apply opt_add_shape; auto.
  - rewrite (assert_bad t R). reflexivity.
Qed.
Lemma good_mee theta : good_step [3; 3; 3] (add_mee ev ex theta).
Proof.
  intros acc t A Sh. unfold add_mee. split; intros R.
  - rewrite (proj1 (assert_ok t) R). cbn [bind]. destruct (rotate3_shape t Sh) as (r & -> & Hr). cbn [bind]. cbv zeta.
    assert (Hx : shape (tmap ex r) = [3; 3; 3]) by exact Hr.
    destruct (magnetic_shape (k_in ev theta) _ F_s eq_refl Hx eq_refl) as (s & -> & Hs). cbn [bind].
    destruct (magnetic_shape (k_in ev theta) _ (F_p ev theta) eq_refl Hx eq_refl) as (p & -> & Hp). cbn [bind]. apply opt_add_shape; auto.
  - rewrite (assert_bad t R). reflexivity.
Qed.
Lemma good_qee theta : good_step [3; 3; 3; 3] (add_qee ev ex theta).
Proof.
  intros acc t A Sh. unfold add_qee. split; intros R.
  - rewrite (proj1 (assert_ok t) R). cbn [bind]. destruct (rotate4_shape t Sh) as (r & -> & Hr). cbn [bind]. cbv zeta.
    assert (Hx : shape (tmap ex r) = [3; 3; 3; 3]) by exact Hr.
    destruct (quadrupole_shape _ (k_in ev theta) F_s eq_refl Hx eq_refl) as (s & -> & Hs). cbn [bind].
    destruct (quadrupole_shape _ (k_in ev theta) (F_p ev theta) eq_refl Hx eq_refl) as (p & -> & Hp). cbn [bind]. apply opt_add_shape; auto.
  - rewrite (assert_bad t R). reflexivity.
Qed.

Lemma when_outcome sh f acc t : good_step sh f -> sacc acc -> has_shape sh t ->
  (real_params t -> exists r, when f acc t = Ok r /\ sacc r /\ (r = None <-> acc = None /\ t = None)) /\
  (~ real_params t -> when f acc t = Raise ValueError).
Proof.
  intros G A Sh. destruct t as [t|]; simpl in Sh.
  - destruct (G acc t A Sh) as [G1 G2]. split; intros R.
    + destruct (G1 R) as (r & E & H). exists (Some r). simpl. rewrite E. split; [reflexivity|]. split; [exact H|].
      split; [discriminate|intros [_ ?]; discriminate].
    + simpl. rewrite (G2 R). reflexivity.
  - split; intros R.
    + exists acc. simpl. split; [reflexivity|]. split; [exact A|]. tauto.
    + exfalso. apply R. exact I.
Qed.

Lemma real_params_dec t : real_params t \/ ~ real_params t.
Proof.
  destruct t as [t|]; [|left; exact I]. destruct (assert_real_params t) as [[]|e] eqn:E.
  - left. apply assert_ok. exact E.
  - right. intros H. apply assert_ok in H. congruence.
Qed.

Lemma intensities_shape f Sp Ss : shape Sp = [3] -> shape Ss = [3] -> exists F, intensities ev f Sp Ss = Ok F.
Proof.
  intros P S. unfold intensities, square_of, entry_of. rewrite P, S. cbn [Nat.ltb Nat.leb bind]. eexists. reflexivity.
Qed.

Lemma gen_S_outcome theta e m q : has_shape [3; 3; 3] e -> has_shape [3; 3; 3] m -> has_shape [3; 3; 3; 3] q ->
  (real_params e /\ real_params m /\ real_params q /\ ~ (e = None /\ m = None /\ q = None) ->
     exists Sp Ss, gen_S ev ex theta e m q = Ok (Sp, Ss) /\ shape Sp = [3] /\ shape Ss = [3]) /\
  (~ (real_params e /\ real_params m /\ real_params q /\ ~ (e = None /\ m = None /\ q = None)) ->
     gen_S ev ex theta e m q = Raise ValueError).
Proof.
  intros She Shm Shq.
  destruct (when_outcome _ _ None e (good_eee theta) I She) as [E1 E2].
  assert (D : (real_params e /\ real_params m /\ real_params q) /\
     (exists r, gen_S ev ex theta e m q = (match r with None => Raise ValueError
       | Some (Sp, Ss) => do Ss' <- project ev theta Ss; do Sp' <- project ev theta Sp; Ok (tmap ex Sp', tmap ex Ss') end) /\
       sacc r /\ (r = None <-> (e = None /\ m = None /\ q = None)))
    \/ ~ (real_params e /\ real_params m /\ real_params q) /\ gen_S ev ex theta e m q = Raise ValueError).
  { unfold gen_S. destruct (real_params_dec e) as [R1|R1].
    2:{ right. split; [tauto|]. rewrite (E2 R1). reflexivity. }
    destruct (E1 R1) as (r1 & -> & A1 & N1). cbn [bind].
    destruct (when_outcome _ _ r1 m (good_mee theta) A1 Shm) as [M1 M2].
    destruct (real_params_dec m) as [R2|R2].
    2:{ right. split; [tauto|]. rewrite (M2 R2). reflexivity. }
    destruct (M1 R2) as (r2 & -> & A2 & N2). cbn [bind].
    destruct (when_outcome _ _ r2 q (good_qee theta) A2 Shq) as [Q1 Q2].
    destruct (real_params_dec q) as [R3|R3].
    2:{ right. split; [tauto|]. rewrite (Q2 R3). reflexivity. }
    destruct (Q1 R3) as (r3 & -> & A3 & N3). cbn [bind].
    left. split; [auto|]. exists r3. split; [reflexivity|]. split; [exact A3|]. tauto. }
  destruct D as [[R (r & E & A & N)]|[R E]].
  - destruct r as [[Sp Ss]|].
    + split.
      * intros _. destruct A as [A1 A2].
        destruct (project_shape theta Ss A2) as (s & Es & Hs). destruct (project_shape theta Sp A1) as (p & Ep & Hp).
        rewrite Es in E. cbn [bind] in E. rewrite Ep in E. cbn [bind] in E. rewrite E. eexists _, _. split; [reflexivity|]. split; auto.
      * intros X. exfalso. apply X. split; [tauto|]. split; [tauto|]. split; [tauto|]. intros Y.
        apply (proj2 N) in Y. discriminate.
    + split.
      * intros (_ & _ & _ & Y). exfalso. apply Y. apply N. reflexivity.
      * intros _. exact E.
  - split; [tauto|]. intros _. exact E.
Qed.

Lemma formgen_outcome theta e m q : has_shape [3; 3; 3] e -> has_shape [3; 3; 3] m -> has_shape [3; 3; 3; 3] q ->
  (real_params e /\ real_params m /\ real_params q /\ ~ (e = None /\ m = None /\ q = None) ->
     exists F, formgen ev ex theta e m q = Ok F) /\
  (~ (real_params e /\ real_params m /\ real_params q /\ ~ (e = None /\ m = None /\ q = None)) ->
     formgen ev ex theta e m q = Raise ValueError).
Proof.
  intros She Shm Shq. destruct (gen_S_outcome theta e m q She Shm Shq) as [G1 G2]. unfold formgen. split; intros R.
  - destruct (G1 R) as (Sp & Ss & -> & P & S). cbn [bind]. apply intensities_shape; auto.
  - rewrite (G2 R). reflexivity.
Qed.
End Outcome.
