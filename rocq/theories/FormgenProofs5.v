(** The deprecated generators: values, symbols and outcomes. *)
From Coq Require Import String List Arith Bool Lia Reals QArith Qreals Lra.
From Coquelicot Require Import Complex.
Import ListNotations.
From Verif Require Import PyBase CBase Expr ExprProofs SpecForm TensorModel SpecTensor TensorInst TensorNat UtilModel
  DataModel FormModel FormgenModel SpecFormgen FormgenProofs FormgenProofs2 FormgenProofs3 FormgenProofs4 TensorProofs.
Local Open Scope nat_scope.

Section Deprecated.
Variable ev : expr -> expr.
Hypothesis EV : sound_ev ev.

Section Values.
Variable rho : sym -> C.
Hypothesis Rs : respects rho.
Variable theta : expr.
Variable th : R.
Hypothesis Hth : eval rho theta = RtoC th.
Notation ph := (azimuth rho).
Notation is1 := (is1 rho).

Lemma dipole_parts_eval t : shape t = [3; 3; 3] ->
  exists P S, dipole_parts ev theta t = Ok (P, S) /\
    is1 P (transverse th (part_e rho th (Some t) Pin)) /\ is1 S (transverse th (part_e rho th (Some t) Sin)).
Proof.
  intros Sh. unfold dipole_parts.
  destruct (rotate3_eval ev EV rho Rs t _ (is3_self rho t Sh)) as (r & -> & Hr). cbn [bind].
  destruct (is1_part_e ev EV rho Rs theta th Hth t Sin _ Hr) as (s & Es & Hs). cbn [fld] in Es. rewrite Es. cbn [bind].
  destruct (is1_part_e ev EV rho Rs theta th Hth t Pin _ Hr) as (p & Ep & Hp). cbn [fld] in Ep. rewrite Ep. cbn [bind].
  destruct (project_eval ev EV rho Rs theta th Hth _ _ Hs) as (s' & -> & Hs'). cbn [bind].
  destruct (project_eval ev EV rho Rs theta th Hth _ _ Hp) as (p' & -> & Hp'). cbn [bind]. eauto.
Qed.

Definition part_k (t : tensor expr) (p : pol) : nat -> C :=
  moment4 (turned4 ph (val4 rho (Some t))) (k_incident th) (field th p).

Lemma quadrupole_parts_eval t1 t2 : shape t1 = [3; 3; 3] -> shape t2 = [3; 3; 3; 3] ->
  exists P S QP QS, quadrupole_parts ev theta t1 t2 = Ok (P, S, QP, QS) /\
    is1 P (transverse th (part_e rho th (Some t1) Pin)) /\ is1 S (transverse th (part_e rho th (Some t1) Sin)) /\
    is1 QP (transverse th (part_k t2 Pin)) /\ is1 QS (transverse th (part_k t2 Sin)).
Proof.
  intros Sh1 Sh2. unfold quadrupole_parts.
  destruct (rotate3_eval ev EV rho Rs t1 _ (is3_self rho t1 Sh1)) as (r & -> & Hr). cbn [bind].
  destruct (rotate4_eval ev EV rho Rs t2 _ (is4_self rho t2 Sh2)) as (rq & -> & Hq). cbn [bind].
  pose proof (is1_k_in ev EV rho Rs theta th Hth) as K.
  destruct (is1_part_e ev EV rho Rs theta th Hth t1 Sin _ Hr) as (s & Es & Hs). cbn [fld] in Es. rewrite Es. cbn [bind].
  destruct (is1_part_e ev EV rho Rs theta th Hth t1 Pin _ Hr) as (p & Ep & Hp). cbn [fld] in Ep. rewrite Ep. cbn [bind].
  destruct (quadrupole_eval ev EV rho Rs _ _ _ _ _ _ Hq K (is1_field ev EV rho Rs theta th Hth Sin)) as (qs & Eqs & Hqs).
  cbn [fld] in Eqs. rewrite Eqs. cbn [bind].
  destruct (quadrupole_eval ev EV rho Rs _ _ _ _ _ _ Hq K (is1_field ev EV rho Rs theta th Hth Pin)) as (qp & Eqp & Hqp).
  cbn [fld] in Eqp. rewrite Eqp. cbn [bind].
  destruct (project_eval ev EV rho Rs theta th Hth _ _ Hs) as (s' & -> & Hs'). cbn [bind].
  destruct (project_eval ev EV rho Rs theta th Hth _ _ Hp) as (p' & -> & Hp'). cbn [bind].
  destruct (project_eval ev EV rho Rs theta th Hth _ _ Hqs) as (qs' & -> & Hqs'). cbn [bind].
  destruct (project_eval ev EV rho Rs theta th Hth _ _ Hqp) as (qp' & -> & Hqp'). cbn [bind].
  exists p', s', qp', qs'. auto.
Qed.

Lemma source_e t p i : source th (val3 rho (Some t)) (val3 rho None) (val4 rho None) p ph i = part_e rho th (Some t) p i.
Proof.
  unfold source. cbv zeta.
  pose proof (part_m_none rho th p i) as M. unfold part_m in M. rewrite M.
  pose proof (part_q_none rho th p i) as Q. unfold part_q in Q. rewrite Q. unfold part_e. ring.
Qed.
Lemma source_eq t1 t2 p i : source th (val3 rho (Some t1)) (val3 rho None) (val4 rho (Some t2)) p ph i =
  (part_e rho th (Some t1) p i + Ci * part_k t2 p i)%C.
Proof.
  unfold source. cbv zeta.
  pose proof (part_m_none rho th p i) as M. unfold part_m in M. rewrite M. unfold part_e, part_k. ring.
Qed.
Lemma transverse_ext X Y i : (forall j, X j = Y j) -> transverse th X i = transverse th Y i.
Proof. intros H. unfold transverse, dot3, sum3. rewrite !H. reflexivity. Qed.
Lemma transverse_lin X Y i : transverse th (fun j => X j + Ci * Y j)%C i = (transverse th X i + Ci * transverse th Y i)%C.
Proof. unfold transverse, dot3, sum3. ring. Qed.

Lemma detected_ext X Y out : (forall i, i < 3 -> X i = Y i) -> detected X out = detected Y out.
Proof. intros H. destruct out; simpl; rewrite !H by lia; reflexivity. Qed.

Lemma just_dipole_eval t : shape t = [3; 3; 3] -> real_params (Some t) ->
  exists F, formgen_just_dipole ev t theta = Ok F /\ denotes rho th F (Some t) None None.
Proof.
  intros Sh Rp. unfold formgen_just_dipole. rewrite (proj1 (assert_ok t) Rp). cbn [bind].
  destruct (dipole_parts_eval t Sh) as (P & S & -> & HP & HS). cbn [bind].
  destruct (intensities_eval ev EV rho Rs (fun e => e) P S _ _ (fun e => eq_refl) HP HS) as (F & -> & K & H).
  exists F. split; [reflexivity|]. split; [exact K|]. intros inp out. destruct (H inp out) as (x & G & V).
  exists x. split; [exact G|]. rewrite V. unfold intensity. f_equal. apply detected_ext. intros i I.
  destruct inp; apply transverse_ext; intros j; symmetry; apply source_e.
Qed.

Lemma plus_eval P Q X Y : is1 P (transverse th X) -> is1 Q (transverse th Y) ->
  exists r, tadd ev P (tscale ev EI Q) = Ok r /\ is1 r (transverse th (fun j => X j + Ci * Y j)%C).
Proof.
  intros HP HQ. destruct (is1_add ev EV rho Rs _ _ _ _ HP (is1_scale ev EV rho Rs EI _ _ HQ)) as (r & E & H).
  exists r. split; [exact E|]. eapply is1_ext; [exact H|]. intros i I. rewrite eval_EI, transverse_lin. reflexivity.
Qed.

Lemma combine_eval t1 t2 : shape t1 = [3; 3; 3] -> shape t2 = [3; 3; 3; 3] ->
  exists P S QP QS A B F, quadrupole_parts ev theta t1 t2 = Ok (P, S, QP, QS) /\
    tadd ev P (tscale ev EI QP) = Ok A /\ tadd ev S (tscale ev EI QS) = Ok B /\
    intensities ev (fun e => e) A B = Ok F /\ denotes rho th F (Some t1) None (Some t2).
Proof.
  intros Sh1 Sh2. destruct (quadrupole_parts_eval t1 t2 Sh1 Sh2) as (P & S & QP & QS & E & HP & HS & HQP & HQS).
  destruct (plus_eval P QP _ _ HP HQP) as (A & EA & HA). destruct (plus_eval S QS _ _ HS HQS) as (B & EB & HB).
  destruct (intensities_eval ev EV rho Rs (fun e => e) A B _ _ (fun e => eq_refl) HA HB) as (F & EF & K & H).
  exists P, S, QP, QS, A, B, F. split; [exact E|]. split; [exact EA|]. split; [exact EB|]. split; [exact EF|].
  split; [exact K|]. intros inp out. destruct (H inp out) as (x & G & V).
  exists x. split; [exact G|]. rewrite V. unfold intensity. f_equal. apply detected_ext. intros i I.
  destruct inp; apply transverse_ext; intros j; symmetry; apply source_eq.
Qed.
End Values.

(** ** Symbols *)
Section Symbols.
Variable P : sym -> Prop.
Definition only (e : expr) : Prop := forall s, In s (syms e) -> P s.

Lemma only_num a b : only (ENum a b).
Proof. intros s []. Qed.
Lemma only_ev e : only e -> only (ev e).
Proof. intros H s I. apply H. apply (proj2 EV). exact I. Qed.
Lemma only_add a b : only a -> only b -> only (EAdd [a; b]).
Proof. intros A B s I. simpl in I. rewrite app_nil_r in I. apply in_app_or in I as [I|I]; auto. Qed.
Lemma only_mul a b : only a -> only b -> only (EMul [a; b]).
Proof. intros A B s I. simpl in I. rewrite app_nil_r in I. apply in_app_or in I as [I|I]; auto. Qed.
Lemma only_nega a : only a -> only (nega ev a).
Proof. intros A. apply only_ev, only_mul; auto. apply only_num. Qed.
Lemma only_subt a b : only a -> only b -> only (subt ev a b).
Proof. intros A B. apply only_ev, only_add; auto. apply only_mul; auto. apply only_num. Qed.

Lemma only_sum {n} (f : nat -> expr) : (forall v, v < n -> only (f v)) -> only (@sumN expr (Sig_ev ev) n f).
Proof.
  intros H. unfold sumN. assert (F : Forall only (map f (seq 0 n))).
  { apply Forall_forall. intros e I. apply in_map_iff in I as (v & <- & Iv). apply in_seq in Iv. apply H. lia. }
  induction F as [|e l He F IH]; simpl; [apply only_num|]. apply only_ev, only_add; auto.
Qed.

Definition ok1 (t : tensor expr) : Prop := shape t = [3] /\ forall i, i < 3 -> only (at_ t [i]).
Definition ok3 (t : tensor expr) : Prop := shape t = [3; 3; 3] /\ forall i j k, i < 3 -> j < 3 -> k < 3 -> only (at_ t [i; j; k]).
Definition ok4 (t : tensor expr) : Prop :=
  shape t = [3; 3; 3; 3] /\ forall i j k l, i < 3 -> j < 3 -> k < 3 -> l < 3 -> only (at_ t [i; j; k; l]).

Variable theta : expr.
Hypothesis Pphi : P phi.
Hypothesis Ptheta : only theta.

Lemma only_cos e : only e -> only (cos_of ev e).
Proof. intros H. apply only_ev. exact H. Qed.
Lemma only_sin e : only e -> only (sin_of ev e).
Proof. intros H. apply only_ev. exact H. Qed.
Lemma only_phi : only (ESym phi).
Proof. intros s [<-|[]]. exact Pphi. Qed.
Hint Resolve only_num only_cos only_sin only_phi only_nega : only.

Lemma ok_R i j : i < 3 -> j < 3 -> only (at_ (R_phi ev) [i; j]).
Proof. intros I J. cases3 i I; cases3 j J; cbn -[cos_of sin_of nega num]; unfold num; auto with only. Qed.
Lemma ok_k_in : ok1 (k_in ev theta).
Proof. split; [reflexivity|]. intros i I. cases3 i I; cbn -[cos_of sin_of nega num]; unfold num; auto with only. Qed.
Lemma ok_k_out : ok1 (k_out ev theta).
Proof. split; [reflexivity|]. intros i I. cases3 i I; cbn -[cos_of sin_of nega num]; unfold num; auto with only. Qed.
Lemma ok_F_p : ok1 (F_p ev theta).
Proof. split; [reflexivity|]. intros i I. cases3 i I; cbn -[cos_of sin_of nega num]; unfold num; auto with only. Qed.
Lemma ok_F_s : ok1 F_s.
Proof. split; [reflexivity|]. intros i I. cases3 i I; cbn -[num]; unfold num; auto with only. Qed.

Lemma rotate3_only t : ok3 t -> exists r, rotate3 ev t = Ok r /\ ok3 r.
Proof.
  intros [Sh H]. destruct (@rotate3G expr (Sig_ev ev) (R_phi ev) t eq_refl Sh) as (r & E & Sr & Hr).
  exists r. split; [exact E|]. split; [exact Sr|]. intros i j k I J K. rewrite Hr.
  do 3 (apply only_sum; intros). cbn [mul Sig_ev]. repeat (apply only_ev, only_mul); auto using ok_R.
Qed.
Lemma rotate4_only t : ok4 t -> exists r, rotate4 ev t = Ok r /\ ok4 r.
Proof.
  intros [Sh H]. destruct (@rotate4G expr (Sig_ev ev) (R_phi ev) t eq_refl Sh) as (r & E & Sr & Hr).
  exists r. split; [exact E|]. split; [exact Sr|]. intros i j k l I J K L. rewrite Hr.
  do 4 (apply only_sum; intros). cbn [mul Sig_ev]. repeat (apply only_ev, only_mul); auto using ok_R.
Qed.
Lemma dipole_only t F : ok3 t -> ok1 F -> exists r, dipole_source ev t F = Ok r /\ ok1 r.
Proof.
  intros [Sh H] [ShF HF]. destruct (@dipoleG expr (Sig_ev ev) t F Sh ShF) as (r & E & Sr & Hr).
  exists r. split; [exact E|]. split; [exact Sr|]. intros i I. rewrite Hr.
  do 2 (apply only_sum; intros). cbn [mul Sig_ev]. repeat (apply only_ev, only_mul); auto.
Qed.
Lemma quadrupole_only t K F : ok4 t -> ok1 K -> ok1 F -> exists r, quadrupole_source ev t K F = Ok r /\ ok1 r.
Proof.
  intros [Sh H] [ShK HK] [ShF HF]. destruct (@quadrupoleG expr (Sig_ev ev) t K F Sh ShK ShF) as (r & E & Sr & Hr).
  exists r. split; [exact E|]. split; [exact Sr|]. intros i I. rewrite Hr.
  do 3 (apply only_sum; intros). cbn [mul Sig_ev]. repeat (apply only_ev, only_mul); auto.
Qed.
Lemma project_only t : ok1 t -> exists r, project ev theta t = Ok r /\ ok1 r.
Proof.
  intros [Sh H]. destruct ok_k_out as [Sk Hk]. unfold project, dot. rewrite Sh, Sk. cbn [Nat.eqb bind].
  unfold tsub, tzip. change (shape (tscale ev _ (k_out ev theta))) with [3]. rewrite Sh. cbn [shape_eqb].
  eexists. split; [reflexivity|]. split; [reflexivity|]. intros i I. unfold tscale. cbn [at_ tmap].
  apply only_subt; [auto|]. apply only_ev, only_mul; [|auto].
  apply (@only_sum 3 (fun i => @mul expr (Sig_ev ev) (at_ (k_out ev theta) [i]) (at_ t [i]))).
  intros v V. cbn [mul Sig_ev]. apply only_ev, only_mul; auto.
Qed.
Lemma quadrupole_parts_only t1 t2 : ok3 t1 -> ok4 t2 ->
  exists A B QA QB, quadrupole_parts ev theta t1 t2 = Ok (A, B, QA, QB) /\ ok1 A /\ ok1 B /\ ok1 QA /\ ok1 QB.
Proof.
  intros O1 O2. unfold quadrupole_parts.
  destruct (rotate3_only t1 O1) as (r & -> & Hr). cbn [bind].
  destruct (rotate4_only t2 O2) as (q & -> & Hq). cbn [bind].
  destruct (dipole_only r F_s Hr ok_F_s) as (s & -> & Hs). cbn [bind].
  destruct (dipole_only r (F_p ev theta) Hr ok_F_p) as (p & -> & Hp). cbn [bind].
  destruct (quadrupole_only q _ F_s Hq ok_k_in ok_F_s) as (qs & -> & Hqs). cbn [bind].
  destruct (quadrupole_only q _ (F_p ev theta) Hq ok_k_in ok_F_p) as (qp & -> & Hqp). cbn [bind].
  destruct (project_only s Hs) as (s' & -> & Hs'). cbn [bind].
  destruct (project_only p Hp) as (p' & -> & Hp'). cbn [bind].
  destruct (project_only qs Hqs) as (qs' & -> & Hqs'). cbn [bind].
  destruct (project_only qp Hqp) as (qp' & -> & Hqp'). cbn [bind].
  exists p', s', qp', qs'. auto.
Qed.
End Symbols.

Definition declared (s : sym) : Prop := sreal s = Some true.

Lemma ok3_real t : shape t = [3; 3; 3] -> real_params (Some t) -> ok3 declared t.
Proof.
  intros Sh H. split; [exact Sh|]. intros i j k I J K s Is. apply (H [i; j; k] s); [|exact Is].
  rewrite Sh. apply in_indices. repeat (constructor; [assumption|]). constructor.
Qed.
Lemma ok4_real t : shape t = [3; 3; 3; 3] -> real_params (Some t) -> ok4 declared t.
Proof.
  intros Sh H. split; [exact Sh|]. intros i j k l I J K L s Is. apply (H [i; j; k; l] s); [|exact Is].
  rewrite Sh. apply in_indices. repeat (constructor; [assumption|]). constructor.
Qed.
Lemma ok1_real t : ok1 declared t -> real_params (Some t).
Proof.
  intros [Sh H] i s I Is. rewrite Sh in I. apply in_indices in I. inversion I as [|x y l l' X F]; subst.
  inversion F; subst. apply (H x X s Is).
Qed.

Lemma make_form_eval rho theta th t1 t2 : respects rho -> eval rho theta = RtoC th ->
  shape t1 = [3; 3; 3] -> shape t2 = [3; 3; 3; 3] -> real_params (Some t1) -> real_params (Some t2) -> angle_ok theta ->
  exists Pp Ps Qp Qs F, gen_P_dipole_quadrupole ev t1 t2 theta = Ok (Pp, Ps, Qp, Qs) /\
    make_form_from_P_and_Q ev Pp Ps Qp Qs = Ok F /\ denotes rho th F (Some t1) None (Some t2).
Proof.
  intros Rs Hth Sh1 Sh2 R1 R2 AO.
  destruct (combine_eval rho Rs theta th Hth t1 t2 Sh1 Sh2) as (P & S & QP & QS & A & B & F & E & EA & EB & EF & D).
  destruct (quadrupole_parts_only declared theta eq_refl AO t1 t2 (ok3_real t1 Sh1 R1) (ok4_real t2 Sh2 R2))
    as (P' & S' & QP' & QS' & E' & OP & OS & OQP & OQS).
  rewrite E in E'. inversion E'; subst P' S' QP' QS'. clear E'.
  exists (OTensor P), (OTensor S), (OTensor QP), (OTensor QS), F.
  unfold gen_P_dipole_quadrupole. rewrite (proj1 (assert_ok t1) R1), (proj1 (assert_ok t2) R2). cbn [bind]. rewrite E. cbn [bind].
  split; [reflexivity|]. split; [|exact D].
  unfold make_form_from_P_and_Q, assert_real_operand.
  rewrite (proj1 (assert_ok P) (ok1_real P OP)), (proj1 (assert_ok S) (ok1_real S OS)),
    (proj1 (assert_ok QP) (ok1_real QP OQP)), (proj1 (assert_ok QS) (ok1_real QS OQS)). cbn [bind plus_I].
  rewrite EA. cbn [bind]. rewrite EB. cbn [bind]. exact EF.
Qed.

Lemma dipole_quadrupole_eval is_real rho theta th t1 t2 : respects rho -> eval rho theta = RtoC th ->
  shape t1 = [3; 3; 3] -> shape t2 = [3; 3; 3; 3] -> real_params (Some t1) -> real_params (Some t2) ->
  is_real theta = Some true ->
  exists F, formgen_dipole_quadrupole ev is_real t1 t2 theta = Ok F /\ denotes rho th F (Some t1) None (Some t2).
Proof.
  intros Rs Hth Sh1 Sh2 R1 R2 IR.
  destruct (combine_eval rho Rs theta th Hth t1 t2 Sh1 Sh2) as (P & S & QP & QS & A & B & F & E & EA & EB & EF & D).
  exists F. split; [|exact D].
  unfold formgen_dipole_quadrupole. rewrite (proj1 (assert_ok t1) R1), (proj1 (assert_ok t2) R2), IR. cbn [bind].
  rewrite E. cbn [bind]. rewrite EA. cbn [bind]. rewrite EB. cbn [bind]. exact EF.
Qed.

Lemma just_dipole_make_form theta t : shape t = [3; 3; 3] -> real_params (Some t) -> angle_ok theta ->
  exists Pp Ps Qp Qs, gen_P_just_dipole ev t theta = Ok (Pp, Ps, Qp, Qs) /\
    make_form_from_P_and_Q ev Pp Ps Qp Qs = Raise AttributeError.
Proof.
  intros Sh Rp AO. pose proof (ok3_real t Sh Rp) as O.
  unfold gen_P_just_dipole, dipole_parts. rewrite (proj1 (assert_ok t) Rp). cbn [bind].
  destruct (rotate3_only declared eq_refl t O) as (r & -> & Hr). cbn [bind].
  destruct (dipole_only declared r F_s Hr (ok_F_s declared)) as (s & -> & Hs). cbn [bind].
  destruct (dipole_only declared r (F_p ev theta) Hr (ok_F_p declared theta AO)) as (p & -> & Hp). cbn [bind].
  destruct (project_only declared theta AO s Hs) as (s' & -> & Hs'). cbn [bind].
  destruct (project_only declared theta AO p Hp) as (p' & -> & Hp'). cbn [bind].
  eexists _, _, _, _. split; [reflexivity|]. unfold make_form_from_P_and_Q, assert_real_operand.
  rewrite (proj1 (assert_ok p') (ok1_real p' Hp')), (proj1 (assert_ok s') (ok1_real s' Hs')). reflexivity.
Qed.
End Deprecated.
