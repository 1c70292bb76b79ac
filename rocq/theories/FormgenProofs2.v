(** What the steps of [gen_S] build, evaluated. *)
From Coq Require Import String List Arith Bool Lia Reals QArith Qreals Lra.
From Coquelicot Require Import Complex.
Import ListNotations.
From Verif Require Import PyBase CBase Expr ExprProofs SpecForm TensorModel SpecTensor TensorInst TensorNat UtilModel
  DataModel FormModel FormgenModel SpecFormgen FormgenProofs.
Local Open Scope nat_scope.

Lemma Ccos_R x : Ccos (RtoC x) = RtoC (cos x).
Proof. unfold Ccos. simpl. rewrite cosh_0, sinh_0. apply C_ext; unfold Re, Im; simpl; ring. Qed.
Lemma Csin_R x : Csin (RtoC x) = RtoC (sin x).
Proof. unfold Csin. simpl. rewrite cosh_0, sinh_0. apply C_ext; unfold Re, Im; simpl; ring. Qed.

Lemma lt3 i : i < 3 -> i = 0 \/ i = 1 \/ i = 2.
Proof. lia. Qed.
Ltac cases3 i H := let H' := fresh in pose proof (lt3 i H) as H'; destruct H' as [H'|[H'|H']]; subst i.

Section Eval.
Variable ev ex : expr -> expr.
Hypothesis EV : sound_ev ev.
Hypothesis EX : sound_ev ex.
Variable rho : sym -> C.
Hypothesis Rs : respects rho.
Variable theta : expr.
Variable th : R.
Hypothesis Hth : eval rho theta = RtoC th.

Definition azimuth : R := Re (rho phi).
Lemma rho_phi : rho phi = RtoC azimuth.
Proof. apply C_ext; [reflexivity|]. simpl. apply (Rs phi). reflexivity. Qed.

Lemma ev_ok e : eval rho (ev e) = eval rho e.
Proof. apply EV; auto. Qed.
Lemma ex_ok e : eval rho (ex e) = eval rho e.
Proof. apply EX; auto. Qed.

Lemma eval_cos_of e x : eval rho e = RtoC x -> eval rho (cos_of ev e) = RtoC (cos x).
Proof. intros H. unfold cos_of. rewrite ev_ok. simpl. rewrite H. apply Ccos_R. Qed.
Lemma eval_sin_of e x : eval rho e = RtoC x -> eval rho (sin_of ev e) = RtoC (sin x).
Proof. intros H. unfold sin_of. rewrite ev_ok. simpl. rewrite H. apply Csin_R. Qed.
Lemma eval_nega e : eval rho (nega ev e) = (- eval rho e)%C.
Proof. unfold nega. rewrite ev_ok, eval_mul. cbn [map fold_right]. rewrite eval_numm1. ring. Qed.
Lemma eval_subt a b : eval rho (subt ev a b) = (eval rho a - eval rho b)%C.
Proof. unfold subt. rewrite ev_ok. apply eval_esub. Qed.
Lemma eval_ev_add a b : eval rho (ev (EAdd [a; b])) = (eval rho a + eval rho b)%C.
Proof. rewrite ev_ok, eval_add. cbn [map fold_right]. ring. Qed.
Lemma eval_ev_mul a b : eval rho (ev (EMul [a; b])) = (eval rho a * eval rho b)%C.
Proof. rewrite ev_ok, eval_mul. cbn [map fold_right]. ring. Qed.

(** Arrays that evaluate to given components *)
Definition is1 (t : tensor expr) (X : nat -> C) : Prop :=
  shape t = [3] /\ forall i, i < 3 -> eval rho (at_ t [i]) = X i.
Definition is3 (t : tensor expr) (X : nat -> nat -> nat -> C) : Prop :=
  shape t = [3; 3; 3] /\ forall i j k, i < 3 -> j < 3 -> k < 3 -> eval rho (at_ t [i; j; k]) = X i j k.
Definition is4 (t : tensor expr) (X : nat -> nat -> nat -> nat -> C) : Prop :=
  shape t = [3; 3; 3; 3] /\
  forall i j k l, i < 3 -> j < 3 -> k < 3 -> l < 3 -> eval rho (at_ t [i; j; k; l]) = X i j k l.

Lemma is1_ex t X : is1 t X -> is1 (tmap ex t) X.
Proof. intros [Sh H]. split; [exact Sh|]. intros i I. cbn [tmap at_]. rewrite ex_ok. auto. Qed.
Lemma is3_ex t X : is3 t X -> is3 (tmap ex t) X.
Proof. intros [Sh H]. split; [exact Sh|]. intros i j k I J K. cbn [tmap at_]. rewrite ex_ok. auto. Qed.
Lemma is4_ex t X : is4 t X -> is4 (tmap ex t) X.
Proof. intros [Sh H]. split; [exact Sh|]. intros i j k l I J K L. cbn [tmap at_]. rewrite ex_ok. auto. Qed.
Lemma is1_ext t X Y : is1 t X -> (forall i, i < 3 -> X i = Y i) -> is1 t Y.
Proof. intros [Sh H] E. split; [exact Sh|]. intros i I. rewrite H, E; auto. Qed.

Lemma is1_k_in : is1 (k_in ev theta) (k_incident th).
Proof.
  split; [reflexivity|]. intros i I. cases3 i I; cbn -[eval num cos_of sin_of];
  rewrite ?eval_num0, ?(eval_cos_of theta th Hth), ?(eval_sin_of theta th Hth); reflexivity.
Qed.
Lemma is1_k_out : is1 (k_out ev theta) (k_reflected th).
Proof.
  split; [reflexivity|]. intros i I. cases3 i I; cbn -[eval num cos_of sin_of nega];
  rewrite ?eval_nega, ?eval_num0, ?(eval_cos_of theta th Hth), ?(eval_sin_of theta th Hth); reflexivity.
Qed.
Definition fld (p : pol) : tensor expr := match p with Pin => F_p ev theta | Sin => F_s end.
Lemma is1_field p : is1 (fld p) (field th p).
Proof.
  split; [destruct p; reflexivity|]. intros i I. destruct p; cases3 i I; cbn -[eval num cos_of sin_of nega];
  rewrite ?eval_nega, ?eval_num0, ?eval_num1, ?(eval_cos_of theta th Hth), ?(eval_sin_of theta th Hth); reflexivity.
Qed.
Lemma at_R_phi i j : i < 3 -> j < 3 -> eval rho (at_ (R_phi ev) [i; j]) = Rz azimuth i j.
Proof.
  assert (P : eval rho (ESym phi) = RtoC azimuth) by apply rho_phi.
  intros I J. cases3 i I; cases3 j J; cbn -[eval num cos_of sin_of nega];
  rewrite ?eval_nega, ?eval_num0, ?eval_num1, ?(eval_cos_of _ _ P), ?(eval_sin_of _ _ P); reflexivity.
Qed.

Lemma contract_eval ts pairs u : cprodC (map (tmap (eval rho)) ts) pairs = Ok u ->
  exists r, contract_product ev ts pairs = Ok r /\ shape r = shape u /\ forall i, eval rho (at_ r i) = at_ u i.
Proof.
  intros E. unfold contract_product, Sig_form.
  assert (U : under_res (eval rho) (do p <- @tensor_product expr (Sig_ev ev) ts; @tensor_contract expr (Sig_ev ev) p pairs)
    (do p <- tensor_product (map (tmap (eval rho)) ts); tensor_contract p pairs)).
  { apply (@product_contract_under expr C (Sig_ev ev) Sig_C (eval rho)).
    - apply eval_num0.
    - intros. apply eval_ev_add.
    - intros. apply eval_ev_mul.
    - clear E. induction ts; simpl; constructor; auto. apply under_tmap. }
  unfold cprodC in E. rewrite E in U.
  destruct (do p <- @tensor_product expr (Sig_ev ev) ts; @tensor_contract expr (Sig_ev ev) p pairs) as [r|]; simpl in U; [|contradiction].
  exists r. split; [reflexivity|]. destruct U as [Sh U]. split; [congruence|]. intros i. rewrite U. reflexivity.
Qed.

Lemma rotate3_eval t X : is3 t X -> exists r, rotate3 ev t = Ok r /\ is3 r (turned3 azimuth X).
Proof.
  intros [Sh H]. destruct (rotate3C (tmap (eval rho) (R_phi ev)) (tmap (eval rho) t) eq_refl Sh) as (u & E & Su & Hu).
  destruct (contract_eval [R_phi ev; R_phi ev; R_phi ev; t] _ u E) as (r & Er & Sr & Hr).
  exists r. split; [exact Er|]. split; [congruence|]. intros i j k I J K. rewrite Hr, Hu.
  unfold turned3. do 3 (apply sum3_ext; intros). cbn [tmap at_]. rewrite !at_R_phi, H; auto.
Qed.
Lemma rotate4_eval t X : is4 t X -> exists r, rotate4 ev t = Ok r /\ is4 r (turned4 azimuth X).
Proof.
  intros [Sh H]. destruct (rotate4C (tmap (eval rho) (R_phi ev)) (tmap (eval rho) t) eq_refl Sh) as (u & E & Su & Hu).
  destruct (contract_eval [R_phi ev; R_phi ev; R_phi ev; R_phi ev; t] _ u E) as (r & Er & Sr & Hr).
  exists r. split; [exact Er|]. split; [congruence|]. intros i j k l I J K L. rewrite Hr, Hu.
  unfold turned4. do 4 (apply sum3_ext; intros). cbn [tmap at_]. rewrite !at_R_phi, H; auto.
Qed.

Lemma dipole_eval t X F f : is3 t X -> is1 F f -> exists r, dipole_source ev t F = Ok r /\ is1 r (moment3 X f).
Proof.
  intros [Sh H] [ShF HF]. destruct (dipoleC (tmap (eval rho) t) (tmap (eval rho) F) Sh ShF) as (u & E & Su & Hu).
  destruct (contract_eval [t; F; F] _ u E) as (r & Er & Sr & Hr).
  exists r. split; [exact Er|]. split; [congruence|]. intros i I. rewrite Hr, Hu.
  unfold moment3. do 2 (apply sum3_ext; intros). cbn [tmap at_]. rewrite H, !HF; auto.
Qed.

Lemma quadrupole_eval t X K k F f : is4 t X -> is1 K k -> is1 F f ->
  exists r, quadrupole_source ev t K F = Ok r /\ is1 r (moment4 X k f).
Proof.
  intros [Sh H] [ShK HK] [ShF HF].
  destruct (quadrupoleC (tmap (eval rho) t) (tmap (eval rho) K) (tmap (eval rho) F) Sh ShK ShF) as (u & E & Su & Hu).
  destruct (contract_eval [t; K; F; F] _ u E) as (r & Er & Sr & Hr).
  exists r. split; [exact Er|]. split; [congruence|]. intros i I. rewrite Hr, Hu.
  unfold moment4. do 3 (apply sum3_ext; intros). cbn [tmap at_]. rewrite H, HK, !HF; auto.
Qed.

Lemma magnetic_eval t X K k F f : is3 t X -> is1 K k -> is1 F f ->
  exists r, magnetic_source ev K t F = Ok r /\ is1 r (cross k (moment3 X f)).
Proof.
  intros [Sh H] [ShK HK] [ShF HF].
  destruct (magneticC (tmap (eval rho) levi_civita) (tmap (eval rho) K) (tmap (eval rho) t) (tmap (eval rho) F)
    eq_refl ShK Sh ShF) as (u & E & Su & Hu).
  destruct (contract_eval [levi_civita; K; t; F; F] _ u E) as (r & Er & Sr & Hr).
  exists r. split; [exact Er|]. split; [congruence|]. intros i I. rewrite Hr, Hu.
  transitivity (sum3 (fun a => sum3 (fun b => eval rho (at_ levi_civita [i; a; b]) * k a * moment3 X f b)))%C.
  - do 2 (apply sum3_ext; intros). cbn [tmap at_]. rewrite HK by auto. f_equal. unfold moment3.
    do 2 (apply sum3_ext; intros). rewrite H, !HF; auto.
  - unfold sum3. unfold cross, triple.
    cases3 i I; cbn [levi_civita at_]; rewrite ?eval_num0, ?eval_num1, ?eval_numm1; ring.
Qed.

Lemma is1_add a b X Y : is1 a X -> is1 b Y -> exists r, tadd ev a b = Ok r /\ is1 r (fun i => X i + Y i)%C.
Proof.
  intros [Sa Ha] [Sb Hb]. unfold tadd, tzip. rewrite Sa, Sb. cbn [shape_eqb].
  eexists. split; [reflexivity|]. split; [reflexivity|]. intros i I. cbn [at_]. rewrite eval_ev_add, Ha, Hb; auto.
Qed.
Lemma is1_scale c t X : is1 t X -> is1 (tscale ev c t) (fun i => eval rho c * X i)%C.
Proof. intros [Sh H]. split; [exact Sh|]. intros i I. unfold tscale. cbn [tmap at_]. rewrite eval_ev_mul, H; auto. Qed.

Lemma project_eval t X : is1 t X -> exists r, project ev theta t = Ok r /\ is1 r (transverse th X).
Proof.
  intros [Sh H]. destruct is1_k_out as [Sk Hk]. unfold project, dot. rewrite Sh, Sk. cbn [Nat.eqb bind].
  assert (D : eval rho (@sumv expr (Sig_ev ev) (map (fun i => @mul expr (Sig_ev ev) (at_ (k_out ev theta) [i]) (at_ t [i])) (seq 0 3))) =
    dot3 (k_reflected th) X).
  { cbn [seq map sumv fold_right add mul zero Sig_ev]. rewrite !eval_ev_add, !eval_ev_mul, !Hk, !H, eval_num0 by lia.
    unfold dot3, sum3. ring. }
  unfold tsub, tzip. change (shape (tscale ev _ (k_out ev theta))) with [3]. rewrite Sh. cbn [shape_eqb].
  eexists. split; [reflexivity|]. split; [reflexivity|]. intros i I. unfold tscale. cbn [at_ tmap].
  rewrite eval_subt, H, eval_ev_mul, Hk by auto. unfold transverse. f_equal. f_equal. f_equal. exact D.
Qed.
End Eval.
