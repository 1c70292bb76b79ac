(** Properties C43-C48: the formulas generated from susceptibility tensors.
    Beside each theorem a concrete case. *)
From Coq Require Import String List Arith ZArith Bool Lia Reals QArith Qreals Lra Permutation.
From Coquelicot Require Import Complex.
Import ListNotations.
From Verif Require Import PyBase CBase FourierBase Expr ExprProofs SpecForm TensorModel SpecTensor TensorInst UtilModel SpecUtil
  FormModel FormgenModel TensorDefs SpecGroups GroupProofs SpecFormgen TrigPoly FormgenProofs FormgenProofs2 FormgenProofs3
  FormgenProofs4 FormgenProofs5 FormgenPhys FormgenThms FormgenTables FormgenThms2 PropertiesTensor.
Local Open Scope nat_scope.

(** A concrete case used below: every component is one real symbol, theta is a
    real symbol, all symbols have the value 1/2. *)
Definition x_ : sym := mksym "x" (Some true).
Definition full3 : tensor expr := mkT [3; 3; 3] (fun _ => ESym x_).
Definition full4 : tensor expr := mkT [3; 3; 3; 3] (fun _ => ESym x_).
Definition half : sym -> C := fun _ => RtoC (1 / 2).
Lemma same_sound : sound_ev (fun e => e).
Proof. split; [reflexivity|intros e s I; exact I]. Qed.
Lemma half_respects : respects half.
Proof. intros s _. reflexivity. Qed.
Lemma full_shapes : shapes (Some full3) (Some full3) (Some full4).
Proof. repeat split. Qed.
Lemma full_real3 : real_params (Some full3).
Proof. intros i s _ [<-|[]]. reflexivity. Qed.
Lemma full_real4 : real_params (Some full4).
Proof. intros i s _ [<-|[]]. reflexivity. Qed.
Lemma full_form : exists F, formgen (fun e => e) (fun e => e) theta_ (Some full3) (Some full3) (Some full4) = Ok F.
Proof.
  apply (proj1 (formgen_outcome (fun e => e) (fun e => e) same_sound theta_ (Some full3) (Some full3) (Some full4) eq_refl eq_refl eq_refl)).
  split; [exact full_real3|]. split; [exact full_real3|]. split; [exact full_real4|]. intros (X & _). discriminate.
Qed.
Lemma full_phi_free : all_phi_free theta_ (Some full3) (Some full3) (Some full4).
Proof. split; [intros [X|[]]; discriminate|]. repeat split; intros i _ [X|[]]; discriminate. Qed.

(* ================================================================== *)
(** * C43: intensities are physical *)

Theorem C43_nonnegative : forall ev ex theta e m q F, sound_ev ev -> sound_ev ex -> shapes e m q ->
  formgen ev ex theta e m q = Ok F ->
  forall k x, dget k F = Some x -> forall rho th, respects rho -> eval rho theta = RtoC th ->
  exists v, eval rho x = RtoC v /\ (0 <= v)%R.
Proof.
  intros ev ex theta e m q F EV EX Sh H k x X rho th Rs Ht.
  destruct (formgen_denotes ev ex EV EX theta e m q F rho th Sh H Rs Ht) as (K & V).
  pose proof (keys_pol F k x K X) as P.
  destruct P as (inp & out & ->). destruct (V inp out) as (x' & X' & Vx). rewrite X in X'. injection X' as <-.
  eexists. split; [exact Vx|]. apply detected_pos.
Qed.
Print Assumptions C43_nonnegative.

(** The source that radiates is orthogonal to the outgoing wave vector. *)
Theorem C43_transverse : forall ev ex theta e m q Sp Ss, sound_ev ev -> sound_ev ex -> shapes e m q ->
  gen_S ev ex theta e m q = Ok (Sp, Ss) ->
  forall rho th, respects rho -> eval rho theta = RtoC th ->
  dot3 (k_reflected th) (fun i => eval rho (at_ Sp [i])) = RtoC 0 /\
  dot3 (k_reflected th) (fun i => eval rho (at_ Ss [i])) = RtoC 0.
Proof.
  intros ev ex theta e m q Sp Ss EV EX (She & Shm & Shq) H rho th Rs Ht.
  assert (F : exists F, formgen ev ex theta e m q = Ok F).
  { destruct (gen_S_outcome ev ex EV theta e m q She Shm Shq) as [G1 G2].
    destruct (formgen_outcome ev ex EV theta e m q She Shm Shq) as [N1 N2].
    assert (R : real_params e /\ real_params m /\ real_params q /\ ~ (e = None /\ m = None /\ q = None)).
    { apply Classical_Prop.NNPP. intros D. rewrite (G2 D) in H. discriminate. }
    apply N1. exact R. }
  destruct F as (F & HF).
  destruct (formgen_params ev ex EV theta e m q F (conj She (conj Shm Shq)) HF) as (Re & Rm & Rq & N).
  destruct (gen_S_eval ev ex EV EX rho Rs theta th Ht e m q She Shm Shq Re Rm Rq N) as (Sp' & Ss' & E & P & S).
  rewrite E in H. injection H as -> ->.
  split; (etransitivity; [|apply transverse_orthogonal]); unfold dot3; apply sum3_ext; intros i I; f_equal; [apply P|apply S]; exact I.
Qed.
Print Assumptions C43_transverse.

Example C43_case : shapes (Some full3) (Some full3) (Some full4) /\ respects half /\ eval half theta_ = RtoC (1 / 2) /\
  exists F, formgen (fun e => e) (fun e => e) theta_ (Some full3) (Some full3) (Some full4) = Ok F.
Proof. exact (conj full_shapes (conj half_respects (conj eq_refl full_form))). Qed.

(* ================================================================== *)
(** * C44: the multipole radiation formula *)

Theorem C44_formula : forall ev ex theta e m q F, sound_ev ev -> sound_ev ex -> shapes e m q ->
  formgen ev ex theta e m q = Ok F ->
  forall rho th, respects rho -> eval rho theta = RtoC th -> denotes rho th F e m q.
Proof. intros ev ex theta e m q F EV EX Sh H rho th. exact (formgen_denotes ev ex EV EX theta e m q F rho th Sh H). Qed.
Print Assumptions C44_formula.

Theorem C44_errors : forall ev ex theta e m q, sound_ev ev -> shapes e m q ->
  ((real_params e /\ real_params m /\ real_params q /\ ~ (e = None /\ m = None /\ q = None)) <->
     exists F, formgen ev ex theta e m q = Ok F) /\
  (~ (exists F, formgen ev ex theta e m q = Ok F) -> formgen ev ex theta e m q = Raise ValueError).
Proof.
  intros ev ex theta e m q EV Sh. assert (Sh' := Sh). destruct Sh' as (She & Shm & Shq).
  destruct (formgen_outcome ev ex EV theta e m q She Shm Shq) as [N1 N2]. split; [split|].
  - exact N1.
  - intros (F & H). exact (formgen_params ev ex EV theta e m q F Sh H).
  - intros N. apply N2. intros D. apply N. exact (N1 D).
Qed.
Print Assumptions C44_errors.

(** The intensity is the squared projection of the source on the outgoing p or s
    polarization. *)
Theorem C44_analyser : forall th E M Q inp phi,
  intensity th E M Q inp Pin phi = (Cmod (dot3 (p_out th) (source th E M Q inp phi)) ^ 2)%R /\
  intensity th E M Q inp Sin phi = (Cmod (dot3 (triple (RtoC 0) (RtoC 1) (RtoC 0)) (source th E M Q inp phi)) ^ 2)%R.
Proof.
  intros. split; [apply detected_p|]. unfold intensity. rewrite detected_s. f_equal. f_equal.
  unfold dot3, sum3, triple. ring.
Qed.
Print Assumptions C44_analyser.

Example C44_case : real_params (Some full3) /\ ~ real_params (Some (mkT [3; 3; 3] (fun _ => ESym (mksym "x" None)))) /\
  formgen (fun e => e) (fun e => e) theta_ None None None = Raise ValueError.
Proof.
  split; [exact full_real3|]. split; [|reflexivity]. intros H. specialize (H [0; 0; 0] (mksym "x" None) (or_introl eq_refl) (or_introl eq_refl)).
  discriminate.
Qed.

(* ================================================================== *)
(** * C45: the deprecated generators *)

Theorem C45_just_dipole : forall ev ex theta t, sound_ev ev -> sound_ev ex -> shape t = [3; 3; 3] -> real_angle theta ->
  ((exists F, formgen_just_dipole ev t theta = Ok F) <-> exists G, formgen ev ex theta (Some t) None None = Ok G) /\
  forall F G, formgen_just_dipole ev t theta = Ok F -> formgen ev ex theta (Some t) None None = Ok G ->
    same_values theta F G.
Proof. intros ev ex theta t EV EX. exact (just_dipole_agrees ev ex EV EX theta t). Qed.
Print Assumptions C45_just_dipole.

Theorem C45_dipole_quadrupole : forall ev ex is_real theta t q, sound_ev ev -> sound_ev ex ->
  shape t = [3; 3; 3] -> shape q = [3; 3; 3; 3] -> real_angle theta -> is_real theta = Some true ->
  ((exists F, formgen_dipole_quadrupole ev is_real t q theta = Ok F) <-> exists G, formgen ev ex theta (Some t) None (Some q) = Ok G) /\
  forall F G, formgen_dipole_quadrupole ev is_real t q theta = Ok F -> formgen ev ex theta (Some t) None (Some q) = Ok G ->
    same_values theta F G.
Proof. intros ev ex is_real theta t q EV EX. exact (dipole_quadrupole_agrees ev ex EV EX is_real theta t q). Qed.
Print Assumptions C45_dipole_quadrupole.

(** It insists on an angle that is known to be real, unlike [formgen]. *)
Theorem C45_angle : forall ev is_real theta t q, is_real theta <> Some true ->
  formgen_dipole_quadrupole ev is_real t q theta = Raise ValueError.
Proof.
  intros ev is_real theta t q N. unfold formgen_dipole_quadrupole.
  assert (A : forall t, assert_real_params t = Ok tt \/ assert_real_params t = Raise ValueError).
  { intros u. unfold assert_real_params. destruct (forallb _ _); auto. }
  destruct (A t) as [-> | ->]; [|reflexivity]. cbn [bind]. destruct (A q) as [-> | ->]; [|reflexivity]. cbn [bind].
  destruct (is_real theta) as [[|]|]; [contradiction| |]; reflexivity.
Qed.
Print Assumptions C45_angle.

Theorem C45_combined : forall ev ex theta t q G, sound_ev ev -> sound_ev ex ->
  shape t = [3; 3; 3] -> shape q = [3; 3; 3; 3] -> real_angle theta -> angle_ok theta ->
  formgen ev ex theta (Some t) None (Some q) = Ok G ->
  exists Pp Ps Qp Qs F, gen_P_dipole_quadrupole ev t q theta = Ok (Pp, Ps, Qp, Qs) /\
    make_form_from_P_and_Q ev Pp Ps Qp Qs = Ok F /\
    same_values theta F G.
Proof. intros ev ex theta t q G EV EX. exact (make_form_agrees ev ex EV EX theta t q G). Qed.
Print Assumptions C45_combined.

(** [gen_P_just_dipole] hands out a zero that [make_form_from_P_and_Q] refuses. *)
Theorem C45_just_dipole_refuted : forall ev theta t, sound_ev ev -> shape t = [3; 3; 3] -> real_params (Some t) -> angle_ok theta ->
  exists Pp Ps Qp Qs, gen_P_just_dipole ev t theta = Ok (Pp, Ps, Qp, Qs) /\
    make_form_from_P_and_Q ev Pp Ps Qp Qs = Raise AttributeError.
Proof. intros ev theta t EV. exact (just_dipole_make_form ev EV theta t). Qed.
Print Assumptions C45_just_dipole_refuted.

Example C45_case : shape full3 = [3; 3; 3] /\ real_params (Some full3) /\ angle_ok theta_ /\ real_angle theta_ /\
  exists G, formgen (fun e => e) (fun e => e) theta_ (Some full3) None (Some full4) = Ok G.
Proof.
  split; [reflexivity|]. split; [exact full_real3|]. split; [intros s [<-|[]]; reflexivity|].
  split; [exists half, (1 / 2)%R; split; [exact half_respects|reflexivity]|].
  apply (proj1 (formgen_outcome (fun e => e) (fun e => e) same_sound theta_ (Some full3) None (Some full4) eq_refl I eq_refl)).
  split; [exact full_real3|]. split; [exact I|]. split; [exact full_real4|]. intros (X & _). discriminate.
Qed.

(* ================================================================== *)
(** * C46: rotation axes *)

Theorem C46_periodic : forall ev ex theta e m q F inp out x rho th a, sound_ev ev -> sound_ev ex -> shapes e m q ->
  formgen ev ex theta e m q = Ok F -> dget (key inp out) F = Some x ->
  respects rho -> eval rho theta = RtoC th -> all_phi_free theta e m q ->
  opt_invariant rho e (rot_z a) -> opt_invariant rho m (rot_z a) -> opt_invariant rho q (rot_z a) ->
  forall y, eval (at_phi rho (y + a)) x = eval (at_phi rho y) x.
Proof.
  intros ev ex theta e m q F inp out x rho th a EV EX Sh H X Rs Ht N.
  exact (formgen_periodic ev ex EV EX theta e m q F rho th inp out x a Sh H Rs Ht N X).
Qed.
Print Assumptions C46_periodic.

Theorem C46_axis : forall ev ex theta e m q F inp out x rho th n k, sound_ev ev -> sound_ev ex -> shapes e m q ->
  formgen ev ex theta e m q = Ok F -> dget (key inp out) F = Some x ->
  respects rho -> eval rho theta = RtoC th -> all_phi_free theta e m q -> (0 < n)%Z ->
  opt_invariant rho e (rot_z (2 * PI / IZR n)) -> opt_invariant rho m (rot_z (2 * PI / IZR n)) ->
  opt_invariant rho q (rot_z (2 * PI / IZR n)) -> ~ (n | k)%Z ->
  fourier_coefficient (fun y => eval (at_phi rho y) x) k = RtoC 0.
Proof.
  intros ev ex theta e m q F inp out x rho th n k EV EX Sh H X Rs Ht N Pn Ie Im Iq D.
  apply (tp_periodic 8 _ n k); auto.
  - exact (proj1 (formgen_trigpoly ev ex EV EX theta e m q F rho th inp out x Sh H Rs Ht N X)).
  - exact (formgen_periodic ev ex EV EX theta e m q F rho th inp out x _ Sh H Rs Ht N X Ie Im Iq).
Qed.
Print Assumptions C46_axis.

(** The tensors of the package for a group with an n-fold axis along z. *)
Theorem C46_tables : forall ev ex order theta name n d q gens gens' ord ord', sound_ev ev -> sound_ev ex -> iterates order ->
  dipole name = Ok d -> quadrupole name = Ok q ->
  dget name dipole_groups = Some (gens, ord) -> dget name quadrupole_groups = Some (gens', ord') ->
  (0 < n)%Z -> has_axis n gens -> has_axis n gens' -> ~ In phi (syms theta) ->
  forall dr qr, (make_tensor_real order d = Ok dr /\ make_tensor_real order q = Ok qr) \/
    (make_tensor_complex order dprefix dsuffix d = Ok dr /\ make_tensor_complex order dprefix dsuffix q = Ok qr) ->
  exists F, formgen ev ex theta (Some dr) None (Some qr) = Ok F /\
  forall inp out x rho th k, dget (key inp out) F = Some x -> respects rho -> eval rho theta = RtoC th -> ~ (n | k)%Z ->
  fourier_coefficient (fun y => eval (at_phi rho y) x) k = RtoC 0.
Proof. exact tables_axis. Qed.
Print Assumptions C46_tables.

Example C46_case : In ("C_4"%string, ([C4z], 4)) point_groups /\ has_axis 4 [C4z] /\
  exists d q, dipole "C_4" = Ok d /\ quadrupole "C_4" = Ok q.
Proof.
  split; [simpl; tauto|]. split.
  - exists (matmul 3 (identity 3) (mat C4z)). split; [apply gen_step; [apply gen_1|left; reflexivity]|].
    replace (2 * PI / 4)%R with (PI / 2)%R by field. apply (teq_trans _ (mat C4z)); [|apply C38_angles].
    apply unit_left.
  - eexists _, _. split; reflexivity.
Qed.

(* ================================================================== *)
(** * C47: normal incidence *)

Theorem C47_normal : forall ev ex theta e m q F rho pp ps sp ss, sound_ev ev -> sound_ev ex -> shapes e m q ->
  formgen ev ex theta e m q = Ok F -> respects rho -> eval rho theta = RtoC 0 -> all_phi_free theta e m q ->
  dget "PP"%string F = Some pp -> dget "PS"%string F = Some ps -> dget "SP"%string F = Some sp -> dget "SS"%string F = Some ss ->
  forall y, eval (at_phi rho (y + PI / 2)) ss = eval (at_phi rho y) pp /\
    eval (at_phi rho (y + PI / 2)) sp = eval (at_phi rho y) ps /\
    eval (at_phi rho (y + PI / 2)) ps = eval (at_phi rho y) sp /\
    eval (at_phi rho (y + PI / 2)) pp = eval (at_phi rho y) ss.
Proof.
  intros ev ex theta e m q F rho pp ps sp ss EV EX Sh H Rs Ht N Hpp Hps Hsp Hss y.
  pose proof (fun inp out x x' => formgen_normal ev ex EV EX theta e m q F rho inp out x x' Sh H Rs Ht N) as G.
  split; [exact (G Pin Pin pp ss Hpp Hss y)|]. split; [exact (G Pin Sin ps sp Hps Hsp y)|].
  split; [exact (G Sin Pin sp ps Hsp Hps y)|exact (G Sin Sin ss pp Hss Hpp y)].
Qed.
Print Assumptions C47_normal.

Example C47_case : shapes (Some full3) (Some full3) (Some full4) /\ all_phi_free (num 0) (Some full3) (Some full3) (Some full4) /\
  eval half (num 0) = RtoC 0 /\
  exists F, formgen (fun e => e) (fun e => e) (num 0) (Some full3) (Some full3) (Some full4) = Ok F.
Proof.
  split; [exact full_shapes|]. split; [split; [intros []|exact (proj2 full_phi_free)]|]. split; [apply eval_num0|].
  apply (proj1 (formgen_outcome (fun e => e) (fun e => e) same_sound (num 0) (Some full3) (Some full3) (Some full4) eq_refl eq_refl eq_refl)).
  split; [exact full_real3|]. split; [exact full_real3|]. split; [exact full_real4|]. intros (X & _). discriminate.
Qed.

(* ================================================================== *)
(** * C48: bandwidth *)

Theorem C48_degree : forall ev ex theta e m q F inp out x rho th, sound_ev ev -> sound_ev ex -> shapes e m q ->
  formgen ev ex theta e m q = Ok F -> dget (key inp out) F = Some x ->
  respects rho -> eval rho theta = RtoC th -> all_phi_free theta e m q ->
  (forall k, (8 < Z.abs k)%Z -> fourier_coefficient (fun y => eval (at_phi rho y) x) k = RtoC 0) /\
  (forall y, eval (at_phi rho y) x =
     Csum (fun k => Cmult (fourier_coefficient (fun y => eval (at_phi rho y) x) k) (cis (IZR k * y))) (freqs 8)) /\
  (q = None ->
     (forall k, (6 < Z.abs k)%Z -> fourier_coefficient (fun y => eval (at_phi rho y) x) k = RtoC 0) /\
     (forall y, eval (at_phi rho y) x =
        Csum (fun k => Cmult (fourier_coefficient (fun y => eval (at_phi rho y) x) k) (cis (IZR k * y))) (freqs 6))).
Proof.
  intros ev ex theta e m q F inp out x rho th EV EX Sh H X Rs Ht N.
  destruct (formgen_trigpoly ev ex EV EX theta e m q F rho th inp out x Sh H Rs Ht N X) as [T8 T6].
  split; [intros k; apply (tp_beyond 8 _ k T8)|]. split; [exact (tp_expand 8 _ T8)|].
  intros Q. specialize (T6 Q). split; [intros k; apply (tp_beyond 6 _ k T6)|exact (tp_expand 6 _ T6)].
Qed.
Print Assumptions C48_degree.

(** Both bounds are reached, at theta = pi/4 by the tensors with the single
    component xxx (or xxxx) equal to one. *)
Theorem C48_sharp : forall ev ex, sound_ev ev -> sound_ev ex ->
  (exists e F x rho, shape e = [3; 3; 3] /\ formgen ev ex theta_ (Some e) None None = Ok F /\ dget "PP"%string F = Some x /\
     respects rho /\ fourier_coefficient (fun y => eval (at_phi rho y) x) 6 <> RtoC 0) /\
  (exists q F x rho, shape q = [3; 3; 3; 3] /\ formgen ev ex theta_ None None (Some q) = Ok F /\ dget "PP"%string F = Some x /\
     respects rho /\ fourier_coefficient (fun y => eval (at_phi rho y) x) 8 <> RtoC 0).
Proof. exact degree_reached. Qed.
Print Assumptions C48_sharp.
