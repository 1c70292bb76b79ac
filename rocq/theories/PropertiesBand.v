(** Property C145: sampling Fourier data without high orders.  Beside each
    theorem a concrete case. *)
From Coq Require Import String List ZArith QArith Qreals Reals Lra Lia Bool.
From Coquelicot Require Import Complex.
From Verif Require Import PyBase RMod CBase FourierBase DataModel SpecData FDataModel SpecFData SpecBand FDataProofs FDataProofs2 Expr ExprProofs FormModel SpecForm
  FormProofs FormProofs2 FormProofs3 PipeProofs PipeThms BandProofs PropertiesFData PropertiesForm PropertiesFormgen PropertiesPipe.
Import ListNotations.
Local Open Scope nat_scope.

(** Fourier data of maximal order M without orders beyond B come back from more
    than M + B samples. *)
Theorem C145_band : forall interp f n B,
  exact_at_nodes interp -> accepts interp n -> freachable f -> 2 <= n -> B <= fget_M f -> fget_M f + B < n ->
  (forall k v, fget_pc f k = Ok v -> hermitian (fget_M f) v /\ up_to B (fget_M f) v) ->
  exists d f', fdat_to_dat f n = Ok d /\ dat_to_fdat interp d (fget_M f) = Ok f' /\ fget_items f' = fget_items f.
Proof. exact band_back. Qed.
Print Assumptions C145_band.

(** No smaller number does: some data come back changed. *)
Theorem C145_sharp : forall interp B M n, exact_at_nodes interp -> accepts interp n -> 2 <= n -> B <= M -> n <= M + B ->
  exists f, freachable f /\ fget_M f = M /\
    (forall k v, fget_pc f k = Ok v -> hermitian M v /\ up_to B M v) /\
    exists d f', fdat_to_dat f n = Ok d /\ dat_to_fdat interp d M = Ok f' /\ fget_items f' <> fget_items f.
Proof.
  intros interp B M n X Ac L2 LB L. exists (wave_fdat B M). split; [apply wave_reach|]. split; [reflexivity|]. split.
  - intros k v E. unfold fget_pc, dgetr in E. destruct (dget k (fd_data (wave_fdat B M))) eqn:G; [|discriminate].
    injection E as <-. apply dget_In in G. destruct G as [G|[]]. injection G as <- <-. split; [apply wave_hermitian|apply wave_up_to].
  - exact (wave_lost interp B M n X Ac L2 LB L).
Qed.
Print Assumptions C145_sharp.

(** The formulas the lookup table covers have no orders beyond 8, so more than 24
    samples of the simulated data give the Fourier data back. *)
Theorem C145_formula : forall ev interp f d rho n x1 x2, sound_ev ev -> exact_at_nodes interp -> accepts interp n ->
  (exists it, form_construct it = Ok f) -> (forall k e, In (k, e) f -> covered e) -> 24 < n ->
  (forall x, form_occurs f x -> x <> phi -> In x (dkeys d)) -> ~ In phi (dkeys d) -> respects rho -> agrees rho d ->
  (exists k e, In (k, e) f /\ eval (at_phi rho x1) e <> eval (at_phi rho x2) e) ->
  (forall k e x, In (k, e) f -> Im (eval (at_phi rho x) e) = 0%R) ->
  exists dt fd, form_to_dat ev f d n = Ok dt /\ form_to_fdat ev f d 16 = Ok fd /\ dat_to_fdat interp dt 16 = Ok fd.
Proof. intros ev interp f d rho n x1 x2 EV X Ac [it Cf] H. apply form_construct_inv in Cf. exact (simulate_back_24 ev EV interp f d rho n x1 x2 X Ac Cf H). Qed.
Print Assumptions C145_formula.

(** One wave of order 8 in an array for orders up to 16, 25 and 24 samples. *)
Example C145_case : freachable (wave_fdat 8 16) /\ hermitian 16 (wave_row 8 16) /\ up_to 8 16 (wave_row 8 16) /\
  coef 16 (wave_row 8 16) 8 = RtoC 1 /\ exact_at_nodes table_interp /\ accepts table_interp 25 /\ accepts table_interp 24.
Proof.
  split; [apply wave_reach|]. split; [apply wave_hermitian|]. split; [apply wave_up_to|].
  split; [rewrite wave_coef by lia; reflexivity|]. split; [apply table_exact|]. split; apply table_accepts.
Qed.
(** a cos(phi) sin(phi) at a = 2, with 25 points. *)
Example C145_case_formula : exists dt fd, form_to_dat (fun e => e) wave [(a_sym, (2, 0)%Q)] 25 = Ok dt /\
  form_to_fdat (fun e => e) wave [(a_sym, (2, 0)%Q)] 16 = Ok fd /\ dat_to_fdat table_interp dt 16 = Ok fd.
Proof.
  apply (C145_formula (fun e => e) table_interp wave [(a_sym, (2, 0)%Q)] rho2 25 0%R (PI / 4)%R id_sound table_exact (table_accepts 25)).
  - exists [(KStr "PP", Some (EMul [A_; COS; SIN]))]. reflexivity.
  - intros k e [E|[]]. injection E as <- <-. apply (cov_mul _ 1 1); [|lia].
    apply mono_free; [cbn; intuition discriminate|]. apply (mono_trig COS [SIN] 0 1 1 0); [constructor|]. apply (mono_trig SIN [] 0 0 0 1); constructor.
  - lia.
  - intros x (k & e & [E|[]] & I) N. injection E as <- <-. destruct I as [<-|[<-|[<-|[]]]]; [left; reflexivity|destruct (N eq_refl)|destruct (N eq_refl)].
  - cbn. intuition discriminate.
  - exact rho2_ok.
  - intros s q [E|[]]. injection E as <- <-. unfold rho2, qval, Q2R. apply C_ext; unfold Re, Im; simpl; field.
  - exists "PP"%string, (EMul [A_; COS; SIN]). split; [left; reflexivity|]. rewrite !eval_mul. cbn [map fold_right eval A_ COS SIN].
    unfold at_phi. change (sym_eqb a_sym phi) with false. change (sym_eqb phi phi) with true. cbv iota. rewrite !Ccos_R, !Csin_R.
    intros E. apply (f_equal Re) in E. unfold rho2 in E. unfold Re, Cmult, RtoC in E. cbn [fst snd] in E.
    rewrite sin_0, sin_PI4, cos_PI4 in E. assert (S : (sqrt 2 * sqrt 2 = 2)%R) by (apply sqrt_sqrt; lra).
    assert (Z : (sqrt 2 <> 0)%R) by (intros Z; rewrite Z in S; lra). assert (Y : (1 / sqrt 2 * (1 / sqrt 2) = / 2)%R) by (field_simplify_eq; [nra|exact Z]). nra.
  - intros k e x [E|[]]. injection E as <- <-. rewrite eval_mul. cbn [map fold_right eval A_ COS SIN].
    unfold at_phi. change (sym_eqb a_sym phi) with false. change (sym_eqb phi phi) with true. cbv iota. rewrite Ccos_R, Csin_R.
    unfold rho2, Im, Cmult, RtoC. cbn [fst snd]. ring.
Qed.
