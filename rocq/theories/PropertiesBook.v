(** C123-C125: what a container reports about its history, options given twice
    to a fit, and the spelling of the polarization names. *)
From Coq Require Import String Ascii List Arith ZArith Bool Lia Reals Lra.
From Coquelicot Require Import Complex.
Import ListNotations.
From Verif Require Import PyBase RMod CBase DataModel SpecData DataProofs DataProofs2 FDataModel SpecFData Expr FormModel FitModel SpecFit FitProofs5 PropertiesFit SpecBook BookProofs.
Local Open Scope nat_scope.

(** * C123 *)
Theorem C123_phase : forall d h s, get_phase_shift d "radians" = Ok s ->
  get_phase_shift (run d h) "radians" = Ok (s + shifts h)%R /\ get_phase_shift (run d h) "degrees" = Ok ((s + shifts h) * (180 / PI))%R.
Proof.
  intros d h s E. change (Ok (dc_phase d) = Ok s) in E. injection E as <-. destruct (reported_phase (run d h)) as (A & B). rewrite A, B, run_phase. split; reflexivity.
Qed.
Print Assumptions C123_phase.

(** A container starts with no shift. *)
Theorem C123_start : forall it u n d h, construct it u n = Ok d -> get_phase_shift (run d h) "radians" = Ok (shifts h).
Proof.
  intros it u n d h E. apply construct_Ok in E as (_ & _ & d2 & _ & _ & ->).
  erewrite (proj1 (C123_phase _ h 0%R _)). f_equal. ring. Unshelve. reflexivity.
Qed.
Print Assumptions C123_start.

(** A user function given to filter changes intensities only, whether it succeeds or not. *)
Theorem C123_filter : forall d f, let d' := fst (filter_data d f) in
  get_scale d' = get_scale d /\ get_offset d' = get_offset d /\ get_keys d' = get_keys d /\
  (forall u, get_phase_shift d' u = get_phase_shift d u) /\
  (forall k p, get_pc d' k "radians" = Ok p -> exists p0, get_pc d k "radians" = Ok p0 /\ map fst p = map fst p0).
Proof.
  intros d f. unfold filter_data. destruct (filter_loop f (dc_data d)) as [x r] eqn:E. cbn [fst].
  pose proof (filter_keys f (dc_data d)) as K. rewrite E in K. cbn [fst] in K.
  split; [reflexivity|]. split; [reflexivity|]. split; [exact K|]. split; [reflexivity|].
  intros k p P. exact (filter_angles f x r k p d E P).
Qed.
Print Assumptions C123_filter.

Theorem C123_fourier : forall f h s, fget_phase_shift f "radians" = Ok (PNum s) ->
  fget_phase_shift (frun f h) "radians" = Ok (PNum (s + fshifts h))%R /\ fget_phase_shift (frun f h) "degrees" = Ok (PNum ((s + fshifts h) * (180 / PI)))%R.
Proof.
  intros f h s E. change (Ok (fd_phase f) = Ok (PNum s)) in E. injection E as E. unfold fget_phase_shift. rewrite (frun_phase h f s E). split; reflexivity.
Qed.
Print Assumptions C123_fourier.

(** Also where copy has wrapped the shift (C15): the number reported is the
    number stored, and a later shift is added to it or refused. *)
Theorem C123_wrapped : forall f, (exists p p', fget_phase_shift f "radians" = Ok p /\ fget_phase_shift f "degrees" = Ok p' /\ number_in p' = (number_in p * (180 / PI))%R) /\
  forall a np u p, lower u = "radians"%string \/ lower u = "degrees"%string -> fget_phase_shift f "radians" = Ok p ->
    snd (phase_shift_fdata f a np u) = Ok tt -> exists p', fget_phase_shift (fst (phase_shift_fdata f a np u)) "radians" = Ok p' /\ number_in p' = (number_in p + asked a u)%R.
Proof. intros f. split; [apply degrees_number|intros a np u p; apply shift_number]. Qed.
Print Assumptions C123_wrapped.

Example C123_case : shifts [OPhase 1 "radians"; OScale 3; OPhase 90 "Degrees"; OPhase 7 "turns"; OSubtractMin] = (1 + PI / 2)%R.
Proof. transitivity (1 + (90 * PI / 180 + (0 + 0)))%R; [reflexivity|field]. Qed.
Example C123_wrapped_case : let f := mkfdat [("PP"%string, [RtoC 1])] 1 (PTup (PNum 2)) 0 in
  exists p', fget_phase_shift (fst (phase_shift_fdata (fst (phase_shift_fdata f 180 false "degrees")) 1 false "radians")) "degrees" = Ok p' /\ number_in p' = ((2 + PI + 1) * (180 / PI))%R.
Proof.
  intros f. destruct (C123_wrapped f) as (_ & H). destruct (H 180%R false "degrees"%string (PTup (PNum 2)) (or_intror eq_refl) eq_refl eq_refl) as (p1 & E1 & N1).
  set (g := fst (phase_shift_fdata f 180 false "degrees")) in *. destruct (C123_wrapped g) as (_ & H').
  destruct (H' 1%R false "radians"%string p1 (or_introl eq_refl) E1 eq_refl) as (p2 & E2 & N2). destruct (C123_wrapped (fst (phase_shift_fdata g 1 false "radians"))) as ((p3 & p' & E3 & E4 & N4) & _).
  exists p'. split; [exact E4|]. rewrite E2 in E3. injection E3 as <-. rewrite N4, N2, N1.
  rewrite (asked_deg "degrees" eq_refl), (asked_rad "radians" eq_refl). cbn [number_in]. unfold deg2rad. field. exact PI_neq0.
Qed.

(** * C124 *)
Theorem C124_least_squares : forall kev F D guess bounds chunk save kw fs free x0 bs, sound_kev kev -> matching F D -> ff_free_symbols F = Ok free -> free <> [] ->
  in_order free guess x0 -> bounds_ok free bounds bs -> (exists n, In n (ls_reserved bounds) /\ dget n kw <> None) ->
  forall optimiser, snd (least_squares_fit kev optimiser F D guess bounds chunk save None kw fs) = Raise TypeError.
Proof. intros. eapply least_squares_clash; eassumption. Qed.
Print Assumptions C124_least_squares.

Theorem C124_basinhopping : forall kev F D guess bounds own chunk save kw fs free x0 bo, sound_kev kev -> matching F D -> ff_free_symbols F = Ok free -> free <> [] ->
  in_order free guess x0 -> bound_option free bounds bo -> dget "minimizer_kwargs"%string kw = None -> (exists n, In n bh_taken /\ dget n kw <> None) ->
  forall optimiser, snd (basinhopping_fit kev optimiser F D guess bounds own chunk save None kw fs) = Raise TypeError.
Proof. intros. eapply basinhopping_clash; eassumption. Qed.
Print Assumptions C124_basinhopping.

Example C124_case : forall optimiser, snd (least_squares_fit (fun e => e) optimiser Fx Dx [(sb, 0%R); (sa, 1%R)] None false None None [("x0"%string, VTrue)] []) = Raise TypeError.
Proof.
  apply (C124_least_squares (fun e => e) Fx Dx [(sb, 0%R); (sa, 1%R)] None false None [("x0"%string, VTrue)] [] [sa; sb] [1; 0]%R None id_sound Fx_matching Fx_free).
  - discriminate. - repeat constructor. - reflexivity. - exists "x0"%string. split; [cbn; auto|discriminate].
Qed.
Example C124_case_hop : forall optimiser, snd (basinhopping_fit (fun e => e) optimiser Fx Dx [(sb, 0%R); (sa, 1%R)] None [] false None None [("niter"%string, VOther 5)] []) = Raise TypeError.
Proof.
  apply (C124_basinhopping (fun e => e) Fx Dx [(sb, 0%R); (sa, 1%R)] None [] false None [("niter"%string, VOther 5)] [] [sa; sb] [1; 0]%R [] id_sound Fx_matching Fx_free).
  - discriminate. - repeat constructor. - reflexivity. - reflexivity. - exists "niter"%string. split; [cbn; auto|discriminate].
Qed.

(** * C125 *)
Theorem C125_spelling : forall it it' u, NoDup (map fst it) -> NoDup (map fst it') ->
  Forall2 (fun a b => (exists k k' pc, fst a = KStr k /\ fst b = KStr k' /\ In pc four_keys /\ spells k pc /\ spells k' pc) /\ snd a = snd b) it it' ->
  construct it u true = construct it' u true.
Proof. exact construct_spelling. Qed.
Print Assumptions C125_spelling.

Theorem C125_only : forall it u d, construct it u true = Ok d -> forall a, In a it -> exists k pc, fst a = KStr k /\ In pc four_keys /\ spells k pc.
Proof. exact construct_spelled. Qed.
Print Assumptions C125_only.

Lemma spells_sp : spells "sP_run3" "SP".
Proof. exists "s"%char, "P"%char, "_run3"%string, "S"%char, "P"%char. unfold letter. auto 12. Qed.
Lemma spells_SP : spells "SP" "SP".
Proof. exists "S"%char, "P"%char, ""%string, "S"%char, "P"%char. unfold letter. auto 12. Qed.
Lemma spells_pp : spells "pp" "PP".
Proof. exists "p"%char, "p"%char, ""%string, "P"%char, "P"%char. unfold letter. auto 12. Qed.
Lemma spells_PP : spells "PP" "PP".
Proof. exists "P"%char, "P"%char, ""%string, "P"%char, "P"%char. unfold letter. auto 12. Qed.
Example C125_case : forall v w u, construct [(KStr "sP_run3", v); (KStr "pp", w)] u true = construct [(KStr "SP", v); (KStr "PP", w)] u true.
Proof.
  intros v w u. apply C125_spelling.
  - repeat constructor; cbn; intuition discriminate.
  - repeat constructor; cbn; intuition discriminate.
  - repeat constructor; cbn [fst snd].
    + exists "sP_run3"%string, "SP"%string, "SP"%string. repeat split; [cbn; auto|apply spells_sp|apply spells_SP].
    + exists "pp"%string, "PP"%string, "PP"%string. repeat split; [cbn; auto|apply spells_pp|apply spells_PP].
Qed.
(** The letters matter: "Q" is not one of them. *)
Example C125_refused : forall v u d, construct [(KStr "QP", v); (KStr "PP", v)] u true <> Ok d.
Proof.
  intros v u d E. destruct (C125_only _ u d E (KStr "QP", v) (or_introl eq_refl)) as (k & pc & A & _ & a & b & r & p & q & S & La & _).
  cbn in A. injection A as <-. injection S as <- _ _. unfold letter in La. destruct La as [(_ & [X|X])|(_ & [X|X])]; discriminate X.
Qed.
