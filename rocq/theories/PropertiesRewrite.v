(** Property C93: simplifying and expanding formulas. *)
From Coq Require Import String List Arith ZArith QArith Qreals Reals Lra Lia.
From Coquelicot Require Import Complex.
From Verif Require Import PyBase CBase FourierBase Expr ExprProofs DataModel SpecData FDataModel SpecFData FDataProofs FormModel SpecForm
  FormProofs FormProofs2 FormProofs3 FormProofs4 PipeProofs ViewModel PropertiesForm PropertiesPipe.
Import ListNotations.
Local Open Scope nat_scope.

(** Keys and values stay, and no symbol is added. *)
Theorem C93_values : forall ex f, sound_ev ex ->
  dkeys (form_rewrite ex f) = dkeys f /\
  (forall s, form_occurs (form_rewrite ex f) s -> form_occurs f s) /\
  forall k e, form_get_pc f k = Ok e -> exists e', form_get_pc (form_rewrite ex f) k = Ok e' /\
    forall rho, respects rho -> eval rho e' = eval rho e.
Proof.
  intros ex f EX. split; [apply dkeys_dmap|]. split.
  - intros s (k & e & I & Is). unfold form_rewrite, dmap in I. apply in_map_iff in I. destruct I as ([k0 e0] & E & I). injection E as -> <-.
    exists k, e0. split; [exact I|]. apply (proj2 EX). exact Is.
  - intros k e E. unfold form_get_pc, dgetr in *. unfold form_rewrite. rewrite dget_dmap. destruct (dget k f) as [e0|]; [|discriminate]. injection E as ->.
    exists (ex e). split; [reflexivity|]. intros rho R. apply (proj1 EX). exact R.
Qed.
Print Assumptions C93_values.

(** Sampled data stay. *)
Theorem C93_sampling : forall ev ex f d n rho x1 x2, sound_ev ev -> sound_ev ex -> (exists it, form_construct it = Ok f) -> 0 < n ->
  (forall x, form_occurs f x -> x <> phi -> In x (dkeys d)) -> ~ In phi (dkeys d) -> respects rho -> agrees rho d ->
  (exists k e, In (k, e) f /\ eval (at_phi rho x1) e <> eval (at_phi rho x2) e) ->
  exists dt, form_to_dat ev f d n = Ok dt /\ form_to_dat ev (form_rewrite ex f) d n = Ok dt.
Proof.
  intros ev ex f d n rho x1 x2 EV EX [it Cf] P H Np Hr Ha V. apply form_construct_inv in Cf.
  assert (Va : forall e x, eval (at_phi rho x) (ex e) = eval (at_phi rho x) e) by (intros e x; apply (proj1 EX), respects_at_phi; exact Hr).
  eexists. split; [eapply form_to_dat_accepts; eauto|].
  rewrite (form_to_dat_accepts ev EV (form_rewrite ex f) d n rho x1 x2); auto.
  - unfold form_rewrite. rewrite dmap_dmap. do 2 f_equal. unfold dmap. apply map_ext. intros [k e]. cbn [fst snd]. f_equal.
    unfold sampled. apply map_ext. intros x. rewrite Va. reflexivity.
  - unfold form_rewrite, wf_dict. rewrite dkeys_dmap. exact Cf.
  - intros x O. apply H. apply (C93_values ex f EX). exact O.
  - destruct V as (k & e & I & V). exists k, (ex e). split; [|rewrite !Va; exact V].
    unfold form_rewrite, dmap. apply in_map_iff. exists (k, e). auto.
Qed.
Print Assumptions C93_sampling.

(** Fourier data stay as long as the rewritten formula is of a kind that the
    Fourier transform handles. *)
Theorem C93_transform_partial : forall ev ex f d rho, sound_ev ev -> sound_ev ex -> (exists it, form_construct it = Ok f) ->
  (forall k e, In (k, e) f -> covered e) -> (forall k e, In (k, e) (form_rewrite ex f) -> covered e) ->
  (forall x, form_occurs f x -> x <> phi -> In x (dkeys d)) -> respects rho -> agrees rho d ->
  exists fd, form_to_fdat ev f d 16 = Ok fd /\ form_to_fdat ev (form_rewrite ex f) d 16 = Ok fd.
Proof.
  intros ev ex f d rho EV EX [it Cf] H H' O Hr Ha. apply form_construct_inv in Cf.
  eexists. split; [exact (form_to_fdat_value ev EV f d rho Cf H O Hr Ha)|].
  assert (Wf : wf_dict (form_rewrite ex f)) by (unfold form_rewrite, wf_dict; rewrite dkeys_dmap; exact Cf).
  rewrite (form_to_fdat_value ev EV (form_rewrite ex f) d rho Wf H'); auto.
  - unfold form_rewrite. rewrite dmap_dmap. do 2 f_equal. unfold dmap. apply map_ext. intros [k e]. cbn [fst snd]. f_equal.
    unfold coefficients. apply map_ext. intros m. apply fourier_coefficient_ext. intros x. apply (proj1 EX), respects_at_phi; exact Hr.
  - intros x Ox. apply O. apply (C93_values ex f EX). exact Ox.
Qed.
Print Assumptions C93_transform_partial.

(** But not otherwise: a*cos(phi)*sin(phi) simplifies to a*sin(2*phi)/2, whose
    transform is taken to be the constant a/2; in a sum it raises KeyError. *)
Definition product_ : expr := EMul [A_; COS; SIN].
Definition doubled : expr := EMul [A_; ENum (1 # 2) 0; ESin (EMul [ENum 2 0; ESym phi])].
Definition fold_product (e : expr) : expr := if expr_eqb e product_ then doubled else e.
Definition fold_angles (e : expr) : expr := match e with EAdd l => EAdd (map fold_product l) | _ => fold_product e end.
Lemma doubled_value rho : respects rho -> eval rho doubled = eval rho product_.
Proof.
  intros R. pose proof (R phi eq_refl) as I. unfold doubled, product_, A_, COS, SIN, cos_phi, sin_phi. cbn [eval map fold_right]. unfold Csin, Ccos.
  destruct (rho phi) as [x y]. unfold Im in I. cbn [snd fst] in *. subst y. destruct (rho a_sym) as [p q].
  assert (S2 : sin (2 * x) = (2 * sin x * cos x)%R) by apply sin_2a.
  replace (Q2R 2) with 2%R by (unfold Q2R; cbn; field). replace (Q2R (1 # 2)) with (/ 2)%R by (unfold Q2R; cbn; field).
  replace (Q2R 0) with 0%R by (unfold Q2R; cbn; field). unfold cprod, Cmult, RtoC. cbn [fst snd fold_right map].
  replace (2 * (x * 1 - 0 * 0) - 0 * (x * 0 + 0 * 1))%R with (2 * x)%R by ring.
  replace (2 * (x * 0 + 0 * 1) + 0 * (x * 1 - 0 * 0))%R with 0%R by ring.
  rewrite S2, cosh_0, sinh_0. apply C_ext; unfold Re, Im; cbn [fst snd]; field.
Qed.
Lemma fold_product_value rho e : respects rho -> eval rho (fold_product e) = eval rho e.
Proof.
  intros R. unfold fold_product. destruct (expr_eqb e product_) eqn:E; [|reflexivity].
  rewrite (doubled_value rho R). symmetry. apply expr_eqb_eval. exact E.
Qed.
Lemma expr_eqb_syms a : forall b, expr_eqb a b = true -> syms a = syms b.
Proof.
  induction a as [p q|s|l IH|l IH|b n IH|e IH|e IH|e IH|e IH|e IH] using expr_ind';
    intros [p' q'|s'|l'|l'|b' n'|e'|e'|e'|e'|e'] E; cbn [expr_eqb] in E; try discriminate; cbn [syms]; auto.
  - destruct (sym_eqb_spec s s'); [subst; reflexivity|discriminate].
  - revert l' E. induction IH as [|x l Hx IH IHl]; intros [|y l'] E; try discriminate; [reflexivity|].
    apply andb_prop in E as [E1 E2]. cbn [flat_map]. rewrite (Hx y E1), (IHl l' E2). reflexivity.
  - revert l' E. induction IH as [|x l Hx IH IHl]; intros [|y l'] E; try discriminate; [reflexivity|].
    apply andb_prop in E as [E1 E2]. cbn [flat_map]. rewrite (Hx y E1), (IHl l' E2). reflexivity.
  - apply andb_prop in E as [E1 _]. apply IH. exact E1.
Qed.
Lemma fold_product_syms e : incl (syms (fold_product e)) (syms e).
Proof.
  unfold fold_product. destruct (expr_eqb e product_) eqn:E; [|apply incl_refl]. rewrite (expr_eqb_syms _ _ E).
  intros s I. cbn in *. tauto.
Qed.
Lemma fold_angles_sound : sound_ev fold_angles.
Proof.
  split.
  - intros rho e R. destruct e; try apply fold_product_value; try exact R. cbn [fold_angles]. rewrite !ExprProofs.eval_add, map_map. f_equal.
    apply map_ext. intros a. apply fold_product_value. exact R.
  - intros e. destruct e; try apply fold_product_syms. cbn [fold_angles syms]. intros s I. apply in_flat_map in I. destruct I as (x & Ix & Is).
    apply in_map_iff in Ix. destruct Ix as (a & <- & Ia). apply in_flat_map. exists a. split; [exact Ia|]. apply fold_product_syms. exact Is.
Qed.

Lemma product_covered : covered product_.
Proof.
  apply (cov_mul _ 1 1); [|lia].
  apply mono_free; [cbn; intuition discriminate|]. apply (mono_trig COS [SIN] 0 1 1 0); [constructor|]. apply (mono_trig SIN [] 0 0 0 1); constructor.
Qed.
Definition mixed : expr := EAdd [product_; EMul [A_; EPow COS 2]].
Lemma mixed_covered : covered mixed.
Proof.
  apply cov_sum. intros e [<-|[<-|[]]].
  - exists [A_; COS; SIN], 1, 1. split; [reflexivity|]. split; [|lia].
    apply mono_free; [cbn; intuition discriminate|]. apply (mono_trig COS [SIN] 0 1 1 0); [constructor|]. apply (mono_trig SIN [] 0 0 0 1); constructor.
  - exists [A_; EPow COS 2], 2, 0. split; [reflexivity|]. split; [|lia].
    apply mono_free; [cbn; intuition discriminate|]. apply (mono_trig (EPow COS 2) [] 0 0 2 0); constructor.
Qed.

Theorem C93_transform_refuted : exists ex f f2, sound_ev ex /\ covered f /\ covered f2 /\
  (exists F F' c c', form_to_fform (fun e => e) [("PP"%string, f)] 16 = Ok F /\
     form_to_fform (fun e => e) (form_rewrite ex [("PP"%string, f)]) 16 = Ok F' /\
     ff_get_pc F "PP" = Ok c /\ ff_get_pc F' "PP" = Ok c' /\
     eval rho2 (nth 16 c (num 0)) = RtoC 0 /\ eval rho2 (nth 16 c' (num 0)) = RtoC 1) /\
  (exists F, form_to_fform (fun e => e) [("PP"%string, f2)] 16 = Ok F) /\
  form_to_fform (fun e => e) (form_rewrite ex [("PP"%string, f2)]) 16 = Raise KeyError.
Proof.
  exists fold_angles, product_, mixed. split; [exact fold_angles_sound|]. split; [exact product_covered|]. split; [exact mixed_covered|]. split; [|split].
  - eexists _, _, _, _. split; [vm_compute; reflexivity|]. split; [vm_compute; reflexivity|]. split; [reflexivity|]. split; [reflexivity|]. cbn [nth r_cells]. split.
    + cbn [eval map fold_right]. apply C_ext; unfold rho2, Q2R, Re, Im; simpl; field.
    + cbn [eval map fold_right]. apply C_ext; unfold rho2, Q2R, Re, Im; simpl; field.
  - eexists. vm_compute. reflexivity.
  - vm_compute. reflexivity.
Qed.
Print Assumptions C93_transform_refuted.

(** a*cos(phi)*sin(phi) at a = 2: sampling before and after gives the same data. *)
Example C93_case : exists dt, form_to_dat (fun e => e) wave [(a_sym, (2, 0)%Q)] 40 = Ok dt /\
  form_to_dat (fun e => e) (form_rewrite fold_angles wave) [(a_sym, (2, 0)%Q)] 40 = Ok dt /\ form_rewrite fold_angles wave = [("PP"%string, doubled)].
Proof.
  destruct (C93_sampling (fun e => e) fold_angles wave [(a_sym, (2, 0)%Q)] 40 rho2 0%R (PI / 4)%R id_sound fold_angles_sound) as (dt & E & E').
  - exists [(KStr "PP", Some (EMul [A_; COS; SIN]))]. reflexivity.
  - lia.
  - intros x (k & e & [E|[]] & I) N. injection E as <- <-. destruct I as [<-|[<-|[<-|[]]]]; [left; reflexivity|destruct (N eq_refl)|destruct (N eq_refl)].
  - cbn. intuition discriminate.
  - exact rho2_ok.
  - intros s q [E|[]]. injection E as <- <-. unfold rho2, qval, Q2R. apply C_ext; unfold Re, Im; simpl; field.
  - exists "PP"%string, (EMul [A_; COS; SIN]). split; [left; reflexivity|]. rewrite !ExprProofs.eval_mul. cbn [map fold_right eval A_ COS SIN].
    unfold at_phi. change (sym_eqb a_sym phi) with false. change (sym_eqb phi phi) with true. cbv iota. rewrite !Ccos_R, !Csin_R.
    intros E. apply (f_equal Re) in E. unfold rho2 in E. unfold Re, Cmult, RtoC in E. cbn [fst snd] in E.
    rewrite sin_0, sin_PI4, cos_PI4 in E. assert (S : (sqrt 2 * sqrt 2 = 2)%R) by (apply sqrt_sqrt; lra).
    assert (Z : (sqrt 2 <> 0)%R) by (intros Z; rewrite Z in S; lra). assert (Y : (1 / sqrt 2 * (1 / sqrt 2) = / 2)%R) by (field_simplify_eq; [nra|exact Z]). nra.
  - exists dt. split; [exact E|]. split; [exact E'|reflexivity].
Qed.
