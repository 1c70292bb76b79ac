(** Property C104: each polarization can be analysed alone.  Beside each theorem a
    concrete case. *)
From Coq Require Import String List Arith ZArith Bool Lia Reals QArith Qreals Lra.
From Coquelicot Require Import Complex.
Import ListNotations.
From Verif Require Import PyBase CBase RMod Expr ExprProofs DataModel SpecData FDataModel SpecFData FDataProofs FDataProofs2 PropertiesFData FormModel SpecForm
  FormProofs FormProofs2 FormProofs3 FormProofs4 PropertiesForm SpecLocal LocalProofs.
Local Open Scope nat_scope.

(** Fourier transform of data, and back *)
Theorem C104_dat_to_fdat : forall interp d d' M f, reachable d -> some_of (dc_data d') (dc_data d) -> dat_to_fdat interp d M = Ok f ->
  exists f', dat_to_fdat interp d' M = Ok f' /\ fget_keys f' = get_keys d' /\ some_of (fd_data f') (fd_data f) /\ fd_M f' = fd_M f.
Proof. intros interp d d' M f R. exact (local_dat_to_fdat interp d d' M f (reachable_wf d R)). Qed.
Print Assumptions C104_dat_to_fdat.
Theorem C104_fdat_to_dat : forall f f' n d, freachable f -> some_of (fd_data f') (fd_data f) -> fd_M f' = fd_M f -> fdat_to_dat f n = Ok d ->
  exists d', fdat_to_dat f' n = Ok d' /\ get_keys d' = fget_keys f' /\ some_of (dc_data d') (dc_data d).
Proof. intros f f' n d R. exact (local_fdat_to_dat f f' n d (proj1 (freachable_wf f R))). Qed.
Print Assumptions C104_fdat_to_dat.
(** Formulas to Fourier formulas, and back *)
Theorem C104_form_to_fform : forall ev (f f' : list (string * expr)) M F, NoDup (dkeys f) -> some_of f' f -> form_to_fform ev f M = Ok F ->
  exists F', form_to_fform ev f' M = Ok F' /\ ff_get_keys F' = dkeys f' /\ some_of (ff_rows F') (ff_rows F) /\ ff_M F' = ff_M F.
Proof. intros ev f f' M F. exact (local_form_to_fform ev f f' M F). Qed.
Print Assumptions C104_form_to_fform.
Theorem C104_fform_to_form : forall ev F F' f, ff_reachable ev F -> some_of (ff_rows F') (ff_rows F) -> ff_M F' = ff_M F -> fform_to_form ev F = Ok f ->
  exists f', fform_to_form ev F' = Ok f' /\ dkeys f' = ff_get_keys F' /\ some_of f' f.
Proof. intros ev F F' f R. exact (local_fform_to_form ev F F' f (ff_reachable_wf ev F R)). Qed.
Print Assumptions C104_fform_to_form.
(** Formulas to data, with the same parameters *)
Theorem C104_fform_to_fdat : forall ev F F' d fd rho, sound_ev ev -> ff_reachable ev F -> some_of (ff_rows F') (ff_rows F) -> ff_M F' = ff_M F ->
  respects rho -> agrees rho d -> fform_to_fdat ev F d = Ok fd ->
  exists fd', fform_to_fdat ev F' d = Ok fd' /\ fget_keys fd' = ff_get_keys F' /\ some_of (fd_data fd') (fd_data fd) /\ fd_M fd' = fd_M fd.
Proof. intros ev F F' d fd rho EV R. exact (local_fform_to_fdat ev EV F F' d fd rho (ff_reachable_wf ev F R)). Qed.
Print Assumptions C104_fform_to_fdat.
Theorem C104_fform_to_dat : forall ev F F' d n D rho, sound_ev ev -> ff_reachable ev F -> some_of (ff_rows F') (ff_rows F) -> ff_M F' = ff_M F ->
  respects rho -> agrees rho d -> fform_to_dat ev F d n = Ok D ->
  exists D', fform_to_dat ev F' d n = Ok D' /\ get_keys D' = ff_get_keys F' /\ some_of (dc_data D') (dc_data D).
Proof. intros ev F F' d n D rho EV R. exact (local_fform_to_dat ev EV F F' d n D rho (ff_reachable_wf ev F R)). Qed.
Print Assumptions C104_fform_to_dat.
Theorem C104_form_to_fdat : forall ev (f f' : list (string * expr)) d M fd rho, sound_ev ev -> NoDup (dkeys f) -> some_of f' f -> respects rho -> agrees rho d ->
  form_to_fdat ev f d M = Ok fd ->
  exists fd', form_to_fdat ev f' d M = Ok fd' /\ fget_keys fd' = dkeys f' /\ some_of (fd_data fd') (fd_data fd) /\ fd_M fd' = fd_M fd.
Proof. intros ev f f' d M fd rho EV. exact (local_form_to_fdat ev EV f f' d M fd rho). Qed.
Print Assumptions C104_form_to_fdat.
(** Scaling, phase shifts and filters of data *)
Theorem C104_edits : forall d d' o d1, (forall x, o <> ONormalize x) -> o <> OSubtractMin -> some_of (dc_data d') (dc_data d) ->
  step d o = (d1, Ok tt) -> exists d1', step d' o = (d1', Ok tt) /\ get_keys d1' = get_keys d' /\ some_of (dc_data d1') (dc_data d1).
Proof. exact local_step. Qed.
Print Assumptions C104_edits.

(** [form_to_dat]: the part must still vary with phi … *)
Theorem C104_form_to_dat_partial : forall ev (f f' : list (string * expr)) d n D rho x1 x2, sound_ev ev -> NoDup (dkeys f) -> some_of f' f -> 0 < n ->
  respects rho -> agrees rho d -> form_to_dat ev f d n = Ok D ->
  (exists k e, In (k, e) f' /\ eval (at_phi rho x1) e <> eval (at_phi rho x2) e) ->
  exists D', form_to_dat ev f' d n = Ok D' /\ get_keys D' = dkeys f' /\ some_of (dc_data D') (dc_data D).
Proof. intros ev f f' d n D rho x1 x2 EV. exact (local_form_to_dat ev EV f f' d n D rho x1 x2). Qed.
Print Assumptions C104_form_to_dat_partial.

(** … a polarization without azimuthal dependence is accepted together with
    another one and refused alone. *)
Definition cos_and_one : list (string * expr) := [("PP"%string, ECos (ESym phi)); ("SS"%string, num 1)].
Theorem C104_form_to_dat_refuted : exists (f f' : list (string * expr)), NoDup (dkeys f) /\ some_of f' f /\
  forall n, 0 < n -> (exists D, form_to_dat (fun e => e) f [] n = Ok D) /\ form_to_dat (fun e => e) f' [] n = Raise ValueError.
Proof.
  assert (W : NoDup (dkeys cos_and_one)) by (repeat constructor; cbn; intuition discriminate).
  exists cos_and_one, [("SS"%string, num 1)]. split; [exact W|]. split.
  { apply some_of_intro; [exact W|repeat constructor; intros []|]. intros x [<-|[]]. right; left; reflexivity. }
  intros n P. split; [|reflexivity]. eexists. exact (form_to_dat_ok (fun e => e) cos_and_one [] n W P eq_refl).
Qed.
Print Assumptions C104_form_to_dat_refuted.

(** ** Cases *)
Definition two_rows : list (string * list C) := [("PP"%string, [RtoC 0; RtoC 1; RtoC 0]); ("SS"%string, [RtoC 1; RtoC 2; RtoC 1])].
Example C104_data_case : exists f f' n d, freachable f /\ some_of (fd_data f') (fd_data f) /\ fd_M f' = fd_M f /\ get_keys d = ["PP"; "SS"]%string /\
  fget_keys f' = ["SS"%string] /\ fdat_to_dat f n = Ok d /\ reachable d /\ exists d' g, some_of (dc_data d') (dc_data d) /\ get_keys d' = ["SS"%string] /\
  dat_to_fdat table_interp d 1 = Ok g.
Proof.
  set (f := mkfdat two_rows 1 (PNum 0) 1). set (f' := mkfdat [("SS"%string, [RtoC 1; RtoC 2; RtoC 1])] 1 (PNum 0) 1).
  assert (W : wf_dict two_rows) by (repeat constructor; cbn; intuition discriminate).
  assert (R : freachable f).
  { exists (fitems two_rows), 1, f, []. split; [|reflexivity]. apply fconstruct_items. split; [exact W|repeat constructor]. }
  assert (S : some_of (fd_data f') (fd_data f)).
  { apply some_of_intro; [exact W|repeat constructor; intros []|]. intros x [<-|[]]. right; left; reflexivity. }
  pose proof (fdat_to_dat_spec f 4 (freachable_wf f R) ltac:(lia)) as E.
  destruct (C104_fdat_to_dat f f' 4 _ R S eq_refl E) as (d' & E' & K & Sd).
  destruct (C19_aliasing table_interp f 4 1 table_exact (table_accepts 4) R ltac:(lia)) as (d0 & g & E0 & Eg & _).
  rewrite E in E0. injection E0 as <-.
  eexists f, f', 4, _. split; [exact R|]. split; [exact S|]. split; [reflexivity|]. split; [|split; [reflexivity|split; [exact E|]]]; [reflexivity|].
  split.
  - revert E. unfold fdat_to_dat. cbv zeta. intros E. eexists _, _, _, _, []. split; [exact E|reflexivity].
  - exists d', g. split; [exact Sd|]. split; [exact K|exact Eg].
Qed.

Definition trig_pair : list (string * expr) := [("PP"%string, EPow (ECos (ESym phi)) 2); ("SS"%string, EMul [A_; EPow (ESin (ESym phi)) 2])].
Example C104_form_case : NoDup (dkeys trig_pair) /\ some_of [("SS"%string, EMul [A_; EPow (ESin (ESym phi)) 2])] trig_pair /\
  exists F fd rho, form_to_fform (fun e => e) trig_pair 16 = Ok F /\ ff_reachable (fun e => e) F /\ respects rho /\ agrees rho [(a_sym, (3, 1)%Q)] /\
    fform_to_fdat (fun e => e) F [(a_sym, (3, 1)%Q)] = Ok fd.
Proof.
  assert (W : NoDup (dkeys trig_pair)) by (repeat constructor; cbn; intuition discriminate).
  split; [exact W|]. split.
  { apply some_of_intro; [exact W|repeat constructor; intros []|]. intros x [<-|[]]. right; left; reflexivity. }
  destruct (form_to_fform_get (fun e => e) id_sound trig_pair 16 W) as (F & E & WF & EM & K & H); [|lia|].
  { intros k e [X|[X|[]]]; injection X as <- <-.
    - refine (cov_pow _ 2 0 2 (ECos (ESym phi)) eq_refl _ _); [constructor|lia].
    - refine (cov_mul _ 0 2 _ _); [|lia]. apply mono_free; [cbn; intros [X|[]]; discriminate X|].
      exact (mono_trig _ _ 0 0 0 2 (tf_sinn 2) mono_nil). }
  assert (R : ff_reachable (fun e => e) F).
  { revert E. unfold form_to_fform. destruct (dmapM _ trig_pair) as [r|]; [|discriminate]. cbn [bind]. intros E. eexists _, _, F, []. split; [exact E|reflexivity]. }
  assert (E2 : exists F2, Ok F2 = form_to_fform (fun e => e) trig_pair 16 /\ forallb (fun kr => r_obj (snd kr)) (ff_rows F2) = true /\
     forallb (fun kr => forallb (fun e => forallb (fun s => sym_eqb s a_sym) (syms e)) (r_cells (snd kr))) (ff_rows F2) = true).
  { eexists. split; [vm_compute; reflexivity|]. split; vm_compute; reflexivity. }
  destruct E2 as (F2 & E2 & B1 & B2). rewrite E in E2. assert (F2 = F) by congruence. subst F2. rewrite forallb_forall in B1, B2.
  destruct (C20_evaluation_partial (fun e => e) F [(a_sym, (3, 1)%Q)] id_sound R) as (fd & Efd & _).
  { intros k r I. exact (B1 (k, r) I). }
  { exact EM. }
  { intros s (k & r & e & I & J & L). left. specialize (B2 (k, r) I). cbn [snd] in B2. rewrite forallb_forall in B2. specialize (B2 e J).
    rewrite forallb_forall in B2. specialize (B2 s L). destruct (sym_eqb_spec s a_sym); [auto|discriminate]. }
  exists F, fd, (fun s => if sym_eqb s a_sym then qval (3, 1)%Q else RtoC 0).
  split; [exact E|]. split; [exact R|]. split; [|split; [|exact Efd]].
  - intros s E0. destruct (sym_eqb_spec s a_sym) as [->|]; [discriminate|reflexivity].
  - intros s q [X|[]]. injection X as <- <-. reflexivity.
Qed.
