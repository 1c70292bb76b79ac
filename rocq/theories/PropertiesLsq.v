(** Properties C81-C84: fits against the measured points, and of shifted, scaled
    and merged containers.  Beside each theorem a concrete case. *)
From Coq Require Import String List Arith ZArith QArith Reals Lra Lia Permutation.
From Coquelicot Require Import Complex.
From Verif Require Import PyBase RMod CBase Expr ExprProofs DataModel SpecData DataProofs DataProofs2 FDataModel SpecFData FDataProofs FDataProofs2 FormModel SpecForm
  FormProofs FormProofs2 FormProofs3 FormgenProofs FitModel SpecFit FitProofs FitProofs2 FitProofs3 SpecLsq LsqProofs LsqProofs2 PropertiesFData PropertiesForm PropertiesFit.
Import ListNotations.
Local Open Scope nat_scope.

(* ================================================================== *)
(** * C81: the fit in Fourier space is the least-squares fit to the points *)

(** The mean squared deviation from the points exceeds the squared misfit in
    Fourier space by what the truncated transform loses, whatever the parameters. *)
Theorem C81_resampled : forall interp d F pts, reachable d -> formula_ok F -> (forall k, In k (ff_get_keys F) -> In k (get_keys d)) ->
  (forall k p, get_pc d k "radians" = Ok p -> 2 * ff_M F < length p /\ 2 <= length p /\ resampled interp p (pts k)) ->
  exists D, dat_to_fdat interp d (ff_M F) = Ok D /\ matching F D /\ (0 <= lost F D pts)%R /\
    forall rho, sample_misfit F pts rho = (misfit F D rho + lost F D pts)%R.
Proof.
  intros interp d F pts R FO K H. pose proof (reachable_wf d R) as W. exists (transformed interp d F).
  assert (H' : forall k p, In (k, p) (dc_data d) -> 2 * ff_M F < length p /\ 2 <= length p /\ resampled interp p (pts k)) by (intros k p I; apply H, get_pc_In; assumption).
  split; [exact (transformed_ok interp d F pts W H')|]. split; [exact (transformed_matching interp d F W FO K)|]. split; [apply lost_nonneg|].
  exact (samples_split interp d F pts W K H').
Qed.
Print Assumptions C81_resampled.

(** Equally spaced points: the points themselves. *)
Theorem C81_points : forall interp d F pts, exact_at_nodes interp -> reachable d -> formula_ok F -> (forall k, In k (ff_get_keys F) -> In k (get_keys d)) ->
  (forall k p, get_pc d k "radians" = Ok p -> pts k = p /\ 2 * ff_M F < length p /\ 2 <= length p /\ equally_spaced p /\ is_ok (interp p)) ->
  exists D, dat_to_fdat interp d (ff_M F) = Ok D /\ matching F D /\
    forall rho, sample_misfit F pts rho = (misfit F D rho + lost F D pts)%R.
Proof.
  intros interp d F pts X R FO K H. destruct (C81_resampled interp d F pts R FO K) as (D & E & Ma & _ & S).
  - intros k p G. destruct (H k p G) as (-> & L & L2 & Eq & Ok). split; [exact L|]. split; [exact L2|]. apply resampled_self; assumption.
  - exists D. auto.
Qed.
Print Assumptions C81_points.

(** So the compiled cost ranks parameters as the points do. *)
Theorem C81_fit : forall kev interp d F pts free chunk save fs, sound_kev kev -> reachable d -> formula_ok F -> (forall k, In k (ff_get_keys F) -> In k (get_keys d)) ->
  (forall k p, get_pc d k "radians" = Ok p -> 2 * ff_M F < length p /\ 2 <= length p /\ resampled interp p (pts k)) ->
  argument_list F free -> (chunk = true -> ff_rows F <> []) ->
  exists D lib, dat_to_fdat interp d (ff_M F) = Ok D /\ gen_cost_func kev F D (Some free) chunk save fs = (save_lib save lib fs, Ok lib) /\
    forall xs ys c c', length xs = length free -> length ys = length free -> call lib xs = Some c -> call lib ys = Some c' ->
      ((c <= c')%R <-> (sample_misfit F pts (reading free xs) <= sample_misfit F pts (reading free ys))%R).
Proof.
  intros kev interp d F pts free chunk save fs KEV R FO K H Ar C. destruct (C81_resampled interp d F pts R FO K H) as (D & E & Ma & _ & S).
  destruct (C52_cost kev F D free chunk save fs KEV Ma Ar C) as (lib & G & V). exists D, lib. split; [exact E|]. split; [exact G|].
  intros xs ys c c' Lx Ly Ex Ey. rewrite (V xs (reading free xs)) in Ex by (first [lia|apply reading_assigns; [apply Ar|lia]]).
  rewrite (V ys (reading free ys)) in Ey by (first [lia|apply reading_assigns; [apply Ar|lia]]). injection Ex as <-. injection Ey as <-.
  rewrite (S (reading free xs)), (S (reading free ys)). lra.
Qed.
Print Assumptions C81_fit.

(** Three points, a constant to fit: the mean is best, the rest is lost. *)
Definition three (x : R) : R := if Rlt_dec x 1 then 1%R else if Rlt_dec x 3 then 2%R else 6%R.
Definition three_dat := mkdat [("PP"%string, sampled 3 three)] 1 0 0 "radians" false.
Lemma three_reach : reachable three_dat.
Proof.
  exists (input DFloat [("PP"%string, sampled 3 three)]), "radians"%string, false. eexists _, []. split.
  - rewrite construct_input; [reflexivity|repeat constructor; simpl; tauto|]. constructor; [|constructor]. unfold sampled, grid; discriminate.
  - unfold run. simpl. unfold three_dat. now rewrite finish_sampled.
Qed.
Lemma three_values : sampled 3 three = [((2 * PI * INR 0 / INR 3)%R, 1%R); ((2 * PI * INR 1 / INR 3)%R, 2%R); ((2 * PI * INR 2 / INR 3)%R, 6%R)].
Proof.
  unfold sampled, grid. cbn [seq map]. unfold node. pose proof DataProofs3.PI_bounds as [A B].
  assert (E0 : three (2 * PI * INR 0 / INR 3) = 1%R) by (unfold three; destruct (Rlt_dec _ 1) as [|N]; [reflexivity|exfalso; apply N; simpl; lra]).
  assert (E1 : three (2 * PI * INR 1 / INR 3) = 2%R) by (unfold three; destruct (Rlt_dec _ 1) as [N|_]; [simpl in N; lra|]; destruct (Rlt_dec _ 3) as [|N]; [reflexivity|exfalso; apply N; simpl; lra]).
  assert (E2 : three (2 * PI * INR 2 / INR 3) = 6%R) by (unfold three; destruct (Rlt_dec _ 1) as [N|_]; [simpl in N; lra|]; destruct (Rlt_dec _ 3) as [N|]; [simpl in N; lra|reflexivity]).
  rewrite E0, E1, E2. reflexivity.
Qed.
Example C81_case : exists D, dat_to_fdat table_interp three_dat 0 = Ok D /\
  (forall rho, sample_misfit F1 (fun _ => sampled 3 three) rho = (misfit F1 D rho + lost F1 D (fun _ => sampled 3 three))%R) /\
  sample_misfit F1 (fun _ => sampled 3 three) (fun _ => RtoC 3) = (14 / 3)%R.
Proof.
  destruct (C81_points table_interp three_dat F1 (fun _ => sampled 3 three) table_exact three_reach) as (D & E & _ & S).
  - apply F1_matching.
  - intros k I. exact I.
  - intros k p G. apply (get_pc_In _ _ _ (reachable_wf _ three_reach)) in G. destruct G as [G|[]]. injection G as <- <-. split; [reflexivity|].
    assert (L : length (sampled 3 three) = 3) by (unfold sampled; rewrite map_length, grid_length; reflexivity). rewrite L. split; [cbn; lia|]. split; [lia|].
    split; [unfold equally_spaced; rewrite L; exact (sampled_fst 3 three)|]. apply (table_accepts 3); [exact L|]. rewrite sampled_fst. apply grid_NoDup.
  - exists D. split; [exact E|]. split; [exact S|]. unfold sample_misfit, deviation. rewrite three_values. cbn [F1 ff_rows rsum fold_right fst snd length].
    assert (V : forall x, formula_at F1 (fun _ => RtoC 3) (mkrow true [ESym sa]) x = RtoC 3).
    { intros x. change (Cplus (Cmult (RtoC 3) (cis (IZR 0 * x))) (RtoC 0) = RtoC 3). rewrite Rmult_0_l, cis_0. ring. }
    rewrite !V, <- !RtoC_minus, !Cmod_R, !pow2_abs. simpl. field.
Qed.

(* ================================================================== *)
(** * C82: shifting formula and data together *)

Theorem C82_shift : forall ev F D a x np rho, sound_ev ev -> matching F D -> respects rho -> eval rho a = RtoC x ->
  misfit (ff_phase_shift ev F a) (fst (phase_shift_fdata D x np "radians")) rho = misfit F D rho.
Proof. intros ev F D a x np rho EV Ma Hr Ea. apply (misfit_shift ev EV F D a x np rho Ma Hr Ea). Qed.
Print Assumptions C82_shift.

(** The compiled costs agree, wherever the arguments stand for the same values. *)
Theorem C82_cost : forall ev kev F D a x np free free' chunk save fs, sound_ev ev -> sound_kev kev -> matching F D -> (chunk = true -> ff_rows F <> []) ->
  argument_list F free -> argument_list (ff_phase_shift ev F a) free' ->
  (forall rho, respects rho -> eval rho a = RtoC x) ->
  exists lib lib', gen_cost_func kev F D (Some free) chunk save fs = (save_lib save lib fs, Ok lib) /\
    gen_cost_func kev (ff_phase_shift ev F a) (fst (phase_shift_fdata D x np "radians")) (Some free') chunk save fs = (save_lib save lib' fs, Ok lib') /\
    forall rho xs ys, respects rho -> length free <= length xs -> length free' <= length ys -> assigns free xs rho -> assigns free' ys rho ->
      call lib xs = call lib' ys.
Proof.
  intros ev kev F D a x np free free' chunk save fs EV KEV Ma C Ar Ar' Ea.
  destruct (C52_cost kev F D free chunk save fs KEV Ma Ar C) as (lib & G & V).
  assert (Ma' : matching (ff_phase_shift ev F a) (fst (phase_shift_fdata D x np "radians"))).
  { assert (Z : respects (fun _ => RtoC 0)) by (intros s _; reflexivity). apply (misfit_shift ev EV F D a x np _ Ma Z (Ea _ Z)). }
  assert (C' : chunk = true -> ff_rows (ff_phase_shift ev F a) <> []).
  { intros X Y. apply (C X). cbn in Y. destruct (ff_rows F); [reflexivity|discriminate Y]. }
  destruct (C52_cost kev _ _ free' chunk save fs KEV Ma' Ar' C') as (lib' & G' & V'). exists lib, lib'. split; [exact G|]. split; [exact G'|].
  intros rho xs ys Hr Lx Ly Ax Ay. rewrite (V xs rho Lx Ax), (V' ys rho Ly Ay). f_equal. symmetry. apply C82_shift; auto.
Qed.
Print Assumptions C82_cost.

(** Shifted in real space (by a multiple of the spacing) the sign is opposite. *)
Theorem C82_real_space : forall ev interp d n j F a rho np, let x := (2 * PI * IZR j / INR n)%R in
  sound_ev ev -> exact_at_nodes interp -> accepts interp n -> 2 <= n -> reachable d ->
  (forall pc p, get_pc d pc "radians" = Ok p -> length p = n /\ equally_spaced p) ->
  formula_ok F -> (forall k, In k (ff_get_keys F) -> In k (get_keys d)) -> respects rho -> eval rho a = RtoC (- x) ->
  exists D D', dat_to_fdat interp d (ff_M F) = Ok D /\ dat_to_fdat interp (fst (phase_shift_data d x "radians")) (ff_M F) = Ok D' /\
    fget_items D' = fget_items (fst (phase_shift_fdata D (- x) np "radians")) /\
    misfit (ff_phase_shift ev F a) D' rho = misfit F D rho.
Proof.
  intros ev interp d n j F a rho np x EV X Ac L R H FO K Hr Ea.
  destruct (C17_phase_sign_partial interp d n j (ff_M F) np X Ac L R H) as (D & D' & E & E' & _ & I). fold x in E', I.
  assert (W := reachable_wf d R).
  assert (H' : forall k p, In (k, p) (dc_data d) -> map fst p = grid (length p) /\ 2 <= length p /\ is_ok (interp p)).
  { intros k p Ip. destruct (H k p) as [Lp Sp]; [apply get_pc_In; assumption|]. split; [exact Sp|]. split; [lia|]. apply Ac; [exact Lp|].
    rewrite Sp. exact (grid_NoDup (length p)). }
  rewrite dat_to_fdat_spec in E by auto. injection E as <-. set (D := mkfdat _ _ _ _) in *. exists D, D'. split; [rewrite dat_to_fdat_spec by auto; reflexivity|]. split; [exact E'|].
  split; [exact I|].
  assert (Ma : matching F D).
  { split; [exact FO|]. split; [split|split].
    - change (NoDup (dkeys (fd_data D))). unfold D. cbn [fd_data]. rewrite dkeys_dmap. exact W.
    - intros k v Iv. unfold D in Iv. cbn [fd_data] in Iv. apply In_dmap in Iv as (p & _ & ->). rewrite map_length, length_freqs. reflexivity.
    - reflexivity.
    - intros k Ik. change (In k (dkeys (fd_data D))). unfold D. cbn [fd_data]. rewrite dkeys_dmap. apply K, Ik. }
  destruct (misfit_shift ev EV F D a (- x)%R np rho Ma Hr Ea) as [Ma2 <-]. unfold misfit. apply rsum_ext. intros [k r] _. apply rsum_ext. intros m _.
  do 3 f_equal. unfold dvalue. change (fd_data D') with (fget_items D'). rewrite I.
  assert (EM : fd_M D' = ff_M F).
  { destruct (dat_to_fdat interp _ _) as [D2|] eqn:E2 in E'; [|discriminate]. injection E' as <-. unfold dat_to_fdat in E2.
    destruct (dmapM _ _) as [rows|]; [|discriminate]. cbn [bind] in E2. apply fconstruct_wf in E2. apply E2. }
  rewrite EM, (proj1 (proj2 (proj2 Ma2))). reflexivity.
Qed.
Print Assumptions C82_real_space.

Definition sshift : expr := num (1 # 2).
Example C82_case : misfit (ff_phase_shift (fun e => e) Fx sshift) (fst (phase_shift_fdata Dx (/ 2) false "radians")) (reading [sa; sb] [4; 1]%R) = 1%R.
Proof.
  rewrite (C82_shift (fun e => e) Fx Dx sshift (/ 2)%R false); [|exact PropertiesForm.id_sound|exact Fx_matching| |].
  - change (misfit Fx Dx (reading [sa; sb] [4; 1]%R)) with
      ((Cmod (Cminus (RtoC 1) (RtoC 1)) ^ 2 + (Cmod (Cminus (RtoC 4) (RtoC 3)) ^ 2 + (Cmod (Cminus (RtoC 1) (RtoC 1)) ^ 2 + 0)) +
        (Cmod (Cminus (eval (reading [sa; sb] [4; 1]%R) (num 0)) (RtoC 0)) ^ 2 + (Cmod (Cminus (RtoC 1) (RtoC 1)) ^ 2 + (Cmod (Cminus (eval (reading [sa; sb] [4; 1]%R) (num 0)) (RtoC 0)) ^ 2 + 0)) + 0))%R).
    rewrite eval_num0, <- !RtoC_minus, !Cmod_R, !pow2_abs. ring.
  - intros s E. unfold reading. destruct (sym_eqb s sa); [reflexivity|]. destruct (sym_eqb s sb); reflexivity.
  - unfold sshift, num. cbn [eval]. unfold qval, Q2R. apply C_ext; unfold Re, Im; simpl; field.
Qed.

(* ================================================================== *)
(** * C83: scaling formula and data together *)

Theorem C83_scale : forall ev F D s x rho, sound_ev ev -> matching F D -> respects rho -> eval rho s = RtoC x -> (0 <= x)%R ->
  snd (scale_fdata D x) = Ok tt /\ misfit (ff_scale ev F s) (fst (scale_fdata D x)) rho = (x ^ 2 * misfit F D rho)%R.
Proof. intros ev F D s x rho EV Ma Hr Es P. destruct (misfit_scale ev EV F D s x rho Ma Hr Es P) as (A & _ & B). auto. Qed.
Print Assumptions C83_scale.

Theorem C83_cost : forall ev kev F D s x free free' chunk save fs, sound_ev ev -> sound_kev kev -> matching F D -> (chunk = true -> ff_rows F <> []) ->
  argument_list F free -> argument_list (ff_scale ev F s) free' -> (forall rho, respects rho -> eval rho s = RtoC x) -> (0 <= x)%R ->
  exists lib lib', gen_cost_func kev F D (Some free) chunk save fs = (save_lib save lib fs, Ok lib) /\
    gen_cost_func kev (ff_scale ev F s) (fst (scale_fdata D x)) (Some free') chunk save fs = (save_lib save lib' fs, Ok lib') /\
    forall rho xs ys, respects rho -> length free <= length xs -> length free' <= length ys -> assigns free xs rho -> assigns free' ys rho ->
      exists c, call lib xs = Some c /\ call lib' ys = Some (x ^ 2 * c)%R.
Proof.
  intros ev kev F D s x free free' chunk save fs EV KEV Ma C Ar Ar' Es P.
  destruct (C52_cost kev F D free chunk save fs KEV Ma Ar C) as (lib & G & V).
  assert (Ma' : matching (ff_scale ev F s) (fst (scale_fdata D x))).
  { assert (Z : respects (fun _ => RtoC 0)) by (intros s0 _; reflexivity). apply (misfit_scale ev EV F D s x _ Ma Z (Es _ Z) P). }
  assert (C' : chunk = true -> ff_rows (ff_scale ev F s) <> []).
  { intros X Y. apply (C X). cbn in Y. destruct (ff_rows F); [reflexivity|discriminate Y]. }
  destruct (C52_cost kev _ _ free' chunk save fs KEV Ma' Ar' C') as (lib' & G' & V'). exists lib, lib'. split; [exact G|]. split; [exact G'|].
  intros rho xs ys Hr Lx Ly Ax Ay. exists (misfit F D rho). rewrite (V xs rho Lx Ax), (V' ys rho Ly Ay). split; [reflexivity|]. f_equal. apply C83_scale; auto.
Qed.
Print Assumptions C83_cost.
Example C83_case : misfit (ff_scale (fun e => e) Fx (num 3)) (fst (scale_fdata Dx 3)) (reading [sa; sb] [3; 1]%R) = 0%R /\ argument_list (ff_scale (fun e => e) Fx (num 3)) [sa; sb].
Proof.
  split.
  - assert (Z : respects (reading [sa; sb] [3; 1]%R)).
    { intros s _. unfold reading. destruct (sym_eqb s sa); [reflexivity|]. destruct (sym_eqb s sb); reflexivity. }
    rewrite (proj2 (C83_scale (fun e => e) Fx Dx (num 3) 3%R _ PropertiesForm.id_sound Fx_matching Z ltac:(unfold eval, num, qval; simpl; apply C_ext; unfold Re, Im, Q2R; simpl; field) ltac:(lra))).
    rewrite (proj2 (proj1 (proj2 (C52_misfit Fx Dx (reading [sa; sb] [3; 1]%R)))) Fx_reproduces). ring.
  - split; [apply (free_argument_list Fx [sa; sb] Fx_free)|]. intros s (k & r & e & I & J & S). cbn in I. cbn.
    destruct I as [I|[I|[]]]; injection I as <- <-; cbn in J; repeat (destruct J as [<-|J]; [cbn in S; tauto|]); destruct J.
Qed.

(* ================================================================== *)
(** * C84: fitting several data sets at once *)

(** Formulas and data merged under the same names: the misfit of the whole is the
    sum of the misfits. *)
Theorem C84_merged : forall ev g Fs Ds, Fs <> [] -> Forall2 (fun F D => matching F D /\ ff_M F = 16) Fs Ds ->
  (forall F, In F Fs -> ff_reachable ev F /\ symbolic F) -> (forall D, In D Ds -> freachable D) ->
  (forall i i' D D' k k', nth_error Ds i = Some D -> nth_error Ds i' = Some D' -> In k (fget_keys D) -> In k' (fget_keys D') -> g k i = g k' i' -> i = i' /\ k = k') ->
  exists F D, merge_containers (map CFForm Fs) (fun k i => KStr (g k i)) = Ok (CFForm F) /\
    merge_containers (map CFDat Ds) (fun k i => KStr (g k i)) = Ok (CFDat D) /\ matching F D /\
    forall rho, misfit F D rho = rsum (fun FD => misfit (fst FD) (snd FD) rho) (combine Fs Ds).
Proof.
  intros ev g Fs Ds NE H RF RD Sep.
  assert (SepD : separate g (map fdat_items (map CFDat Ds))).
  { intros j j' l l' k k' E E' I I' G. rewrite map_map in E, E'. rewrite nth_error_map in E, E'. cbn [fdat_items] in E, E'.
    destruct (nth_error Ds j) as [D|] eqn:Ed; [|discriminate]. destruct (nth_error Ds j') as [D'|] eqn:Ed'; [|discriminate].
    injection E as <-. injection E' as <-. exact (Sep j j' D D' k k' Ed Ed' I I' G). }
  assert (Nth : forall j F, nth_error Fs j = Some F -> exists D, nth_error Ds j = Some D /\ matching F D).
  { clear - H. induction H as [|F D Fs Ds [Ma _] H IH]; intros [|j] F0 E; try discriminate E.
    - injection E as <-. exists D. split; [reflexivity|exact Ma].
    - exact (IH j F0 E). }
  assert (SepF : separate g (map fform_items (map CFForm Fs))).
  { intros j j' l l' k k' E E' I I' G. rewrite map_map in E, E'. rewrite nth_error_map in E, E'. cbn [fform_items] in E, E'.
    destruct (nth_error Fs j) as [F|] eqn:Ef; [|discriminate]. destruct (nth_error Fs j') as [F'|] eqn:Ef'; [|discriminate].
    injection E as <-. injection E' as <-. destruct (Nth j F Ef) as (D & Ed & (_ & _ & _ & K)). destruct (Nth j' F' Ef') as (D' & Ed' & (_ & _ & _ & K')).
    exact (Sep j j' D D' k k' Ed Ed' (K k I) (K' k' I') G). }
  assert (NF : Forall (fun c => NoDup (map fst (fform_items c))) (map CFForm Fs)).
  { clear - H. apply Forall_map. cbn [fform_items]. induction H as [|F D Fs Ds [((N & _) & _) _] H IH]; constructor; auto. }
  assert (ND : Forall (fun c => NoDup (map fst (fdat_items c))) (map CFDat Ds)).
  { clear - H. apply Forall_map. cbn [fdat_items]. induction H as [|F D Fs Ds [(_ & (N & _) & _) _] H IH]; constructor; auto. }
  assert (M16 : (forall F, In F Fs -> ff_M F = 16) /\ (forall D, In D Ds -> fget_M D = 16)).
  { clear - H. induction H as [|F D Fs Ds [(_ & _ & EM & _) M] H [IH IH']]; [split; intros X []|]. split; intros X [<-|I]; auto. unfold fget_M. congruence. }
  destruct (C29_fform ev (map CFForm Fs) (fun k i => KStr (g k i))) as (G & EG & MG & NG & SG).
  { destruct Fs; [congruence|discriminate]. }
  { intros c I. apply in_map_iff in I as (F & <- & _). reflexivity. }
  { intros F I. apply in_map_iff in I as (F' & E & I). injection E as <-. destruct (RF F' I) as [A B]. split; [exact A|]. split; [exact B|]. apply M16, I. }
  { intros i j k v (c & k0 & _ & _ & <-). eauto. }
  destruct (C29_fdata (map CFDat Ds) (fun k i => KStr (g k i))) as (E & EE & _ & _ & ME & NEk & SE).
  { destruct H; [congruence|discriminate]. }
  { intros c I. apply in_map_iff in I as (F & <- & _). reflexivity. }
  { intros F I. apply in_map_iff in I as (F' & X & I). injection X as <-. split; [apply RD, I|apply M16, I]. }
  { intros i j k v (c & k0 & _ & _ & <-). eauto. }
  assert (GD : forall k v, dget k (fd_data E) = Some v <-> In (k, v) (renamed g 0 (map fdat_items (map CFDat Ds)))).
  { intros k v. rewrite <- (last_separate fdat_items _ g ND SepD k v), <- SE. unfold fget_pc, dgetr. destruct (dget k (fd_data E)); split; congruence. }
  assert (GF : forall k r, In (k, r) (ff_rows G) <-> In (k, r) (renamed g 0 (map fform_items (map CFForm Fs)))).
  { intros k r. rewrite <- (last_separate fform_items _ g NF SepF k r), <- SG. split; [apply In_dget, NG|apply dget_In]. }
  assert (PG : Permutation (ff_rows G) (renamed g 0 (map ff_rows Fs))).
  { rewrite map_map in GF. apply NoDup_Permutation; [apply NoDup_fst, NG| |intros [k r]; apply GF].
    apply NoDup_fst. apply NoDup_renamed; [|intros j j' l l' k k'; rewrite !Nat.add_0_l; rewrite map_map in SepF; apply SepF].
    apply Forall_map. rewrite Forall_map in NF. exact NF. }
  assert (VD : forall i D k v, nth_error Ds i = Some D -> In (k, v) (fd_data D) -> dget (g k i) (fd_data E) = Some v).
  { intros i D k v Ed I. apply GD, In_renamed. exists i, (fd_data D), k. rewrite map_map, nth_error_map, Ed. auto. }
  exists G, E. split; [exact EG|]. split; [exact EE|]. split.
  - split; [split|split; [split|split]].
    + exact NG.
    + intros k r I. apply GF, In_renamed in I as (j & l & k0 & El & I & ->). rewrite map_map, nth_error_map in El. destruct (nth_error Fs j) as [F|] eqn:Ef; [|discriminate].
      injection El as <-. destruct (Nth j F Ef) as (D & _ & ((_ & L) & _)). rewrite MG, <- (proj1 M16 F (nth_error_In _ _ Ef)). exact (L k0 r I).
    + exact NEk.
    + intros k v I. apply (In_dget k v _ NEk), GD, In_renamed in I as (j & l & k0 & El & I & ->). rewrite map_map, nth_error_map in El.
      destruct (nth_error Ds j) as [D|] eqn:Ed; [|discriminate]. injection El as <-. change (fd_M E) with (fget_M E). rewrite ME, <- (proj2 M16 D (nth_error_In _ _ Ed)).
      clear - H Ed I. revert j Ed. induction H as [|F D0 Fs Ds [(_ & (_ & L) & _) _] H IH]; intros [|j] Ed; try discriminate Ed; [|exact (IH j Ed)].
      injection Ed as ->. exact (L k0 v I).
    + change (fd_M E) with (fget_M E). rewrite ME, MG. reflexivity.
    + intros k I. apply in_map_iff in I as ([k1 r] & X & I). cbn [fst] in X. subst k1. apply GF, In_renamed in I as (j & l & k0 & El & I & ->).
      rewrite map_map, nth_error_map in El. destruct (nth_error Fs j) as [F|] eqn:Ef; [|discriminate]. injection El as <-.
      destruct (Nth j F Ef) as (D & Ed & (_ & _ & _ & K)). assert (Ik : In k0 (map fst (fd_data D))) by (apply K, in_map_iff; exists (k0, r); auto).
      apply in_map_iff in Ik as ([k1 v] & X & Iv). cbn [fst] in X. subst k1. apply in_map_iff. exists (g k0 (0 + j), v). split; [reflexivity|]. apply dget_In, (VD j D k0 v Ed Iv).
  - intros rho. apply (misfit_renamed G E g rho Fs Ds PG MG H ME VD).
Qed.
Print Assumptions C84_merged.

Theorem C84_cost : forall ev kev g Fs Ds free chunk save fs, sound_kev kev -> Fs <> [] -> Forall2 (fun F D => matching F D /\ ff_M F = 16) Fs Ds ->
  (forall F, In F Fs -> ff_reachable ev F /\ symbolic F) -> (forall D, In D Ds -> freachable D) ->
  (forall i i' D D' k k', nth_error Ds i = Some D -> nth_error Ds i' = Some D' -> In k (fget_keys D) -> In k' (fget_keys D') -> g k i = g k' i' -> i = i' /\ k = k') ->
  exists F D, merge_containers (map CFForm Fs) (fun k i => KStr (g k i)) = Ok (CFForm F) /\
    merge_containers (map CFDat Ds) (fun k i => KStr (g k i)) = Ok (CFDat D) /\
    (argument_list F free -> (chunk = true -> ff_rows F <> []) ->
     exists lib, gen_cost_func kev F D (Some free) chunk save fs = (save_lib save lib fs, Ok lib) /\
       forall xs rho, length free <= length xs -> assigns free xs rho -> call lib xs = Some (rsum (fun FD => misfit (fst FD) (snd FD) rho) (combine Fs Ds))).
Proof.
  intros ev kev g Fs Ds free chunk save fs KEV NE H RF RD Sep. destruct (C84_merged ev g Fs Ds NE H RF RD Sep) as (F & D & EF & ED & Ma & V).
  exists F, D. split; [exact EF|]. split; [exact ED|]. intros Ar C. destruct (C52_cost kev F D free chunk save fs KEV Ma Ar C) as (lib & G & W).
  exists lib. split; [exact G|]. intros xs rho L A. rewrite (W xs rho L A), V. reflexivity.
Qed.
Print Assumptions C84_cost.

(** The same formula for two measurements, PP and PPb. *)
Definition level (z : C) : fdat := mkfdat [("PP"%string, repeat z 33)] 1 (PNum 0) 16.
Lemma level_reachable z : freachable (level z).
Proof.
  exists (fitems [("PP"%string, repeat z 33)]), 16, (level z), []. split; [|reflexivity]. apply fconstruct_items. split; [repeat constructor; cbn; tauto|].
  constructor; [cbn; reflexivity|constructor].
Qed.
Lemma level_matching z : matching (flat 16) (level z).
Proof.
  split; [split; [repeat constructor; cbn; tauto|]; intros k r [E|[]]; injection E as <- <-; reflexivity|].
  split; [split; [repeat constructor; cbn; tauto|]; intros k r [E|[]]; injection E as <- <-; reflexivity|]. split; [reflexivity|]. intros k I. exact I.
Qed.
Definition second_b (k : string) (i : nat) : string := match i with O => k | _ => (k ++ "b")%string end.
Example C84_case : exists F D, merge_containers [CFForm (flat 16); CFForm (flat 16)] (fun k i => KStr (second_b k i)) = Ok (CFForm F) /\
  merge_containers [CFDat (level (RtoC 1)); CFDat (level (RtoC 2))] (fun k i => KStr (second_b k i)) = Ok (CFDat D) /\ ff_get_keys F = ["PP"; "PPb"]%string /\
  forall rho, misfit F D rho = (misfit (flat 16) (level (RtoC 1)) rho + (misfit (flat 16) (level (RtoC 2)) rho + 0))%R.
Proof.
  destruct (C84_merged (fun e => e) second_b [flat 16; flat 16] [level (RtoC 1); level (RtoC 2)]) as (F & D & EF & ED & _ & V).
  - discriminate.
  - constructor; [split; [apply level_matching|reflexivity]|]. constructor; [split; [apply level_matching|reflexivity]|constructor].
  - intros F [<-|[<-|[]]]; (split; [apply flat_reachable|apply flat_symbolic]).
  - intros D [<-|[<-|[]]]; apply level_reachable.
  - intros [|[|i]] [|[|i']] D D' k k' E E' I I' G; cbn [nth_error] in E, E'; try (destruct i; discriminate E); try (destruct i'; discriminate E');
      injection E as <-; injection E' as <-; destruct I as [<-|[]]; destruct I' as [<-|[]]; (split; [|reflexivity]); try reflexivity; discriminate G.
  - exists F, D. split; [exact EF|]. split; [exact ED|]. split; [|exact V]. cbn [map] in EF.
    assert (X : merge_containers [CFForm (flat 16); CFForm (flat 16)] (fun k i => KStr (second_b k i))
      = Ok (CFForm (mkff [("PP"%string, mkrow true (repeat A_ 33)); ("PPb"%string, mkrow true (repeat A_ 33))] 16))) by reflexivity.
    rewrite X in EF. injection EF as <-. reflexivity.
Qed.
