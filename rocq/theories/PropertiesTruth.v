(** C139: fitting noisy data. *)
From Coq Require Import String List Arith ZArith Bool Lia Reals Lra.
From Coquelicot Require Import Complex.
From Verif Require Import PyBase RMod CBase Expr DataModel SpecData SpecFData DataProofs DataProofs2 FDataModel FDataProofs FDataProofs2 PropertiesFData FormModel FitModel SpecFit FitProofs FitProofs2 FitProofs3 SpecLsq LsqProofs SpecForm SpecPipe
  PropertiesFit PropertiesLsq SpecLoop LoopProofs SpecTruth NoiseProofs TruthProofs PropertiesLoop.
Import ListNotations.
Local Open Scope nat_scope.

(* ================================================================== *)
(** * C139 *)

Lemma near_close F D free pts ts x xd : (0 <= lost F D pts)%R -> (forall rho, sample_misfit F pts rho = (misfit F D rho + lost F D pts)%R) ->
  near F D free ts x xd -> close F free pts ts x xd.
Proof.
  intros P S (X & L & M & A & E). split; [exact X|]. split; [exact L|]. split; [rewrite !S; lra|]. rewrite S. split.
  - intros n N. specialize (A n N). lra.
  - intros k r phi I. specialize (E k r phi I). pose proof (pos_INR (2 * ff_M F + 1)). nra.
Qed.

Theorem C139_least_squares : forall kev interp d F pts free ts, sound_kev kev -> exact_at_nodes interp -> reachable d -> formula_ok F ->
  (forall k, In k (ff_get_keys F) -> In k (get_keys d)) ->
  (forall k p, get_pc d k "radians" = Ok p -> pts k = p /\ 2 * ff_M F < length p /\ 2 <= length p /\ equally_spaced p /\ is_ok (interp p)) ->
  ff_free_symbols F = Ok free -> free <> [] -> length ts = length free ->
  exists D, dat_to_fdat interp d (ff_M F) = Ok D /\ forall optimiser guess bounds chunk save kw fs fs' x xd, finds_minimum optimiser -> bounds_hold bounds free ts ->
    least_squares_fit kev optimiser F D guess bounds chunk save None kw fs = (fs', Ok (Fitted x xd)) -> close F free pts ts x xd.
Proof.
  intros kev interp d F pts free ts KEV X R FO K H FF NE L. destruct (C81_points interp d F pts X R FO K H) as (D & E & Ma & S). exists D. split; [exact E|].
  intros optimiser guess bounds chunk save kw fs fs' x xd O B Q. apply (near_close F D free pts ts x xd (lost_nonneg F D pts) S).
  exact (truth_least_squares kev KEV F D free ts Ma FF NE L optimiser guess bounds chunk save kw fs fs' x xd O B Q).
Qed.
Print Assumptions C139_least_squares.

Theorem C139_dual_annealing : forall kev interp d F pts free ts, sound_kev kev -> exact_at_nodes interp -> reachable d -> formula_ok F ->
  (forall k, In k (ff_get_keys F) -> In k (get_keys d)) ->
  (forall k p, get_pc d k "radians" = Ok p -> pts k = p /\ 2 * ff_M F < length p /\ 2 <= length p /\ equally_spaced p /\ is_ok (interp p)) ->
  ff_free_symbols F = Ok free -> free <> [] -> length ts = length free ->
  exists D, dat_to_fdat interp d (ff_M F) = Ok D /\ forall optimiser guess bounds chunk save kw fs fs' x xd, finds_minimum optimiser -> bounds_hold bounds free ts ->
    dual_annealing_fit kev optimiser F D guess bounds chunk save None kw fs = (fs', Ok (Fitted x xd)) -> close F free pts ts x xd.
Proof.
  intros kev interp d F pts free ts KEV X R FO K H FF NE L. destruct (C81_points interp d F pts X R FO K H) as (D & E & Ma & S). exists D. split; [exact E|].
  intros optimiser guess bounds chunk save kw fs fs' x xd O B Q. apply (near_close F D free pts ts x xd (lost_nonneg F D pts) S).
  exact (truth_dual_annealing kev KEV F D free ts Ma FF NE L optimiser guess bounds chunk save kw fs fs' x xd O B Q).
Qed.
Print Assumptions C139_dual_annealing.

Theorem C139_basinhopping : forall kev interp d F pts free ts, sound_kev kev -> exact_at_nodes interp -> reachable d -> formula_ok F ->
  (forall k, In k (ff_get_keys F) -> In k (get_keys d)) ->
  (forall k p, get_pc d k "radians" = Ok p -> pts k = p /\ 2 * ff_M F < length p /\ 2 <= length p /\ equally_spaced p /\ is_ok (interp p)) ->
  ff_free_symbols F = Ok free -> free <> [] -> length ts = length free ->
  exists D, dat_to_fdat interp d (ff_M F) = Ok D /\ forall optimiser guess own chunk save kw fs fs' kw' x xd, finds_minimum optimiser ->
    basinhopping_fit kev optimiser F D guess None own chunk save None kw fs = (fs', kw', Ok (Fitted x xd)) -> close F free pts ts x xd.
Proof.
  intros kev interp d F pts free ts KEV X R FO K H FF NE L. destruct (C81_points interp d F pts X R FO K H) as (D & E & Ma & S). exists D. split; [exact E|].
  intros optimiser guess own chunk save kw fs fs' kw' x xd O Q. apply (near_close F D free pts ts x xd (lost_nonneg F D pts) S).
  exact (truth_basinhopping kev KEV F D free ts Ma FF NE L optimiser guess own chunk save kw fs fs' kw' x xd O Q).
Qed.
Print Assumptions C139_basinhopping.

(** basinhopping with bounds, and the variants given the gradient. *)
Theorem C139_bounded : forall kev interp d F pts free ts, sound_kev kev -> exact_at_nodes interp -> reachable d -> formula_ok F ->
  (forall k, In k (ff_get_keys F) -> In k (get_keys d)) ->
  (forall k p, get_pc d k "radians" = Ok p -> pts k = p /\ 2 * ff_M F < length p /\ 2 <= length p /\ equally_spaced p /\ is_ok (interp p)) ->
  ff_free_symbols F = Ok free -> free <> [] -> length ts = length free ->
  exists D, dat_to_fdat interp d (ff_M F) = Ok D /\ forall optimiser guess bounds own chunk save kw fs fs' kw' x xd, finds_bounded optimiser ->
    dget "minimizer_kwargs"%string kw = None -> dget "bounds"%string own = None -> bounds_hold (given_bounds bounds) free ts ->
    basinhopping_fit kev optimiser F D guess bounds own chunk save None kw fs = (fs', kw', Ok (Fitted x xd)) -> close F free pts ts x xd.
Proof.
  intros kev interp d F pts free ts KEV X R FO K H FF NE L. destruct (C81_points interp d F pts X R FO K H) as (D & E & Ma & S). exists D. split; [exact E|].
  intros optimiser guess bounds own chunk save kw fs fs' kw' x xd O Nk No B Q. apply (near_close F D free pts ts x xd (lost_nonneg F D pts) S).
  exact (truth_bounded kev KEV F D free ts Ma FF NE L optimiser guess bounds own chunk save kw fs fs' kw' x xd O Nk No B Q).
Qed.
Print Assumptions C139_bounded.

Theorem C139_jac : forall kev interp d F pts free ts, sound_kev kev -> exact_at_nodes interp -> reachable d -> formula_ok F ->
  (forall k, In k (ff_get_keys F) -> In k (get_keys d)) ->
  (forall k p, get_pc d k "radians" = Ok p -> pts k = p /\ 2 * ff_M F < length p /\ 2 <= length p /\ equally_spaced p /\ is_ok (interp p)) ->
  ff_free_symbols F = Ok free -> free <> [] -> length ts = length free ->
  exists D, dat_to_fdat interp d (ff_M F) = Ok D /\ forall optimiser guess bounds own chunk save gp kw fs fs' kw' x xd, finds_bounded optimiser ->
    dget "minimizer_kwargs"%string kw = None -> dget "bounds"%string own = None -> bounds_hold (given_bounds bounds) free ts ->
    basinhopping_fit_jac kev optimiser F D guess bounds own chunk save gp None None kw fs = (fs', kw', Ok (Fitted x xd)) -> close F free pts ts x xd.
Proof.
  intros kev interp d F pts free ts KEV X R FO K H FF NE L. destruct (C81_points interp d F pts X R FO K H) as (D & E & Ma & S). exists D. split; [exact E|].
  intros optimiser guess bounds own chunk save gp kw fs fs' kw' x xd O Nk No B Q. apply (near_close F D free pts ts x xd (lost_nonneg F D pts) S).
  exact (truth_jac kev KEV F D free ts Ma FF NE L optimiser guess bounds own chunk save gp kw fs fs' kw' x xd O Nk No B Q).
Qed.
Print Assumptions C139_jac.

(** The same variants for simulated data (C138). *)
Theorem C138_bounded : forall ev kev F d free xs, sound_ev ev -> sound_kev kev ->
  ff_reachable ev F -> symbolic F -> ff_M F = 16 -> ff_free_symbols F = Ok free -> free <> [] -> parameter_values d -> listed d free xs ->
  exists D, fform_to_fdat ev F d = Ok D /\ forall optimiser guess bounds own chunk save kw fs fs' kw' x xd, finds_bounded optimiser ->
    dget "minimizer_kwargs"%string kw = None -> dget "bounds"%string own = None -> bounds_hold (given_bounds bounds) free xs ->
    basinhopping_fit kev optimiser F D guess bounds own chunk save None kw fs = (fs', kw', Ok (Fitted x xd)) ->
    xd = combine free x /\ length x = length free /\
    forall d', parameter_values d' -> same_numbers xd d' -> exists D', fform_to_fdat ev F d' = Ok D' /\ fget_items D' = fget_items D.
Proof.
  intros ev kev F d free xs EV KEV RF SF MF FF NE PD LD. destruct (near_closes ev kev F d free xs EV KEV RF SF MF FF NE PD LD) as (D & E & Ma & H).
  exists D. split; [exact E|]. intros optimiser guess bounds own chunk save kw fs fs' kw' x xd O Nk No B Q. apply H.
  exact (truth_bounded kev KEV F D free xs Ma FF NE (length_xs d free xs LD) optimiser guess bounds own chunk save kw fs fs' kw' x xd O Nk No B Q).
Qed.
Print Assumptions C138_bounded.

Theorem C138_jac : forall ev kev F d free xs, sound_ev ev -> sound_kev kev ->
  ff_reachable ev F -> symbolic F -> ff_M F = 16 -> ff_free_symbols F = Ok free -> free <> [] -> parameter_values d -> listed d free xs ->
  exists D, fform_to_fdat ev F d = Ok D /\ forall optimiser guess bounds own chunk save gp kw fs fs' kw' x xd, finds_bounded optimiser ->
    dget "minimizer_kwargs"%string kw = None -> dget "bounds"%string own = None -> bounds_hold (given_bounds bounds) free xs ->
    basinhopping_fit_jac kev optimiser F D guess bounds own chunk save gp None None kw fs = (fs', kw', Ok (Fitted x xd)) ->
    xd = combine free x /\ length x = length free /\
    forall d', parameter_values d' -> same_numbers xd d' -> exists D', fform_to_fdat ev F d' = Ok D' /\ fget_items D' = fget_items D.
Proof.
  intros ev kev F d free xs EV KEV RF SF MF FF NE PD LD. destruct (near_closes ev kev F d free xs EV KEV RF SF MF FF NE PD LD) as (D & E & Ma & H).
  exists D. split; [exact E|]. intros optimiser guess bounds own chunk save gp kw fs fs' kw' x xd O Nk No B Q. apply H.
  exact (truth_jac kev KEV F D free xs Ma FF NE (length_xs d free xs LD) optimiser guess bounds own chunk save gp kw fs fs' kw' x xd O Nk No B Q).
Qed.
Print Assumptions C138_jac.

(** When no point is further than [eps] from the true curve. *)
Theorem C139_noise : forall F pts rho eps, (0 <= eps)%R ->
  (forall k r phi y, In (k, r) (ff_rows F) -> In (phi, y) (pts k) -> (Cmod (Cminus (formula_at F rho r phi) (RtoC y)) <= eps)%R) ->
  (forall k r, In (k, r) (ff_rows F) -> pts k <> []) ->
  (sample_misfit F pts rho <= INR (length (ff_rows F)) * eps ^ 2)%R.
Proof.
  intros F pts rho eps P H N. unfold sample_misfit. rewrite <- (rsum_const (eps ^ 2)%R (ff_rows F)). apply rsum_le. intros (k, r) I. cbn [fst snd]. unfold deviation.
  specialize (N k r I). assert (Q : (0 < INR (length (pts k)))%R) by (apply lt_0_INR; destruct (pts k); [congruence|cbn; lia]).
  apply Rmult_le_reg_l with (1 := Q). rewrite <- Rmult_assoc, Rinv_r, Rmult_1_l by lra. rewrite <- (rsum_const (eps ^ 2)%R (pts k)). apply rsum_le.
  intros (phi, y) J. cbn [fst snd]. apply pow_incr. split; [apply Cmod_ge_0|exact (H k r phi y I J)].
Qed.
Print Assumptions C139_noise.

(** Three points 1, 2, 6 fitted with a constant: the answer is 3; had the truth been 2,
    no point is further than 4 from it, and the answer lies within the bound. *)
Lemma three_misfit v : sample_misfit F1 (fun _ => sampled 3 three) (reading [sa] [v]) = (((v - 1) ^ 2 + (v - 2) ^ 2 + (v - 6) ^ 2) / 3)%R.
Proof.
  unfold sample_misfit, deviation. rewrite three_values. cbn [F1 ff_rows rsum fold_right fst snd length].
  assert (V : forall x, formula_at F1 (reading [sa] [v]) (mkrow true [ESym sa]) x = RtoC v).
  { intros x. change (Cplus (Cmult (RtoC v) (cis (IZR 0 * x))) (RtoC 0) = RtoC v). rewrite Rmult_0_l, cis_0. ring. }
  rewrite !V, <- !RtoC_minus, !Cmod_R, !pow2_abs. simpl. field.
Qed.
Example C139_case : exists optimiser D, finds_minimum optimiser /\ dat_to_fdat table_interp three_dat 0 = Ok D /\
  dual_annealing_fit (fun e => e) optimiser F1 D [(sa, 0%R)] (Some [(sa, (0, 5)%R)]) false None None [] [] = ([], Ok (Fitted [3%R] [(sa, 3%R)])) /\
  close F1 [sa] (fun _ => sampled 3 three) [2%R] [3%R] [(sa, 3%R)] /\
  (sample_misfit F1 (fun _ => sampled 3 three) (reading [sa] [2%R]) <= INR 1 * 4 ^ 2)%R.
Proof.
  assert (H : forall k p, get_pc three_dat k "radians" = Ok p -> sampled 3 three = p /\ 2 * ff_M F1 < length p /\ 2 <= length p /\ equally_spaced p /\ is_ok (table_interp p)).
  { intros k p G. apply (get_pc_In _ _ _ (reachable_wf _ three_reach)) in G. destruct G as [G|[]]. injection G as <- <-. split; [reflexivity|].
    assert (L : length (sampled 3 three) = 3) by (unfold sampled; rewrite map_length, grid_length; reflexivity). rewrite L. split; [cbn; lia|]. split; [lia|].
    split; [unfold equally_spaced; rewrite L; exact (sampled_fst 3 three)|]. apply (table_accepts 3); [exact L|]. rewrite sampled_fst. apply grid_NoDup. }
  assert (FO : formula_ok F1) by apply F1_matching.
  assert (FS : ff_free_symbols F1 = Ok [sa]) by reflexivity.
  destruct (C81_points table_interp three_dat F1 (fun _ => sampled 3 three) table_exact three_reach FO (fun k I => I) H) as (D & E & Ma & S).
  pose proof (free_argument_list F1 [sa] FS) as A.
  destruct (C52_cost (fun e => e) F1 D [sa] false None [] FitProofs5.id_sound Ma A ltac:(discriminate)) as (lib & G & V).
  assert (V' : forall v, call lib [v] = Some (misfit F1 D (reading [sa] [v]))) by (intros v; apply V; [cbn; lia|apply reading_assigns; [apply A|cbn; lia]]).
  exists (candidate [3%R]), D. split; [apply candidate_finds|]. split; [exact E|].
  assert (Fi : dual_annealing_fit (fun e => e) (candidate [3%R]) F1 D [(sa, 0%R)] (Some [(sa, (0, 5)%R)]) false None None [] [] = ([], Ok (Fitted [3%R] [(sa, 3%R)]))).
  { unfold dual_annealing_fit. rewrite FS. unfold cost_of. rewrite G. cbn [bind].
    change (x0_of [sa] [(sa, 0%R)]) with (Ok [0%R]). change (x0_of [sa] [(sa, (0, 5)%R)]) with (Ok [(0, 5)%R]). cbn [bind].
    rewrite candidate_answers; [reflexivity|]. split; [reflexivity|]. intros y v Ly _ Y. destruct y as [|y [|? ?]]; try discriminate Ly. rewrite V' in Y. injection Y as <-.
    eexists. split; [apply V'|]. pose proof (S (reading [sa] [3%R])) as S3. pose proof (S (reading [sa] [y])) as Sy. rewrite three_misfit in S3, Sy.
    pose proof (pow2_ge_0 (y - 3)). change (misfit F1 D (reading [sa] [3%R]) <= misfit F1 D (reading [sa] [y]))%R. lra. }
  split; [exact Fi|]. split.
  - destruct (C139_dual_annealing (fun e => e) table_interp three_dat F1 (fun _ => sampled 3 three) [sa] [2%R] FitProofs5.id_sound table_exact three_reach FO (fun k I => I) H FS
      ltac:(discriminate) eq_refl) as (D' & E' & T). assert (D' = D) by (cbn [F1 ff_M] in *; congruence). subst D'.
    apply (T (candidate [3%R]) [(sa, 0%R)] (Some [(sa, (0, 5)%R)]) false None [] [] [] [3%R] [(sa, 3%R)]); [apply candidate_finds| |exact Fi].
    constructor; [|constructor]. exists 0%R, 5%R. split; [reflexivity|]. lra.
  - rewrite three_misfit. simpl. lra.
Qed.

(** The same points, basinhopping with the gradient and bounds. *)
Definition hopper (cand : list R) (o : objective) (x0 : list R) (bs : option (list (R * R))) (own kw : list (string * val)) : res (list R) :=
  let f := match o with Scalar f => f | WithGradient f _ => f end in
  if ClassicalDedekindReals.sig_not_dec (smallest f (length x0) (bounds_in own) cand) then Ok cand else Raise ValueError.
Lemma hopper_finds cand : finds_bounded (hopper cand).
Proof.
  intros o f x0 own kw x Ob E. unfold hopper in E. assert (Ef : match o with Scalar f => f | WithGradient f _ => f end = f) by (destruct Ob as [->|(g & ->)]; reflexivity).
  rewrite Ef in E. destruct (ClassicalDedekindReals.sig_not_dec _) as [H|]; [|discriminate E]. injection E as <-. apply smallest_stable, H.
Qed.
Lemma hopper_answers cand f g x0 bs own kw : smallest f (length x0) (bounds_in own) cand -> hopper cand (WithGradient f g) x0 bs own kw = Ok cand.
Proof. intros H. unfold hopper. destruct (ClassicalDedekindReals.sig_not_dec _) as [|N]; [reflexivity|]. exfalso. exact (N H). Qed.
Example C139_case_jac : exists optimiser D fs', finds_bounded optimiser /\ dat_to_fdat table_interp three_dat 0 = Ok D /\
  basinhopping_fit_jac push optimiser F1 D [(sa, 0%R)] (Some (Some [(sa, (0, 5)%R)])) [("method"%string, VStr "BFGS")] false None None None None [] [] = (fs', [], Ok (Fitted [3%R] [(sa, 3%R)])).
Proof.
  assert (H : forall k p, get_pc three_dat k "radians" = Ok p -> sampled 3 three = p /\ 2 * ff_M F1 < length p /\ 2 <= length p /\ equally_spaced p /\ is_ok (table_interp p)).
  { intros k p G. apply (get_pc_In _ _ _ (reachable_wf _ three_reach)) in G. destruct G as [G|[]]. injection G as <- <-. split; [reflexivity|].
    assert (L : length (sampled 3 three) = 3) by (unfold sampled; rewrite map_length, grid_length; reflexivity). rewrite L. split; [cbn; lia|]. split; [lia|].
    split; [unfold equally_spaced; rewrite L; exact (sampled_fst 3 three)|]. apply (table_accepts 3); [exact L|]. rewrite sampled_fst. apply grid_NoDup. }
  assert (FO : formula_ok F1) by apply F1_matching.
  assert (FS : ff_free_symbols F1 = Ok [sa]) by reflexivity.
  destruct (C81_points table_interp three_dat F1 (fun _ => sampled 3 three) table_exact three_reach FO (fun k I => I) H) as (D & E & Ma & S).
  pose proof (free_argument_list F1 [sa] FS) as A.
  assert (Ms : forall v, misfit F1 D (reading [sa] [v]) = (((v - 1) ^ 2 + (v - 2) ^ 2 + (v - 6) ^ 2) / 3 - lost F1 D (fun _ => sampled 3 three))%R).
  { intros v. pose proof (S (reading [sa] [v])) as Q. rewrite three_misfit in Q. lra. }
  destruct (gradient_exists push push_sound F1 D [sa] None None [] push_resolves Ma A F1_plain) as [(fs' & lib & ls & G)|(_ & Q)].
  2:{ exfalso. pose proof (Q _ _ _ _ (one_assigns 0) (one_assigns 3)) as Q'. rewrite !Ms in Q'. lra. }
  destruct (gradient_sound push push_sound F1 D [sa] None None [] fs' lib ls Ma A G) as (_ & V & _).
  assert (V' : forall v, call lib [v] = Some (misfit F1 D (reading [sa] [v]))) by (intros v; apply V; [cbn; lia|apply reading_assigns; [apply A|cbn; lia]]).
  exists (hopper [3%R]), D, fs'. split; [apply hopper_finds|]. split; [exact E|].
  unfold basinhopping_fit_jac. rewrite FS. rewrite G. unfold basinhop.
  change (x0_of [sa] [(sa, 0%R)]) with (Ok [0%R]). change (x0_of [sa] [(sa, (0, 5)%R)]) with (Ok [(0, 5)%R]). cbn [bind].
  change (take_minimizer _ []) with ([] : list (string * val), Ok [("method"%string, VStr "BFGS"); ("jac"%string, VTrue); ("bounds"%string, VBounds (Some [(0, 5)%R]))]).
  cbn [bind]. change (no_clash bh_reserved []) with (Ok tt). cbn [bind].
  rewrite hopper_answers; [reflexivity|]. split; [reflexivity|]. intros y v Ly _ Y. destruct y as [|y [|? ?]]; try discriminate Ly. rewrite V' in Y. injection Y as <-.
  exists (misfit F1 D (reading [sa] [3%R])). split; [apply V'|]. change (misfit F1 D (reading [sa] [3%R]) <= misfit F1 D (reading [sa] [y]))%R. rewrite !Ms. pose proof (pow2_ge_0 (y - 3)). lra.
Qed.
