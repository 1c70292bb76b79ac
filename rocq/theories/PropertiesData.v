(** Properties C01-C14: the phi-space container. Statements use the public
    operations of the model (construct, get_*, scale_data, ...) and SpecData. *)
From Coq Require Import String Ascii List ZArith Reals Lra Lia Bool Sorted Permutation.
From Verif Require Import PyBase RMod DataModel SpecData DataProofs DataProofs2 DataProofs3.
Import ListNotations.
Open Scope R_scope.

(* ================================================================== *)
(** * C01 *)

Theorem C01_normal_form : forall it u n2o d h,
  construct it u n2o = Ok d ->
  (forall k p, get_pc (run d h) k "radians" = Ok p -> normal_form p) /\
  get_keys (run d h) = get_keys d /\
  (n2o = false -> map KStr (get_keys d) = first_occ (map fst it)).
Proof.
  intros it u n2o d h C. split; [|split].
  - intros k p G. pose proof (run_normal d h (construct_normal_dat _ _ _ _ C)) as N.
    unfold get_pc, view in G. simpl in G. unfold dgetr in G.
    destruct (dget k (dc_data (run d h))) as [v|] eqn:E; [|discriminate]. injection G as <-.
    apply dget_In in E. unfold normal_dat in N. rewrite Forall_forall in N. apply (N _ E).
  - apply run_keys.
  - intros ->. eapply construct_keys; eauto.
Qed.
Print Assumptions C01_normal_form.

Example C01_case : exists d, construct (input DFloat [("PP"%string, [(1, 5); (0, 3); (2 * PI, 4)])]) "radians" false = Ok d
  /\ get_pc (run d [OScale 2]) "PP" "radians" = Ok [(0, 2 * 3); (1, 2 * 5)].
Proof.
  eexists; split; [apply good_witness|]. unfold run, step, scale_data.
  replace (Rltb 2 0) with false by (symmetry; apply Rltb_false; lra). reflexivity.
Qed.

(* ================================================================== *)
(** * C02 *)

(** As stated the claim is false: angles outside [0,2*pi) are compared with
    unreduced angles. *)
Theorem C02_no_duplicates_refuted : exists it d k p,
  construct it "radians" false = Ok d /\ get_pc d k "radians" = Ok p /\ ~ distinct_angles p.
Proof.
  exists (input DFloat [("PP"%string, [(2 * PI, 1); (2 * PI, 2)])]), 
    (mkdat [("PP"%string, [(0, 1); (0, 2)])] 1 0 0 "radians" false), "PP"%string, [(0, 1); (0, 2)].
  split; [apply dup_witness|]. split; [reflexivity|].
  intros D. inversion D as [|? ? F _]; subst. inversion F as [|? ? N _]; subst. apply N, same_angle_refl.
Qed.
Print Assumptions C02_no_duplicates_refuted.

Lemma repeats_reduced_iff l : repeats_reduced l <-> dups_caught l.
Proof.
  unfold repeats_reduced, dups_caught. split; intros H l1 q l2 E X; destruct (H l1 q l2 E X) as [p P]; exists p.
  - destruct P as (I & T & S). split; auto. apply in_turn_same; auto using in_turn_mod.
    apply same_angle_trans with (fst q); auto. apply same_angle_mod.
  - destruct P as (I & S). split; auto. rewrite S. split; [apply in_turn_mod|].
    apply same_angle_sym, same_angle_mod.
Qed.

(** Exactly when it works (float data, or any data in degrees). *)
Theorem C02_no_duplicates_partial : forall it u d k dt raw p,
  construct it u false = Ok d -> given it k dt raw -> (u = "degrees"%string \/ dt = DFloat) ->
  get_pc d k "radians" = Ok p ->
  (distinct_angles p <-> repeats_reduced (in_radians u raw)).
Proof.
  intros it u d k dt raw p C G F E. unfold get_pc, view, dgetr in E. simpl in E.
  rewrite (construct_get it u d k dt raw C G) in E. injection E as <-.
  assert (D : dt <> DObject).
  { pose proof C as C'. apply construct_Ok in C' as (_ & Ci & _). apply check_well_shaped in Ci.
    destruct G as (it1 & xs & ys & rest & it2 & E & N & L & _).
    destruct (Ci (KStr k)) as (k' & dt' & p' & E' & D' & G').
    { rewrite E, map_app, in_app_iff. right; left; auto. }
    injection E' as <-. apply given_dget in G' as (xs' & ys' & rest' & E2 & _).
    assert (G : given it k dt (combine xs ys)) by (exists it1, xs, ys, rest, it2; auto).
    apply given_dget in G as (a & b & c & E3 & _). congruence. }
  rewrite (conv_float u dt raw D F). rewrite repeats_reduced_iff. apply finish_distinct_iff.
Qed.
Print Assumptions C02_no_duplicates_partial.

(** The usual measurement ranges satisfy the condition. *)
Theorem C02_usual_ranges : forall raw, Forall in_turn (map fst raw) -> forall y,
  repeats_reduced raw /\ ((exists y0, In (0, y0) raw) -> repeats_reduced (raw ++ [(2 * PI, y)])).
Proof.
  intros raw T y. split; [apply repeats_reduced_iff, dups_caught_in_turn; auto|].
  intros [y0 I0]. apply repeats_reduced_iff. intros l1 q l2 E X.
  destruct l2 as [|r l2 _] using rev_ind.
  - apply app_inj_tail in E as [-> <-]. exists (0, y0). split; auto. simpl. symmetry. apply mod2pi_2pi.
  - rewrite app_comm_cons, app_assoc in E. apply app_inj_tail in E as [-> _].
    apply (dups_caught_in_turn (l1 ++ q :: l2) T l1 q l2); auto.
Qed.
Print Assumptions C02_usual_ranges.

Example C02_case : repeats_reduced (in_radians "radians" [(1, 5); (0, 3); (2 * PI, 4)]).
Proof.
  change (in_radians "radians" [(1, 5); (0, 3); (2 * PI, 4)]) with ([(1, 5); (0, 3)] ++ [(2 * PI, 4)]).
  apply C02_usual_ranges; [|exists 3; simpl; auto].
  pose proof PI_bounds. repeat constructor; simpl; lra.
Qed.

(* ================================================================== *)
(** * C03 *)

(** False for integer arrays in radians: the reduced angle is truncated. *)
Theorem C03_faithful_refuted : exists it d p raw,
  construct it "radians" false = Ok d /\ get_pc d "PP" "radians" = Ok p /\ given it "PP" DInt raw /\
  exists x y, In (x, y) p /\ forall x0, In (x0, y) raw -> ~ same_angle x x0.
Proof.
  exists (input DInt [("PP"%string, [(7, 1)])]), (mkdat [("PP"%string, [(0, 1)])] 1 0 0 "radians" false),
    [(0, 1)], [(7, 1)].
  split; [apply int_witness|]. split; [reflexivity|]. split.
  - exists [], [7], [1], [], []. repeat split; auto.
  - exists 0, 1. split; [left; auto|]. intros x0 [E|[]]. injection E as <-. apply not_same_0_7.
Qed.
Print Assumptions C03_faithful_refuted.

Theorem C03_faithful_partial : forall it u d k dt raw p,
  construct it u false = Ok d -> given it k dt raw -> (u = "degrees"%string \/ dt = DFloat) ->
  get_pc d k "radians" = Ok p ->
  (forall x y, In (x, y) p -> exists x0, In (x0, y) (in_radians u raw) /\ same_angle x x0) /\
  (forall x0 y0, In (x0, y0) (in_radians u raw) -> exists x y, In (x, y) p /\ same_angle x x0) /\
  (Forall in_turn (map fst (in_radians u raw)) ->
     forall x y, In (x, y) p <->
       exists l1 l2, in_radians u raw = l1 ++ (x, y) :: l2 /\ ~ In x (map fst l1)).
Proof.
  intros it u d k dt raw p C G F E. unfold get_pc, view, dgetr in E. simpl in E.
  rewrite (construct_get it u d k dt raw C G) in E. injection E as <-.
  assert (D : dt <> DObject).
  { pose proof C as C'. apply construct_Ok in C' as (_ & Ci & _). apply check_well_shaped in Ci.
    destruct (Ci (KStr k)) as (k' & dt' & p' & E' & D' & G').
    { destruct G as (it1 & xs & ys & rest & it2 & E & _). rewrite E, map_app, in_app_iff. right; left; auto. }
    injection E' as <-. apply given_dget in G' as (xs' & ys' & rest' & E2 & _).
    apply given_dget in G as (a & b & c & E3 & _). congruence. }
  rewrite (conv_float u dt raw D F).
  change (map (fun q => (to_rad u (fst q), snd q)) raw) with (in_radians u raw).
  set (l := in_radians u raw). split; [|split].
  - intros x y I. apply In_finish_float in I as (x0 & I & ->). apply remove_dups_incl in I.
    exists x0. split; auto. apply same_angle_sym, same_angle_mod.
  - intros x0 y0 I. destruct (remove_dups_covers l [] x0 y0 I) as [[z [[] _]]|[[x1 y1] [J S]]].
    exists (mod2pi x1), y1. split; [apply In_finish_float; eauto|]. simpl in S.
    apply same_angle_sym. eapply same_angle_trans; eauto. apply same_angle_mod.
  - intros T x y. rewrite In_finish_float, remove_dups_keep. split.
    + intros (x0 & I & ->). pose proof (keep_spec_incl _ _ _ I) as J.
      assert (T0 : in_turn x0) by (rewrite Forall_forall in T; apply T; apply in_map_iff; exists (x0, y); auto).
      rewrite mod2pi_small by auto.
      apply (keep_spec_in_turn_aux [] l T) in I as (l1 & l2 & E & _ & N). eauto.
    + intros (l1 & l2 & E & N). exists x. split.
      * apply (keep_spec_in_turn_aux [] l T). exists l1, l2. auto.
      * symmetry. apply mod2pi_small. rewrite Forall_forall in T. apply T.
        rewrite E, map_app, in_app_iff. right; left; auto.
Qed.
Print Assumptions C03_faithful_partial.

Example C03_case : given (input DFloat [("PP"%string, [(1, 5); (0, 3); (2 * PI, 4)])]) "PP" DFloat
  [(1, 5); (0, 3); (2 * PI, 4)].
Proof. exists [], [1; 0; 2 * PI], [5; 3; 4], [], []. repeat split; auto. Qed.

(* ================================================================== *)
(** * C04 *)

Theorem C04_degrees_radians : forall it n2o,
  match construct it "degrees" n2o, construct (it_rad it) "radians" n2o with
  | Ok d, Ok d' => same_container d d'
  | Raise e, Raise e' => e = e'
  | _, _ => False
  end.
Proof. exact degrees_radians. Qed.
Print Assumptions C04_degrees_radians.

Theorem C04_accessors : forall d u, lower u = "degrees"%string -> exists v,
  get_items d "radians" = Ok v /\
  get_items d u = Ok (map (fun kv => (fst kv, map (fun p => (180 / PI * fst p, snd p)) (snd kv))) v) /\
  (forall k, get_pc d k u = match get_pc d k "radians" with
                            | Ok p => Ok (map (fun q => (180 / PI * fst q, snd q)) p)
                            | Raise e => Raise e end) /\
  get_values d u = Ok (map (fun kv => map (fun p => (180 / PI * fst p, snd p)) (snd kv)) v) /\
  exists s, get_phase_shift d "radians" = Ok s /\ get_phase_shift d u = Ok (180 / PI * s).
Proof.
  intros d u U. destruct (view_units d u U) as [v [V1 V2]]. exists v.
  split; [exact V1|]. split; [exact V2|]. split; [|split].
  - intros k. unfold get_pc. rewrite V1, V2. simpl. unfold dgetr.
    change (map (fun kv => (fst kv, map (fun p => (180 / PI * fst p, snd p)) (snd kv))) v)
      with (dmap (fun q : list (R * R) => map (fun p => (180 / PI * fst p, snd p)) q) v).
    rewrite dget_dmap. destruct (dget k v); reflexivity.
  - unfold get_values. rewrite V2. simpl. unfold dvals. rewrite map_map. reflexivity.
  - exists (dc_phase d). split; [reflexivity|]. unfold get_phase_shift. rewrite U. simpl.
    unfold rad2deg. f_equal. ring.
Qed.
Print Assumptions C04_accessors.

Example C04_case : exists d, construct (input DInt [("PP"%string, [(180, 5)])]) "degrees" false = Ok d /\
  get_pc d "PP" "radians" = Ok [(PI, 5)].
Proof.
  eexists; split; [apply construct_single; [discriminate|discriminate|auto]|].
  unfold get_pc, view, finish, conv, deg2rad; simpl.
  replace (180 * (PI / 180)) with PI by field.
  rewrite (mod2pi_small PI) by (unfold twopi; pose proof PI_bounds; lra). reflexivity.
Qed.

(* ================================================================== *)
(** * C05 *)

Theorem C05_units_refuted : exists u it, well_formed it /\ construct it u false = Raise ValueError /\
  forall d, is_ok (get_items d u) /\ is_ok (get_phase_shift d u) /\ snd (phase_shift_data d 0 u) = Ok tt.
Proof.
  exists "Degrees"%string, (input DFloat [("PP"%string, [(0, 1)])]). split; [|split].
  - intros pk [<-|[]]. exists "PP"%string, DFloat, [(0, 1)]. repeat split; try discriminate.
    exists [], [0], [1], [], []. repeat split; auto.
  - reflexivity.
  - intros d. repeat split; eexists; reflexivity.
Qed.
Print Assumptions C05_units_refuted.

Theorem C05_units_partial : forall it u d a, well_formed it -> 
  (is_ok (construct it u false) <-> u = "radians"%string \/ u = "degrees"%string) /\
  (is_ok (get_items d u) <-> lower u = "radians"%string \/ lower u = "degrees"%string) /\
  (is_ok (get_values d u) <-> is_ok (get_items d u)) /\
  (is_ok (get_phase_shift d u) <-> is_ok (get_items d u)) /\
  (snd (phase_shift_data d a u) = Ok tt <-> is_ok (get_items d u)) /\
  (lower u = u -> (is_ok (construct it u false) <-> is_ok (get_items d u))).
Proof.
  intros it u d a W.
  assert (A : is_ok (construct it u false) <-> u = "radians"%string \/ u = "degrees"%string).
  { destruct (construct_outcome it u) as [(U & _ & C)|[N C]].
    - unfold is_ok. tauto.
    - rewrite C. split; [intros [x X]; discriminate|]. intros U. exfalso; apply N; auto. }
  assert (B : forall T (f : res T), is_ok f -> (exists e, f = Raise e) -> False).
  { intros T f [x ->] [e E]; discriminate. }
  assert (G : is_ok (get_items d u) <-> lower u = "radians"%string \/ lower u = "degrees"%string).
  { unfold get_items, view. rewrite <- check_units_Ok.
    destruct (check_units_cases (lower u)) as [-> | ->]; simpl.
    - split; auto. intros _. destruct (String.eqb (lower u) "radians"); eexists; eauto.
    - split; [intros [x X]; discriminate|discriminate]. }
  split; auto. split; auto. rewrite G.
  unfold get_values, get_phase_shift, phase_shift_data, view. rewrite <- check_units_Ok.
  destruct (check_units_cases (lower u)) as [E|E]; rewrite E; simpl.
  - repeat split; auto; try (intros; destruct (String.eqb (lower u) "radians"); simpl; eexists; reflexivity).
    all: intros; try apply A; rewrite <- H; apply check_units_Ok; auto.
  - repeat split; try discriminate; try (intros [x X]; discriminate).
    intros X. exfalso. apply A in X. rewrite <- H in X. apply check_units_Ok in X. congruence.
Qed.
Print Assumptions C05_units_partial.

(* ================================================================== *)
(** * C06 *)

Theorem C06_validation : forall it u,
  (is_ok (construct it u false) <-> (u = "radians"%string \/ u = "degrees"%string) /\ well_formed it) /\
  (forall n2o, is_ok (construct it u n2o) \/ construct it u n2o = Raise ValueError).
Proof.
  intros it u. split.
  - destruct (construct_outcome it u) as [(U & W & C)|[N C]].
    + unfold is_ok. tauto.
    + rewrite C. split; [intros [x X]; discriminate|tauto].
  - intros n2o. apply construct_outcome_all.
Qed.
Print Assumptions C06_validation.

Example C06_case : well_formed (input DFloat [("PP"%string, [(0, 1)])]) /\
  ~ well_formed [(KStr "PP", NDArray 2 DFloat [[0]; [1; 2]])] /\
  ~ well_formed [(KStr "PP", NDArray 2 DFloat [[]; []])].
Proof.
  split; [|split].
  - intros pk [<-|[]]. exists "PP"%string, DFloat, [(0, 1)]. repeat split; try discriminate.
    exists [], [0], [1], [], []. repeat split; auto.
  - intros W. destruct (W (KStr "PP")) as (k & dt & p & E & D & (i1 & xs & ys & r & i2 & E1 & _ & L & _) & N); [left; auto|].
    destruct i1 as [|a [|b i1]]; simpl in E1; try discriminate. inversion E1; subst. discriminate.
  - intros W. destruct (W (KStr "PP")) as (k & dt & p & E & D & (i1 & xs & ys & r & i2 & E1 & _ & L & P) & N); [left; auto|].
    destruct i1 as [|a [|b i1]]; simpl in E1; try discriminate. inversion E1; subst. apply N; auto.
Qed.

(* ================================================================== *)
(** * C07 *)

Theorem C07_scale_history : forall d fs,
  let ok := filter (fun f => if Rlt_dec f 0 then false else true) fs in
  let d' := run d (map OScale fs) in
  get_scale d' = get_scale d * product ok /\
  (forall v, get_items d "radians" = Ok v ->
     get_items d' "radians" = Ok (map (fun kv => (fst kv, map (fun q => (fst q, product ok * snd q)) (snd kv))) v)) /\
  get_offset d' = get_offset d /\ dc_phase d' = dc_phase d /\
  (forall f, f < 0 -> scale_data d f = (d, Raise ValueError)) /\
  (forall f, 0 <= f -> snd (scale_data d f) = Ok tt).
Proof.
  intros d fs ok d'. destruct (run_scales d fs) as (A & B & C & D). fold d' in A, B, C, D.
  assert (E : accepted fs = ok).
  { unfold accepted, ok. apply filter_ext. intros f. unfold Rltb. destruct (Rlt_dec f 0); auto. }
  assert (P : forall l, rprod l = product l) by (induction l; simpl; congruence).
  rewrite E, P in A, B. repeat split; auto.
  - intros v V. unfold get_items, view in *. simpl in *. injection V as <-. rewrite A. reflexivity.
  - intros f F. unfold scale_data. rewrite (proj2 (Rltb_true f 0) F). reflexivity.
  - intros f F. unfold scale_data. rewrite (proj2 (Rltb_false f 0) F). reflexivity.
Qed.
Print Assumptions C07_scale_history.

(* ================================================================== *)
(** * C08 *)

Lemma reachable_nonempty d : reachable d -> nonempty_pcs (dc_data d).
Proof.
  intros (it & u & n & d0 & h & C & ->). apply normal_nonempty, run_normal. eapply construct_normal_dat; eauto.
Qed.

Theorem C08_normalize : forall d m x, reachable d -> is_max (value_of (dc_data d)) m ->
  (0 < m -> 0 <= x -> exists d', normalize_data d x = (d', Ok tt) /\
     is_max (value_of (dc_data d')) x /\ get_scale d' = get_scale d * (x / m)) /\
  (m < 0 -> 0 < x -> normalize_data d x = (d, Raise ValueError)).
Proof. intros d m x R M. apply normalize_spec; auto. apply reachable_nonempty; auto. Qed.
Print Assumptions C08_normalize.

Example C08_case : exists d, reachable d /\ is_max (value_of (dc_data d)) 5.
Proof.
  eexists; split.
  - eexists _, _, _, _, []. split; [apply good_witness|reflexivity].
  - simpl. split.
    + exists "PP"%string, [(0, 3); (1, 5)], 1. simpl; auto.
    + intros y (k & p & x & [E|[]] & I). injection E as <- <-. destruct I as [E|[E|[]]]; injection E as <- <-; lra.
Qed.

(* ================================================================== *)
(** * C09 *)

Theorem C09_extrema : forall d, reachable d -> get_keys d <> [] ->
  (exists k m, get_maxval d = Ok (Some (k, m)) /\ first_max (dc_data d) k m) /\
  (exists k m, get_minval d = Ok (Some (k, m)) /\ first_min (dc_data d) k m) /\
  forall k p, get_pc d k "radians" = Ok p ->
    (exists m, get_pc_maxval d k = Ok m /\ is_max (value_in p) m) /\
    (exists m, get_pc_minval d k = Ok m /\ is_min (value_in p) m).
Proof.
  intros d R K. pose proof (reachable_nonempty d R) as N.
  assert (D : dc_data d <> []) by (intros E; apply K; unfold get_keys; rewrite E; auto).
  split; [apply get_maxval_spec; auto|]. split; [apply get_minval_spec; auto|].
  intros k p E. unfold get_pc, view in E. simpl in E. unfold get_pc_maxval, get_pc_minval.
  rewrite E. simpl. unfold dgetr in E. destruct (dget k (dc_data d)) as [v|] eqn:G; [|discriminate].
  injection E as ->. apply dget_In in G. unfold nonempty_pcs in N. rewrite Forall_forall in N.
  specialize (N _ G). simpl in N. split; [apply py_max_spec|apply py_min_spec]; auto.
Qed.
Print Assumptions C09_extrema.

(** Ties go to the first polarization. *)
Example C09_case : get_maxval (mkdat [("PP"%string, [(0, 3)]); ("SS"%string, [(0, 3)])] 1 0 0 "radians" false)
  = Ok (Some ("PP"%string, 3)).
Proof.
  unfold get_maxval; simpl. replace (Rltb 3 3) with false by (symmetry; apply Rltb_false; lra). reflexivity.
Qed.

(* ================================================================== *)
(** * C10 *)

Theorem C10_subtract_min : forall d m, reachable d -> is_min (value_of (dc_data d)) m ->
  exists d', subtract_min d = (d', Ok tt) /\
    is_min (value_of (dc_data d')) 0 /\
    dc_data d' = map (fun kv => (fst kv, map (fun q => (fst q, snd q - m)) (snd kv))) (dc_data d) /\
    get_offset d' = get_offset d - m /\ get_scale d' = get_scale d /\ dc_phase d' = dc_phase d /\
    subtract_min d' = (d', Ok tt).
Proof.
  intros d m R M. pose proof (reachable_nonempty d R) as N.
  eexists. split; [apply (subtract_min_spec d m); auto|].
  pose proof (is_min_shift _ _ M) as Z. split; [exact Z|]. repeat split.
  set (d' := mkdat _ _ _ _ _ _). rewrite (subtract_min_spec d' 0).
  - unfold d'; simpl. do 2 f_equal; [|ring]. apply dmap_id. intros; apply map_y_id. intros; ring.
  - unfold d'; simpl. apply nonempty_map_y; auto.
  - exact Z.
Qed.
Print Assumptions C10_subtract_min.

(* ================================================================== *)
(** * C11 *)

(** False as soon as a scaling follows a subtraction. *)
Theorem C11_reconstruct_refuted : exists it d h, construct it "radians" false = Ok d /\
  finite_run d h /\ Forall is_scaling_or_sub h /\
  exists x y y', In (x, y) [(0, 3); (1, 5)] /\ get_pc d "PP" "radians" = Ok [(0, 3); (1, 5)] /\
    (exists p, get_pc (run d h) "PP" "radians" = Ok p /\ In (x, y') p /\ distinct_angles p) /\
    y' <> get_scale (run d h) * y + get_offset (run d h).
Proof.
  eexists _, _, [OSubtractMin; OScale 2]. split; [apply good_witness|].
  set (d := mkdat _ _ _ _ _ _).
  assert (M : is_min (value_of (dc_data d)) 3).
  { split.
    - exists "PP"%string, [(0, 3); (1, 5)], 0. simpl; auto.
    - intros y (k & p & x & [E|[]] & I). injection E as <- <-. destruct I as [E|[E|[]]]; injection E as <- <-; lra. }
  assert (N : nonempty_pcs (dc_data d)) by (repeat constructor; discriminate).
  assert (S : step d OSubtractMin = (mkdat [("PP"%string, [(0, 3 - 3); (1, 5 - 3)])] 1 0 (0 - 3) "radians" false, Ok tt))
    by (simpl; rewrite (subtract_min_spec d 3 N M); reflexivity).
  assert (S2 : step (fst (step d OSubtractMin)) (OScale 2) =
    (mkdat [("PP"%string, [(0, 2 * (3 - 3)); (1, 2 * (5 - 3))])] (1 * 2) 0 (0 - 3) "radians" false, Ok tt)).
  { rewrite S. simpl. unfold scale_data. rewrite (proj2 (Rltb_false 2 0)) by lra. reflexivity. }
  split; [|split].
  - cbn [finite_run]. rewrite S2, S. repeat split; discriminate.
  - repeat constructor.
  - exists 0, 3, (2 * (3 - 3)). split; [left; auto|]. split; [reflexivity|].
    cbn [run]. rewrite S2. simpl. split.
    + eexists; split; [reflexivity|]. split; [left; auto|].
      repeat constructor. simpl. intros E. apply in_turn_same in E; unfold in_turn; pose proof PI_bounds; lra.
    + unfold get_scale, get_offset; simpl. lra.
Qed.
Print Assumptions C11_reconstruct_refuted.

(** True part: the recorded scale is always the slope; and scale and offset
    reconstruct the data when all scalings come before all subtractions. *)
Theorem C11_reconstruct_partial : forall it u n2o d h n,
  construct it u n2o = Ok d ->
  (Forall is_scaling_or_sub h -> exists b,
     dc_data (run d h) = map (fun kv => (fst kv, map (fun q => (fst q, get_scale (run d h) * snd q + b)) (snd kv))) (dc_data d)) /\
  (Forall is_scaling h ->
     let d' := run d (h ++ repeat OSubtractMin n) in
     dc_data d' = map (fun kv => (fst kv, map (fun q => (fst q, get_scale d' * snd q + get_offset d')) (snd kv))) (dc_data d)).
Proof.
  intros it u n2o d h n C. apply construct_Ok in C as (_ & _ & d2 & _ & _ & ->).
  set (d := mkdat _ _ _ _ _ _). split.
  - intros F. destruct (run_affine d h F) as (a & b & A & B). exists b.
    unfold get_scale. rewrite A, B. simpl. unfold dmap, map_y. apply map_ext. intros [k p]; simpl.
    f_equal. apply map_ext. intros [x y]; simpl. f_equal. ring.
  - intros F d'. destruct (run_scalings d h F) as (a & A & B & C).
    destruct (run_subs (run d h) n) as (b & A' & B' & C').
    unfold d', get_scale, get_offset. rewrite run_app, A', B', C', A, B, C. simpl.
    rewrite dmap_dmap. unfold dmap, map_y. apply map_ext. intros [k p]; simpl.
    f_equal. rewrite map_map. apply map_ext. intros [x y]; simpl. f_equal. ring.
Qed.
Print Assumptions C11_reconstruct_partial.

(* ================================================================== *)
(** * C12 *)

Theorem C12_phase_action : forall d a b, reachable d ->
  (* a then b is a+b, for the whole object *)
  (let d1 := fst (phase_shift_data d a "radians") in
   let d2 := fst (phase_shift_data d1 b "radians") in
   let d3 := fst (phase_shift_data d (a + b) "radians") in
   dc_data d2 = dc_data d3 /\ dc_phase d2 = dc_phase d + a + b /\ dc_phase d3 = dc_phase d + (a + b)) /\
  (* whole turns are the identity *)
  (forall k : Z, dc_data (fst (phase_shift_data d (IZR k * (2 * PI)) "radians")) = dc_data d) /\
  (* each value moves with its angle *)
  (forall k p p', get_pc d k "radians" = Ok p ->
     get_pc (fst (phase_shift_data d a "radians")) k "radians" = Ok p' ->
     normal_form p' /\
     turned a p p') /\
  (* degrees *)
  phase_shift_data d a "degrees" = phase_shift_data d (a * (PI / 180)) "radians" /\
  snd (phase_shift_data d a "radians") = Ok tt.
Proof.
  intros d a b R.
  assert (N : normal_dat d).
  { destruct R as (it & u & n & d0 & h & C & ->). apply run_normal. eapply construct_normal_dat; eauto. }
  split; [|split; [|split; [|split]]].
  - cbv zeta. rewrite (phase_shift_radians d a), (phase_shift_radians d (a + b)). cbn [fst].
    rewrite phase_shift_radians. simpl. split; [|split; ring].
    rewrite dmap_dmap. apply dmap_ext. intros. apply shift_pts_twice.
  - intros k. rewrite phase_shift_radians. simpl. apply dmap_id. intros k' v I.
    apply shift_pts_id. unfold normal_dat in N. rewrite Forall_forall in N. apply (N _ I).
  - intros k p p' E. rewrite phase_shift_radians. unfold get_pc, view, dgetr in *. simpl in *.
    rewrite dget_dmap. destruct (dget k (dc_data d)) as [v|] eqn:G; [|discriminate]. simpl.
    injection E as <-. intros E; injection E as <-. split.
    + apply shift_pts_normal. apply dget_In in G. unfold normal_dat in N. rewrite Forall_forall in N.
      apply (N _ G).
    + apply turned_mod. unfold shift_pts. apply Permutation_sym, isort_perm.
  - apply phase_shift_degrees.
  - reflexivity.
Qed.
Print Assumptions C12_phase_action.

(* ================================================================== *)
(** * C13, C14 *)

Theorem C13_accepts : forall it u, well_formed it -> (u = "radians"%string \/ u = "degrees"%string) ->
  (is_ok (construct it u true) <-> keys_oblique (input_keys it) \/ keys_normal (input_keys it)).
Proof. exact construct_coerce_iff. Qed.
Print Assumptions C13_accepts.

Theorem C13_keys : forall it u d, construct it u true = Ok d ->
  NoDup (get_keys d) /\ forall k, In k (get_keys d) <-> In k four_keys.
Proof.
  intros it u d C. apply construct_Ok in C as (_ & _ & d2 & E & _ & ->).
  unfold get_keys; simpl. rewrite dkeys_dmap. split.
  - apply wf_coerce in E. exact E.
  - intros k. apply (coerce_keys _ _ E).
Qed.
Print Assumptions C13_keys.

Lemma copy_partner k : In k oblique_keys -> copy_pc k = partner k.
Proof. intros [<-|[<-|[<-|[<-|[]]]]]; reflexivity. Qed.

(** The rotation claim needs the same condition on the raw data as C02. *)
Theorem C13_rotation_partial : forall it u d k,
  construct it u true = Ok d -> In k four_keys -> ~ In k (map prefix2 (input_keys it)) ->
  (forall k0 dt raw, given it k0 dt raw -> prefix2 k0 = partner k ->
     (u = "degrees"%string \/ dt = DFloat) /\ repeats_reduced (in_radians u raw)) ->
  exists p p0, get_pc d k "radians" = Ok p /\ get_pc d (partner k) "radians" = Ok p0 /\
    turned (PI / 2) p0 p /\
    forall x y, In (x, y) p0 <-> in_turn x /\ exists x', In (x', y) p /\ same_angle x' (x + PI / 2).
Proof.
  intros it u d k C K M H. pose proof C as C0. apply construct_Ok in C as (Cu & Ci & d2 & E & F & ->).
  assert (M' : ~ In k (map key2 (dkeys (before_coerce it u)))).
  { rewrite in_map_key2. exact M. }
  destruct (coerce_get_missing _ _ _ E K M') as (v & V1 & V2 & V3 & V4).
  apply renamed_get in V3 as (k0 & e1 & e0 & Eb & K0 & _).
  assert (I : In (k0, v) (before_coerce it u)) by (rewrite Eb; apply in_app_iff; right; left; auto).
  destruct (in_before_given it u k0 v Ci I) as (dt & raw & D & G & ->).
  destruct (H k0 dt raw G) as [H1 H2]; [rewrite <- (copy_partner k K); exact K0|].
  rewrite (conv_float u dt raw D H1) in *.
  change (map (fun q => (to_rad u (fst q), snd q)) raw) with (in_radians u raw) in *.
  apply repeats_reduced_iff in H2.
  pose proof (finish_rot90 _ H2) as P. rewrite (copy_partner k K) in *.
  exists (finish (rot90 (DFloat, in_radians u raw))), (finish (DFloat, in_radians u raw)).
  unfold get_pc, view, dgetr. simpl. rewrite !dget_dmap, V1, V2. simpl.
  split; [auto|]. split; [auto|]. split; [apply turned_mod; exact P|].
  assert (T : forall x y, In (x, y) (finish (DFloat, in_radians u raw)) -> in_turn x).
  { intros x y J. apply In_finish_float in J as (x0 & _ & ->). apply in_turn_mod. }
  intros x y. split.
  - intros J. split; [eapply T; eauto|]. exists (mod2pi (x + PI / 2)). split.
    + eapply Permutation_in; [apply Permutation_sym, P|]. apply in_map_iff. exists (x, y); auto.
    + apply same_angle_sym, same_angle_mod.
  - intros [X (x' & J & S)]. eapply Permutation_in in J; [|exact P].
    apply in_map_iff in J as [[x1 y1] [Q J]]. unfold turn_by in Q; simpl in Q. injection Q as <- <-.
    assert (x = x1) as ->; auto.
    apply in_turn_same; auto; [eapply T; eauto|].
    apply (same_angle_turn (PI / 2)). apply same_angle_sym.
    eapply same_angle_trans; [exact S|]. apply same_angle_mod.
Qed.
Print Assumptions C13_rotation_partial.

(** Without the condition the rotated copy loses measurements its partner keeps. *)
Definition multi_turn_input : list (pykey * pyval) :=
  input DFloat [("SS"%string, [(2 * PI, 1); (2 * PI, 2)]); ("PS"%string, [(0, 7)])].

Lemma multi_turn_construct : exists d, construct multi_turn_input "radians" true = Ok d /\
  get_pc d "SS" "radians" = Ok [(0, 1); (0, 2)] /\ get_pc d "PP" "radians" = Ok [(PI / 2, 1)] /\
  get_keys d = ["SS"; "PS"; "PP"; "SP"]%string.
Proof.
  eexists. split.
  - apply construct_Ok_conv with (d2 := [("SS"%string, (DFloat, [(2 * PI, 1); (2 * PI, 2)]));
      ("PS"%string, (DFloat, [(0, 7)]));
      ("PP"%string, rot90 (DFloat, [(2 * PI, 1); (2 * PI, 2)]));
      ("SP"%string, rot90 (DFloat, [(0, 7)]))]); try reflexivity.
    repeat constructor; discriminate.
  - pose proof PI_bounds as PB.
    assert (E : mod2pi (2 * PI + PI / 2) = PI / 2).
    { apply mod2pi_unique with (k := 1%Z); unfold twopi; lra. }
    assert (E' : mod2pi (PI / 2) = PI / 2) by (apply mod2pi_small; unfold twopi; lra).
    split; [|split; [|reflexivity]].
    + unfold get_pc, view; simpl. unfold finish; simpl. rewrite mod2pi_2pi. unfold mem; simpl.
      replace (Reqb 0 (2 * PI)) with false by (symmetry; apply Reqb_false; lra).
      simpl. rewrite mod2pi_2pi. destruct (Rle_dec 0 0) as [_|N]; [reflexivity|lra].
    + unfold get_pc, view; simpl. unfold finish; simpl. rewrite E, E'. unfold mem; simpl.
      replace (Reqb (PI / 2) (PI / 2)) with true by (symmetry; apply Reqb_true; auto).
      reflexivity.
Qed.

Theorem C13_rotation_refuted : exists it d p p0, construct it "radians" true = Ok d /\
  ~ In "PP"%string (map prefix2 (input_keys it)) /\
  get_pc d "PP" "radians" = Ok p /\ get_pc d (partner "PP") "radians" = Ok p0 /\
  exists x y, In (x, y) p0 /\ ~ exists x', In (x', y) p /\ same_angle x' (x + PI / 2).
Proof.
  destruct multi_turn_construct as (d & C & S & P & _).
  exists multi_turn_input, d, [(PI / 2, 1)], [(0, 1); (0, 2)]. repeat split; auto.
  - simpl. intuition discriminate.
  - exists 0, 2. split; [right; left; auto|]. intros (x' & [E|[]] & _). injection E as _ E. lra.
Qed.
Print Assumptions C13_rotation_refuted.

(** The hypotheses of C13_rotation_partial are met by ordinary data. *)
Example C13_case : repeats_reduced (in_radians "radians" [(1, 5); (0, 3)]) /\
  keys_normal (input_keys (input DFloat [("ss_run1"%string, [(1, 5); (0, 3)]); ("PS"%string, [(0, 7)])])).
Proof.
  split.
  - change (in_radians "radians" [(1, 5); (0, 3)]) with [(1, 5); (0, 3)].
    apply (C02_usual_ranges [(1, 5); (0, 3)]); [|exact 0].
    pose proof PI_bounds. repeat constructor; simpl; lra.
  - exists "SS"%string, "PS"%string. split; auto. split; auto. intros x. simpl. intuition.
Qed.

Theorem C14_key_order_refuted : exists it d, well_formed it /\ construct it "radians" true = Ok d /\
  get_keys d <> four_keys.
Proof.
  destruct multi_turn_construct as (d & C & _ & _ & K). exists multi_turn_input, d.
  split; [|split; [exact C|rewrite K; discriminate]].
  intros pk [<-|[<-|[]]].
  - exists "SS"%string, DFloat, [(2 * PI, 1); (2 * PI, 2)]. split; [reflexivity|]. split; [discriminate|].
    split; [|discriminate]. exists [], [2 * PI; 2 * PI], [1; 2], [], [(KStr "PS", arr DFloat [(0, 7)])].
    repeat split; auto. intros v [E|[]]; discriminate.
  - exists "PS"%string, DFloat, [(0, 7)]. split; [reflexivity|]. split; [discriminate|].
    split; [|discriminate]. exists [(KStr "SS", arr DFloat [(2 * PI, 1); (2 * PI, 2)])], [0], [7], [], [].
    repeat split; auto.
Qed.
Print Assumptions C14_key_order_refuted.

(** What the order is: given keys first, in the order given, then the missing
    ones in the documented order. *)
Theorem C14_key_order_partial : forall it u d, construct it u true = Ok d ->
  get_keys d = first_occ (map prefix2 (map key_str (first_occ (map fst it)))) ++
    filter (fun k => negb (existsb (String.eqb k) (map prefix2 (input_keys it)))) four_keys.
Proof.
  intros it u d C. apply construct_Ok in C as (_ & Ci & d2 & E & _ & ->).
  unfold get_keys; cbn [dc_data]. rewrite dkeys_dmap.
  assert (A : dkeys (renamed (before_coerce it u)) =
              first_occ (map prefix2 (map key_str (first_occ (map fst it))))).
  { unfold renamed. rewrite dkeys_dict_of. f_equal. rewrite map_map. simpl.
    rewrite <- (dkeys_dict_of it), <- (dkeys_before it u). unfold dkeys. rewrite map_map. reflexivity. }
  assert (B : leftover_of (map key2 (dkeys (before_coerce it u))) =
     filter (fun k => negb (existsb (String.eqb k) (map prefix2 (input_keys it)))) four_keys).
  { rewrite (leftover_set _ (map key2 (input_keys it))) by apply in_map_key2. reflexivity. }
  destruct (pattern_dec (dkeys (before_coerce it u))) as [[O|N]|[O N]].
  - rewrite coerce_oblique in E by auto. injection E as <-. rewrite A, <- B.
    replace (leftover_of _) with (@nil string); [now rewrite app_nil_r|].
    symmetry. rewrite (leftover_set _ oblique_keys O). reflexivity.
  - rewrite coerce_normal in E by auto. injection E as <-. rewrite filled_keys by auto.
    rewrite A, B. reflexivity.
  - rewrite coerce_reject in E by auto. discriminate.
Qed.
Print Assumptions C14_key_order_partial.
