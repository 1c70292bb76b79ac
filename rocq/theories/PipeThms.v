(** Data and models together: zero cost at the generating parameters, and data
    completed at normal incidence. *)
From Coq Require Import String List ZArith QArith Qreals Reals Lra Lia Bool.
From Coquelicot Require Import Complex.
From Verif Require Import PyBase RMod CBase DataModel SpecData DataProofs DataProofs2 FDataModel SpecFData FDataProofs Expr ExprProofs FormModel SpecForm
  FormProofs FormProofs2 FormProofs3 FitModel SpecFit FitProofs FitProofs2 SpecPipe.
Import ListNotations.
Local Open Scope nat_scope.

(** * Zero cost at the generating parameters *)
Section Cost.
Variable ev : expr -> expr.
Hypothesis EV : sound_ev ev.
Variable kev : code -> code.
Hypothesis KEV : sound_kev kev.

Lemma simulated_matching F d : ff_wf F -> symbolic F -> ff_M F = 16 -> (forall s, ff_occurs F s -> In s (dkeys d)) ->
  exists D, fform_to_fdat ev F d = Ok D /\ matching F D /\ forall rho, respects rho -> agrees rho d -> reproduces F D rho.
Proof.
  intros W S M16 H. destruct (fform_to_fdat_ok ev EV F d W S M16 H) as (sa & I & E & V). eexists. split; [exact E|].
  assert (N : NoDup (map fst (ff_rows F))) by exact (proj1 W).
  assert (L : forall k r, In (k, r) (ff_rows F) -> length (r_cells r) = 2 * ff_M F + 1) by exact (proj2 W).
  assert (K : map fst (dmap (fun r => map (values ev sa) (r_cells r)) (ff_rows F)) = map fst (ff_rows F)) by (unfold dmap; rewrite map_map; reflexivity).
  split.
  - split; [split; [exact N|exact L]|]. cbn [fd_data fd_M]. split; [split; cbn [fd_data fd_M]|split; [symmetry; exact M16|]].
    + rewrite K. exact N.
    + intros k v Iv. apply in_map_iff in Iv as ([k' r] & X & Ir). injection X as -> <-. rewrite map_length, (L k r Ir), M16. reflexivity.
    + intros k. cbn [fd_data]. rewrite K. auto.
  - intros rho Hr Ha k r m Ir Im_. unfold dvalue, fcell. cbn [fd_data fd_M]. rewrite dget_dmap, (In_dget _ _ _ N Ir). cbn [option_map].
    rewrite M16. unfold coef. cbn iota. assert (Lr : Z.to_nat (m + Z.of_nat 16) < length (r_cells r)).
    { rewrite (L k r Ir), M16. rewrite M16 in Im_. apply In_freqs in Im_. lia. }
    rewrite (nth_indep (map (values ev sa) (r_cells r)) (RtoC 0) (values ev sa (num 0))) by (rewrite map_length; exact Lr).
    rewrite map_nth. symmetry. apply (V rho k r _ Ir); [apply nth_In; exact Lr|exact Hr|].
    intros s q Is. apply Ha. apply I. exact Is.
Qed.

(** The values that a dictionary stands for. *)
Definition dict_env (d : list (sym * (Q * Q))) (s : sym) : C := match dget s d with Some q => qval q | None => RtoC 0 end.
Lemma dict_env_agrees d : NoDup (map fst d) -> agrees (dict_env d) d.
Proof. intros N s q I. unfold dict_env. rewrite (In_dget _ _ _ N I). reflexivity. Qed.
Lemma dict_env_respects d : (forall s a b, In (s, (a, b)) d -> sreal s = Some true -> b == 0)%Q -> respects (dict_env d).
Proof.
  intros H s R. unfold dict_env. destruct (dget s d) as [[a b]|] eqn:E; [|reflexivity]. apply dget_In in E. unfold qval, Im. cbn [fst snd].
  rewrite (Qeq_eqR _ _ (H s a b E R)). unfold Q2R. cbn. ring.
Qed.
Lemma listed_assigns d free xs : NoDup (map fst d) -> listed d free xs -> assigns free xs (dict_env d) /\ length free <= length xs /\ incl free (map fst d).
Proof.
  intros N L. split; [|split].
  - induction L as [|s x free xs (a & b & I & B & E) L IH]; intros i t X; [destruct i; discriminate|]. destruct i as [|i]; cbn [nth_error nth] in *; [|exact (IH i t X)].
    injection X as <-. unfold dict_env. rewrite (In_dget _ _ _ N I), E. unfold qval. cbn [fst snd]. apply C_ext; unfold Re, Im; cbn [fst snd RtoC]; [reflexivity|].
    rewrite (Qeq_eqR _ _ B). unfold Q2R. cbn. ring.
  - clear N. induction L; simpl; lia.
  - induction L as [|s x free xs (a & b & I & _) L IH]; [intros t []|]; intros t [<-|J]; [apply in_map_iff; exists (s, (a, b)); auto|apply IH; exact J].
Qed.

Lemma simulated_items F d D rho : ff_wf F -> symbolic F -> ff_M F = 16 -> (forall s, ff_occurs F s -> In s (dkeys d)) ->
  respects rho -> agrees rho d -> fform_to_fdat ev F d = Ok D -> fd_data D = dmap (fun r => map (eval rho) (r_cells r)) (ff_rows F).
Proof.
  intros W S M16 H Hr Ha E. destruct (fform_to_fdat_ok ev EV F d W S M16 H) as (sa & I & E' & V). rewrite E in E'. injection E' as ->. cbn [fd_data].
  apply dmap_ext. intros k r Ir. apply map_ext_in. intros e Ie. apply (V rho k r e Ir Ie Hr). intros s q Is. apply Ha, I, Is.
Qed.

Lemma zero_cost F d free xs chunk save fs : ff_wf F -> symbolic F -> ff_M F = 16 -> argument_list F free -> (chunk = true -> ff_rows F <> []) ->
  NoDup (map fst d) -> (forall s a b, In (s, (a, b)) d -> sreal s = Some true -> b == 0)%Q -> listed d free xs ->
  exists D lib, fform_to_fdat ev F d = Ok D /\ gen_cost_func kev F D (Some free) chunk save fs = (save_lib save lib fs, Ok lib) /\
    call lib xs = Some 0%R /\
    (forall ys, length free <= length ys -> exists c, call lib ys = Some c /\ (0 <= c)%R) /\
    (forall d' ys, NoDup (map fst d') -> (forall s a b, In (s, (a, b)) d' -> sreal s = Some true -> b == 0)%Q -> listed d' free ys ->
       (call lib ys = Some 0%R <-> exists D', fform_to_fdat ev F d' = Ok D' /\ fget_items D' = fget_items D)).
Proof.
  intros W S M16 Ar Ne N R L.
  assert (Oc : forall d, NoDup (map fst d) -> forall xs, listed d free xs -> forall s, ff_occurs F s -> In s (dkeys d)).
  { intros d1 N1 xs1 L1 s O. apply (proj2 (proj2 (listed_assigns d1 free xs1 N1 L1))). apply (proj2 Ar). exact O. }
  destruct (simulated_matching F d W S M16 (Oc d N xs L)) as (D & ED & Ma & Rp). exists D.
  destruct (cost_ok kev KEV F D free chunk save fs Ma Ar Ne) as (lib & G & Cp). exists lib. split; [exact ED|]. split; [exact G|].
  destruct (listed_assigns d free xs N L) as (As & Le & _).
  split; [|split].
  - rewrite (Cp xs (dict_env d) Le As). f_equal. apply misfit_zero. apply Rp; [apply dict_env_respects; exact R|apply dict_env_agrees; exact N].
  - intros ys Ly. exists (misfit F D (reading free ys)). split; [|apply misfit_nonneg]. apply Cp; [exact Ly|]. apply reading_assigns; [exact (proj1 Ar)|exact Ly].
  - intros d' ys N' R' L'. destruct (listed_assigns d' free ys N' L') as (As' & Le' & _). rewrite (Cp ys (dict_env d') Le' As').
    destruct (simulated_matching F d' W S M16 (Oc d' N' ys L')) as (D' & ED' & Ma' & Rp').
    pose proof (simulated_items F d D (dict_env d) W S M16 (Oc d N xs L) (dict_env_respects d R) (dict_env_agrees d N) ED) as I.
    pose proof (simulated_items F d' D' (dict_env d') W S M16 (Oc d' N' ys L') (dict_env_respects d' R') (dict_env_agrees d' N') ED') as I'.
    assert (Rd : reproduces F D (dict_env d)) by (apply Rp; [apply dict_env_respects; exact R|apply dict_env_agrees; exact N]).
    split.
    + intros X. exists D'. split; [exact ED'|]. assert (Z : misfit F D (dict_env d') = 0%R) by congruence. apply misfit_zero in Z.
      unfold fget_items. rewrite I, I'. apply dmap_ext. intros k r Ir. apply (nth_ext _ _ (RtoC 0) (RtoC 0)); [rewrite !map_length; reflexivity|].
      intros i Li. rewrite map_length in Li. assert (Lr : length (r_cells r) = 33) by (rewrite (proj2 W k r Ir), M16; reflexivity).
      assert (Im_ : In (Z.of_nat i - 16)%Z (freqs (ff_M F))) by (rewrite M16; apply In_freqs; lia).
      specialize (Z k r _ Ir Im_). rewrite <- (Rd k r _ Ir Im_) in Z. unfold fcell in Z. rewrite M16 in Z.
      replace (Z.to_nat (Z.of_nat i - 16 + Z.of_nat 16)) with i in Z by lia.
      rewrite !(nth_indep (map _ (r_cells r)) (RtoC 0) (eval (dict_env d') (num 0))) by (rewrite map_length; exact Li). rewrite map_nth, Z.
      rewrite (nth_indep (map _ (r_cells r)) _ (eval (dict_env d) (num 0))) by (rewrite map_length; exact Li). rewrite map_nth. reflexivity.
    + intros (D2 & E2 & It). rewrite ED' in E2. injection E2 as <-. f_equal. apply misfit_zero. intros k r m Ir Im_.
      rewrite (Rp' (dict_env d') (dict_env_respects d' R') (dict_env_agrees d' N') k r m Ir Im_). unfold dvalue. unfold fget_items in It. rewrite It.
      replace (fd_M D') with (fd_M D); [reflexivity|]. rewrite (proj1 (proj2 (proj2 Ma))), (proj1 (proj2 (proj2 Ma'))). reflexivity.
Qed.
End Cost.

(** * Completion at normal incidence *)
Lemma completed_on_curve it u d (g : string -> R -> R) : construct it u true = Ok d ->
  (forall k x, In k four_keys -> g k (x + 2 * PI)%R = g k x) ->
  (forall k x, In k four_keys -> g k (x + PI / 2)%R = g (partner k) x) ->
  (forall k0 dt raw, given it k0 dt raw -> (u = "degrees"%string \/ dt = DFloat) /\
     forall x y, In (x, y) (in_radians u raw) -> y = g (prefix2 k0) x) ->
  forall k p x y, In k four_keys -> get_pc d k "radians" = Ok p -> In (x, y) p -> y = g k x.
Proof.
  intros C Per Q G k p x y K E I. apply construct_Ok in C as (Cu & Ci & d2 & Ec & F & ->).
  assert (PerZ : forall k x z, In k four_keys -> g k (x + IZR z * (2 * PI))%R = g k x).
  { intros k' x' z K'. revert z x'. assert (Pos : forall n x', g k' (x' + INR n * (2 * PI))%R = g k' x').
    { induction n as [|n IH]; intros x'; [f_equal; simpl; ring|]. rewrite S_INR. rewrite <- (IH x'), <- (Per k' (x' + INR n * (2 * PI))%R K'). f_equal. ring. }
    intros z x'. destruct (Z_le_gt_dec 0 z) as [Hz|Hz].
    - rewrite <- (Z2Nat.id z Hz), <- INR_IZR_INZ. apply Pos.
    - rewrite <- (Pos (Z.to_nat (- z))%Z (x' + IZR z * (2 * PI))%R). f_equal. rewrite INR_IZR_INZ, Z2Nat.id by lia. rewrite opp_IZR. ring. }
  assert (Same : forall k x x', In k four_keys -> same_angle x x' -> g k x = g k x').
  { intros k' a b K' [z ->]. apply PerZ. exact K'. }
  unfold get_pc, view, dgetr in E. simpl in E. rewrite dget_dmap in E.
  assert (Gv : forall k v, dget k (renamed (before_coerce it u)) = Some v -> exists l, v = (DFloat, l) /\ forall x y, In (x, y) l -> y = g k x).
  { intros k' v V. apply renamed_get in V as (k0 & e1 & e0 & Eb & K0 & _).
    assert (I0 : In (k0, v) (before_coerce it u)) by (rewrite Eb; apply in_app_iff; right; left; auto).
    destruct (in_before_given it u k0 v Ci I0) as (dt & raw & D & Gi & ->). destruct (G k0 dt raw Gi) as [H1 H2].
    rewrite (conv_float u dt raw D H1). eexists. split; [reflexivity|]. intros a b J. change (prefix2 k0) with (key2 k0) in H2. rewrite <- K0. apply H2. exact J. }
  destruct (in_dec string_dec k (map key2 (dkeys (before_coerce it u)))) as [Y|Y].
  - rewrite (coerce_get_given _ _ k Ec Y) in E. destruct (dget k (renamed (before_coerce it u))) as [v|] eqn:V; [|discriminate].
    injection E as <-. destruct (Gv k v V) as (l & -> & H). apply In_finish_float in I as (x0 & I & ->). apply remove_dups_incl in I.
    rewrite (H x0 y I). apply Same; [exact K|]. apply same_angle_mod.
  - destruct (coerce_get_missing _ _ k Ec K Y) as (v & _ & V & V' & _). rewrite V in E. injection E as <-.
    destruct (Gv _ v V') as (l & -> & H). unfold rot90 in I. cbn [fst snd] in I. apply In_finish_float in I as (x0 & I & ->).
    apply remove_dups_incl in I. apply in_map_iff in I as ([x1 y1] & X & J). cbn [fst snd cast] in X. injection X as <- <-.
    rewrite (H x1 y1 J). assert (Kp : copy_pc k = partner k) by (destruct K as [<-|[<-|[<-|[<-|[]]]]]; reflexivity).
    rewrite Kp, <- (Q k x1 K). apply Same; [exact K|]. eapply same_angle_trans; [apply same_angle_mod|]. apply same_angle_mod.
Qed.
