(** Proofs about Fourier-space data: C15 (part), C16-C19. *)
From Coq Require Import String List ZArith Reals Lra Lia Sorted Permutation Bool.
From Coquelicot Require Import Complex.
From Verif Require Import PyBase RMod DataModel SpecData DataProofs DataProofs2 DataProofs3 CBase FDataModel SpecFData.
Import ListNotations.
Open Scope R_scope.

(* ------------------------------------------------------------------ *)
(** * Well-formed containers *)

Definition fwf_data (M : nat) (d : dict string (list C)) : Prop :=
  wf_dict d /\ Forall (fun kv => length (snd kv) = (2 * M + 1)%nat) d.
Definition fwf (f : fdat) : Prop := fwf_data (fd_M f) (fd_data f).

Lemma wf_key_inj {V W} (g : V -> W) (d : dict string V) : wf_dict d ->
  wf_dict (map (fun kv => (KStr (fst kv), g (snd kv))) d).
Proof.
  unfold wf_dict, dkeys. rewrite map_map. simpl. intros N.
  rewrite <- (map_map fst KStr). apply FinFun.Injective_map_NoDup; auto.
  intros a b E; injection E; auto.
Qed.

Lemma fconstruct_items M d : fwf_data M d -> fconstruct (fitems d) M = Ok (mkfdat d 1 (PNum 0) M).
Proof.
  intros [W F]. unfold fconstruct, fitems.
  rewrite dict_of_wf by (apply (wf_key_inj (FArr true 1)); auto).
  unfold fcheck, dkeys, dvals. rewrite !map_map; simpl.
  replace (forallb good_key _) with true.
  2:{ symmetry. apply forallb_forall. intros k I. apply in_map_iff in I as [? [<- _]]. reflexivity. }
  replace (forallb (good_fval M) _) with true.
  2:{ symmetry. apply forallb_forall. intros v I. apply in_map_iff in I as [kv [<- I]]. simpl.
      rewrite Forall_forall in F. apply Nat.eqb_eq. apply F; auto. }
  simpl. do 2 f_equal. rewrite <- (map_id d) at 2. apply map_ext. intros []; auto.
Qed.

Lemma fconstruct_wf it M f : fconstruct it M = Ok f ->
  fwf f /\ fd_M f = M /\ fd_scale f = 1 /\ fd_phase f = PNum 0.
Proof.
  unfold fconstruct, fcheck.
  destruct (forallb good_key (dkeys (dict_of it))) eqn:K; simpl; [|discriminate].
  destruct (forallb (good_fval M) (dvals (dict_of it))) eqn:V; simpl; [|discriminate].
  intros E; injection E as <-. repeat split; auto; simpl.
  - unfold wf_dict, dkeys. rewrite map_map; simpl. pose proof (wf_dict_of it) as W.
    unfold wf_dict, dkeys in W, K. rewrite forallb_forall in K.
    rewrite <- (map_map fst key_str). revert W K. generalize (map fst (dict_of it)).
    induction l as [|a l IH]; simpl; intros N K; [constructor|]. inversion N; subst.
    constructor; [|apply IH; auto]. intros I. apply in_map_iff in I as [b [E I]].
    pose proof (K a (or_introl eq_refl)) as Ka. pose proof (K b (or_intror I)) as Kb.
    destruct a, b; try discriminate. simpl in E. subst. contradiction.
  - apply Forall_forall. intros [k l] I. apply in_map_iff in I as [[pk v] [E I]]. simpl in E.
    injection E as <- <-. simpl. rewrite forallb_forall in V.
    assert (G : good_fval M v = true) by (apply V; apply in_map_iff; exists (pk, v); auto).
    destruct v as [c n l|]; simpl in *; [|discriminate].
    apply andb_prop in G as [_ G]. apply Nat.eqb_eq; auto.
Qed.

Lemma fwf_dmap M g d : (forall v, length v = (2 * M + 1)%nat -> length (g v) = (2 * M + 1)%nat) ->
  fwf_data M d -> fwf_data M (dmap g d).
Proof.
  intros G [W F]. split; [apply wf_dmap; auto|]. apply Forall_forall. intros [k v] I.
  apply In_dmap in I as (w & I & ->). simpl. apply G. rewrite Forall_forall in F. apply (F _ I).
Qed.

Lemma combine_freqs M v : length v = (2 * M + 1)%nat ->
  combine (freqs M) v = map (fun m => (m, coef M v m)) (freqs M).
Proof.
  intros L. assert (LF := length_freqs M).
  apply nth_ext with (d := (0%Z, RtoC 0)) (d' := (0%Z, coef M v 0)).
  - rewrite combine_length, map_length. lia.
  - intros i I. rewrite combine_length in I. rewrite combine_nth by lia.
    rewrite (map_nth (fun m => (m, coef M v m))). f_equal.
    unfold coef. f_equal. unfold freqs, zrange.
    rewrite (nth_indep _ _ ((- Z.of_nat M) + Z.of_nat 0)%Z) by (rewrite map_length, seq_length; lia).
    rewrite (map_nth (fun i : nat => (- Z.of_nat M + Z.of_nat i)%Z)), seq_nth by lia. lia.
Qed.

Lemma freqs_nth M i d : (i < 2 * M + 1)%nat -> nth i (freqs M) d = (Z.of_nat i - Z.of_nat M)%Z.
Proof.
  intros L. unfold freqs, zrange.
  rewrite (nth_indep _ _ ((- Z.of_nat M) + Z.of_nat 0)%Z) by (rewrite map_length, seq_length; lia).
  rewrite (map_nth (fun i : nat => (- Z.of_nat M + Z.of_nat i)%Z)), seq_nth by lia. lia.
Qed.

Lemma coef_map_freqs M (g : Z -> C) m : (Z.abs m <= Z.of_nat M)%Z -> coef M (map g (freqs M)) m = g m.
Proof.
  intros L. unfold coef. rewrite (nth_indep _ _ (g 0%Z)) by (rewrite map_length, length_freqs; lia).
  rewrite map_nth, freqs_nth by lia. f_equal. lia.
Qed.

Lemma list_by_coef M v : length v = (2 * M + 1)%nat -> v = map (coef M v) (freqs M).
Proof.
  intros L. apply nth_ext with (d := RtoC 0) (d' := coef M v 0).
  - rewrite map_length, length_freqs; auto.
  - intros i I. rewrite map_nth, freqs_nth by lia. unfold coef. f_equal. lia.
Qed.

Lemma coef_ext M v w : length v = (2 * M + 1)%nat -> length w = (2 * M + 1)%nat ->
  (forall m, (Z.abs m <= Z.of_nat M)%Z -> coef M v m = coef M w m) -> v = w.
Proof.
  intros Lv Lw E. rewrite (list_by_coef M v), (list_by_coef M w) by auto.
  apply map_ext_in. intros m I. apply In_freqs in I. apply E. lia.
Qed.

Lemma shift_row_map M a v : length v = (2 * M + 1)%nat ->
  shift_row M a v = map (fun m => Cmult (coef M v m) (cis (IZR m * a))) (freqs M).
Proof. intros L. unfold shift_row. rewrite combine_freqs, map_map by auto. reflexivity. Qed.

Lemma shift_row_coef M a v m : length v = (2 * M + 1)%nat -> (Z.abs m <= Z.of_nat M)%Z ->
  coef M (shift_row M a v) m = Cmult (coef M v m) (cis (IZR m * a)).
Proof. intros L I. rewrite shift_row_map by auto. rewrite coef_map_freqs; auto. Qed.

Lemma shift_row_length M a v : length v = (2 * M + 1)%nat -> length (shift_row M a v) = (2 * M + 1)%nat.
Proof. intros L. rewrite shift_row_map, map_length, length_freqs; auto. Qed.

Lemma fscale_length c M v : length v = (2 * M + 1)%nat -> length (map (Cmult c) v) = (2 * M + 1)%nat.
Proof. intros; rewrite map_length; auto. Qed.

Lemma fscale_wf f s : fwf f -> fwf (fst (scale_fdata f s)).
Proof.
  intros W. unfold scale_fdata. destruct (Rltb s 0); simpl; auto. unfold fwf; simpl.
  apply fwf_dmap; auto. intros; apply fscale_length; auto.
Qed.

Lemma fstep_wf f o : fwf f -> fwf (fst (fstep f o)) /\ fd_M (fst (fstep f o)) = fd_M f.
Proof.
  intros W. destruct o as [s|x|a n u]; simpl.
  - split; [apply fscale_wf; auto|]. unfold scale_fdata. destruct (Rltb s 0); auto.
  - unfold normalize_fdata. destruct (fget_maxval f) as [[[k m]|]|e]; simpl; auto.
    + destruct (Reqb m 0); [destruct (Rltb x 0); simpl; auto|].
      split; [apply fscale_wf; auto|]. unfold scale_fdata. destruct (Rltb _ 0); auto.
    + split; [apply fscale_wf; auto|]. unfold scale_fdata. destruct (Rltb _ 0); auto.
  - unfold phase_shift_fdata. destruct (check_angle_units (lower u)); simpl; auto.
    destruct (phase_add _ _ _); simpl; (split; [|auto]); unfold fwf; simpl;
      apply fwf_dmap; auto; intros; apply shift_row_length; auto.
Qed.

Lemma frun_wf h : forall f, fwf f -> fwf (frun f h) /\ fd_M (frun f h) = fd_M f.
Proof.
  induction h as [|o h IH]; simpl; intros f W; auto.
  destruct (fstep_wf f o W) as [W' E]. destruct (IH _ W') as [A B]. split; auto. congruence.
Qed.

Lemma freachable_wf f : freachable f -> fwf f.
Proof.
  intros (it & M & f0 & h & C & ->). apply frun_wf. apply (fconstruct_wf _ _ _ C).
Qed.

Lemma fget_pc_length f k v : fwf f -> fget_pc f k = Ok v -> length v = (2 * fd_M f + 1)%nat.
Proof.
  intros [_ F] E. unfold fget_pc, dgetr in E. destruct (dget k (fd_data f)) eqn:G; [|discriminate].
  injection E as <-. apply dget_In in G. rewrite Forall_forall in F. apply (F _ G).
Qed.

Lemma fget_pc_dmap f k g s p M : 
  fget_pc (mkfdat (dmap g (fd_data f)) s p M) k = match fget_pc f k with Ok v => Ok (g v) | Raise e => Raise e end.
Proof. unfold fget_pc, dgetr; simpl. rewrite dget_dmap. destruct (dget k (fd_data f)); reflexivity. Qed.

(* ------------------------------------------------------------------ *)
(** * C16 *)

Lemma coef_scale M c v m : length v = (2 * M + 1)%nat -> (Z.abs m <= Z.of_nat M)%Z ->
  coef M (map (Cmult c) v) m = Cmult c (coef M v m).
Proof.
  intros L I. unfold coef. rewrite (nth_indep _ _ (Cmult c (RtoC 0))) by (rewrite map_length; lia).
  apply map_nth.
Qed.

Lemma shift_row_twice M a b v : length v = (2 * M + 1)%nat ->
  shift_row M b (shift_row M a v) = shift_row M (a + b) v.
Proof.
  intros L. apply (coef_ext M); rewrite ?shift_row_length; auto using shift_row_length.
  intros m I. rewrite !shift_row_coef; auto using shift_row_length.
  rewrite <- Cmult_assoc, <- cis_plus. do 2 f_equal. ring.
Qed.

Lemma shift_row_turn M k v : length v = (2 * M + 1)%nat -> shift_row M (IZR k * (2 * PI)) v = v.
Proof.
  intros L. apply (coef_ext M); auto using shift_row_length. intros m I.
  rewrite shift_row_coef by auto. replace (IZR m * (IZR k * (2 * PI)))%R with (IZR (m * k) * (2 * PI))%R
    by (rewrite mult_IZR; ring). rewrite cis_2pi_Z. ring.
Qed.

Lemma dmap_ext_wf {M} (g h : list C -> list C) d : fwf_data M d ->
  (forall v, length v = (2 * M + 1)%nat -> g v = h v) -> dmap g d = dmap h d.
Proof.
  intros [_ F] E. apply dmap_ext. intros k v I. apply E. rewrite Forall_forall in F. apply (F _ I).
Qed.

(** maxima of magnitudes *)
Definition as_pts (v : list C) : list (R * R) := map (fun z => (0, Cmod z)) v.
Lemma fmaxval_as d : forall acc, fmaxval_loop d acc = maxval_loop (dmap as_pts d) acc.
Proof.
  induction d as [|[k v] d IH]; simpl; intros acc; auto. unfold as_pts. rewrite map_map. simpl.
  destruct (py_max (map Cmod v)); simpl; auto.
Qed.

Lemma as_pts_value d y : value_of (dmap as_pts d) y <-> mag_of d y.
Proof.
  split.
  - intros (k & p & x & I & J). apply In_dmap in I as (v & I & ->). apply in_map_iff in J as [z [E J]].
    injection E as <- <-. exists k, v, z; auto.
  - intros (k & v & z & I & J & ->). exists k, (as_pts v), 0. split.
    + unfold dmap. apply in_map_iff. exists (k, v); auto.
    + apply in_map_iff. exists z; auto.
Qed.

Lemma fget_maxval_spec f : fwf f -> fd_data f <> [] ->
  exists k m, fget_maxval f = Ok (Some (k, m)) /\ first_max (dmap as_pts (fd_data f)) k m /\
    is_max (mag_of (fd_data f)) m.
Proof.
  intros [W F] N. unfold fget_maxval. rewrite fmaxval_as.
  set (d := mkdat (dmap as_pts (fd_data f)) 1 0 0 "" false).
  destruct (get_maxval_spec d) as (k & m & E & FM).
  - simpl. intros E. apply N. destruct (fd_data f); auto; discriminate.
  - simpl. apply Forall_forall. intros [k p] I. apply In_dmap in I as (v & I & ->). simpl.
    rewrite Forall_forall in F. specialize (F _ I). simpl in F. destruct v; [simpl in F; lia|discriminate].
  - exists k, m. split; [exact E|]. split; [exact FM|]. apply first_max_is_max in FM. simpl in FM.
    destruct FM as [A B]. split; [apply as_pts_value; auto|]. intros y Y. apply B, as_pts_value; auto.
Qed.

Lemma Cmod_scale s z : 0 <= s -> Cmod (Cmult (RtoC s) z) = s * Cmod z.
Proof. intros P. rewrite Cmod_mult, Cmod_R, Rabs_right; auto. lra. Qed.

Lemma normalize_fspec f m x : fwf f -> is_max (mag_of (fd_data f)) m -> 0 < m -> 0 <= x ->
  exists f', normalize_fdata f x = (f', Ok tt) /\ is_max (mag_of (fd_data f')) x /\
    fd_data f' = dmap (map (Cmult (RtoC (x / m)))) (fd_data f) /\
    fd_scale f' = fd_scale f * (x / m).
Proof.
  intros W Mx P X.
  assert (N : fd_data f <> []).
  { destruct Mx as [(k & v & z & I & _) _]. intros E; rewrite E in I; destruct I. }
  destruct (fget_maxval_spec f W N) as (k & m' & E & _ & Mx').
  assert (m' = m) as ->.
  { apply Rle_antisym; [apply Mx, Mx'|apply Mx', Mx]. }
  assert (Q : 0 <= x / m) by (apply Rmult_le_pos; auto; left; apply Rinv_0_lt_compat; auto).
  unfold normalize_fdata. rewrite E. rewrite (proj2 (Reqb_false m 0)) by lra.
  unfold scale_fdata. rewrite (proj2 (Rltb_false (x / m) 0)) by lra.
  eexists; split; [reflexivity|]. simpl. split; [|auto]. split.
  - destruct Mx as [(k0 & v & z & I & J & ->) _]. exists k0, (map (Cmult (RtoC (x / Cmod z))) v), (Cmult (RtoC (x / Cmod z)) z).
    split; [unfold dmap; apply in_map_iff; exists (k0, v); auto|]. split; [apply in_map; auto|].
    rewrite Cmod_scale by auto. field. lra.
  - intros y (k0 & v & z & I & J & ->). apply In_dmap in I as (w & I & ->). apply in_map_iff in J as [z0 [<- J]].
    rewrite Cmod_scale by auto. assert (Cmod z0 <= m) by (apply Mx; exists k0, w, z0; auto).
    apply Rle_trans with (x / m * m); [apply Rmult_le_compat_l; auto|]. right. field. lra.
Qed.

(* ------------------------------------------------------------------ *)
(** * Data on the grid *)

Lemma finish_id l : Forall in_turn (map fst l) -> StronglySorted (fun p q => fst p < fst q) l ->
  finish (DFloat, l) = l.
Proof.
  intros T S. unfold finish; simpl.
  assert (A : forall seen, (forall s q, In s seen -> In q l -> s < fst q) -> remove_dups_aux seen l = l).
  { revert T S. induction l as [|[x y] l IH]; simpl; intros T S seen H; auto.
    inversion T; subst. inversion S; subst. rewrite mod2pi_small by auto.
    replace (mem Reqb x seen) with false.
    - f_equal. apply IH; auto. intros s q I J. apply in_app_iff in I as [I|[<-|[]]].
      + apply H; auto.
      + rewrite Forall_forall in H5. apply (H5 _ J).
    - symmetry. unfold mem. apply not_true_is_false. intros E. apply existsb_exists in E as [s [I E]].
      apply Reqb_true in E. subst. specialize (H s (s, y) I (or_introl eq_refl)). simpl in H. lra. }
  rewrite A by (simpl; tauto).
  rewrite (map_ext_in _ (fun p => p)), map_id.
  - apply isort_sorted_id. clear A T. induction S; constructor; auto.
    eapply Forall_impl; [|exact H]. intros q L. unfold le_x. lra.
  - intros [x y] I. simpl. rewrite mod2pi_small; auto. rewrite Forall_forall in T. apply T.
    apply in_map_iff. exists (x, y); auto.
Qed.

Lemma SS_map_seq {A} (P : A -> A -> Prop) (f : nat -> A) n : forall s,
  (forall i j, (s <= i)%nat -> (i < j)%nat -> P (f i) (f j)) -> StronglySorted P (map f (seq s n)).
Proof.
  induction n; intros s H; simpl; constructor.
  - apply IHn. intros; apply H; lia.
  - apply Forall_forall. intros a I. apply in_map_iff in I as [j [<- I]]. apply in_seq in I. apply H; lia.
Qed.

Lemma grid_turn n : Forall in_turn (grid n).
Proof.
  apply Forall_forall. intros x I. apply in_map_iff in I as [j [<- I]]. apply in_seq in I.
  apply node_turn. lia.
Qed.
Lemma grid_length n : length (grid n) = n.
Proof. unfold grid. now rewrite map_length, seq_length. Qed.
Lemma grid_sorted n : StronglySorted Rlt (grid n).
Proof.
  destruct n; [constructor|]. unfold grid. apply SS_map_seq. intros i j _ L. apply node_lt; auto. lia.
Qed.
Lemma sorted_NoDup l : StronglySorted Rlt l -> NoDup l.
Proof.
  induction 1 as [|x l S IH F]; constructor; auto. intros I. rewrite Forall_forall in F.
  specialize (F _ I). lra.
Qed.
Lemma grid_NoDup n : NoDup (grid n).
Proof. apply sorted_NoDup, grid_sorted. Qed.

(** samples of a function on the grid *)
Definition sampled (n : nat) (h : R -> R) : list (R * R) := map (fun x => (x, h x)) (grid n).
Lemma sampled_fst n h : map fst (sampled n h) = grid n.
Proof. unfold sampled. rewrite map_map. apply map_id. Qed.

Lemma finish_sampled n h : finish (DFloat, sampled n h) = sampled n h.
Proof.
  apply finish_id; [rewrite sampled_fst; apply grid_turn|].
  unfold sampled. pose proof (grid_sorted n) as S. induction S; simpl; constructor; auto.
  apply Forall_forall. intros q I. apply in_map_iff in I as [x [<- I]]. rewrite Forall_forall in H.
  simpl; auto.
Qed.

(** Construction from float arrays in radians. *)
Lemma construct_input d : wf_dict d -> Forall (fun kv => snd kv <> []) d ->
  construct (input DFloat d) "radians" false =
  Ok (mkdat (dmap (fun p => finish (DFloat, p)) d) 1 0 0 "radians" false).
Proof.
  intros W F. assert (E : dict_of (input DFloat d) = input DFloat d).
  { apply dict_of_wf. apply (wf_key_inj (arr DFloat)); auto. }
  rewrite (construct_Ok_conv _ _ false (dmap (fun p => (DFloat, p)) d)).
  - rewrite dmap_dmap. reflexivity.
  - reflexivity.
  - rewrite E. apply check_iterable_Ok. unfold dkeys, dvals, input. rewrite !map_map. rewrite !forallb_forall. split.
    + intros k I. apply in_map_iff in I as [? [<- _]]. reflexivity.
    + intros v I. apply in_map_iff in I as [? [<- _]]. simpl. rewrite !map_length. apply Nat.eqb_refl.
  - f_equal. unfold before_coerce; simpl. rewrite E. unfold raw_dict, input, dmap. rewrite map_map.
    apply map_ext. intros [k p]; simpl. do 2 f_equal. clear.
    induction p as [|[x y] p IH]; simpl; congruence.
  - apply Forall_forall. intros [k [dt p]] I. apply In_dmap in I as (q & I & E'). injection E' as -> ->.
    rewrite Forall_forall in F. apply (F _ I).
Qed.

Lemma synth_series M v x : length v = (2 * M + 1)%nat -> synth M v x = series M v x.
Proof. intros L. unfold synth, series. rewrite combine_freqs, Csum_map by auto. reflexivity. Qed.

Lemma fdat_to_dat_spec f n : fwf f -> (0 < n)%nat ->
  fdat_to_dat f n = Ok (mkdat (dmap (fun v => sampled n (fun x => Re (series (fd_M f) v x))) (fd_data f))
                          1 0 0 "radians" false).
Proof.
  intros [W F] P. unfold fdat_to_dat.
  rewrite (map_ext_in _ (fun kv => (KStr (fst kv), arr DFloat (sampled n (fun x => Re (series (fd_M f) (snd kv) x)))))).
  2:{ intros [k v] I. simpl. do 2 f_equal. unfold arr, sampled. rewrite !map_map. simpl. rewrite map_id.
      f_equal. f_equal. f_equal. apply map_ext. intros x. rewrite synth_series; auto. rewrite Forall_forall in F. apply (F _ I). }
  set (d := dmap (fun v => sampled n (fun x => Re (series (fd_M f) v x))) (fd_data f)).
  replace (map _ (fd_data f)) with (input DFloat d).
  2:{ unfold input, d, dmap. rewrite map_map. reflexivity. }
  rewrite construct_input.
  - do 2 f_equal. unfold d. rewrite dmap_dmap. apply dmap_ext. intros. apply finish_sampled.
  - apply wf_dmap; auto.
  - apply Forall_forall. intros [k p] I. apply In_dmap in I as (v & I & ->). simpl.
    unfold sampled, grid. destruct n; [lia|]. discriminate.
Qed.

(* ------------------------------------------------------------------ *)
(** * The discrete transform *)

(** (1/n) sum over the points of y exp(-i m x) *)
Definition dft (p : list (R * R)) (m : Z) : C :=
  Cmult (RtoC (/ INR (length p))) (Csum (fun q => Cmult (RtoC (snd q)) (cis (- IZR m * fst q))) p).

Lemma fourier_entry_grid interp p g m : exact_at_nodes interp -> interp p = Ok g ->
  map fst p = grid (length p) -> (2 <= length p)%nat -> fourier_entry interp p m = Ok (dft p m).
Proof.
  intros X E G L. unfold fourier_entry. rewrite E. simpl.
  set (n := length p) in *. assert (NZ : INR n <> 0) by (apply not_0_INR; lia).
  assert (C : combine (grid n) (map g (grid n)) = p).
  { rewrite <- G. assert (H : forall l, incl l p -> combine (map fst l) (map g (map fst l)) = l).
    { induction l as [|[x y] l IH]; simpl; intros I; auto. rewrite IH by (intros q J; apply I; right; auto).
      do 2 f_equal. eapply X; eauto. - fold n in G. rewrite G. apply grid_NoDup. - apply I; left; auto. }
    apply H. apply incl_refl. }
  assert (E1 : py_nth (grid n) 1 = Ok (node n 1)).
  { rewrite py_nth_nonneg by lia. unfold grid. change (Z.to_nat 1) with 1%nat.
    destruct n as [|[|n']]; try lia. reflexivity. }
  assert (E0 : py_nth (grid n) 0 = Ok (node n 0)).
  { rewrite py_nth_nonneg by lia. unfold grid. change (Z.to_nat 0) with 0%nat.
    destruct n as [|[|n']]; try lia. reflexivity. }
  rewrite E1, E0. simpl. rewrite C. unfold dft. fold n. rewrite <- Csum_mult_l. f_equal. apply Csum_ext.
  intros [x y]. simpl. rewrite Cmult_assoc, <- RtoC_mult. f_equal. f_equal. unfold node. simpl.
  field. split; auto. apply PI_neq0.
Qed.

Lemma mapM_ok_map {A B} (f : A -> res B) (g : A -> B) l : (forall a, In a l -> f a = Ok (g a)) ->
  mapM f l = Ok (map g l).
Proof.
  induction l as [|a l IH]; simpl; intros H; auto. rewrite H by auto. simpl. rewrite IH by auto. reflexivity.
Qed.

Lemma dat_to_fdat_spec interp d M : exact_at_nodes interp -> wf_dict (dc_data d) ->
  (forall k p, In (k, p) (dc_data d) -> map fst p = grid (length p) /\ (2 <= length p)%nat /\ is_ok (interp p)) ->
  dat_to_fdat interp d M = Ok (mkfdat (dmap (fun p => map (dft p) (freqs M)) (dc_data d)) 1 (PNum 0) M).
Proof.
  intros X W H. unfold dat_to_fdat.
  assert (E : dmapM (fun p => mapM (fourier_entry interp p) (freqs M)) (dc_data d) =
              Ok (dmap (fun p => map (dft p) (freqs M)) (dc_data d))).
  { clear W. revert H. induction (dc_data d) as [|[k p] l IH]; simpl; intros H; auto.
    destruct (H k p (or_introl eq_refl)) as (G & L & [g E]).
    rewrite (mapM_ok_map _ (dft p)) by (intros; eapply fourier_entry_grid; eauto). simpl.
    rewrite IH by (intros; apply (H k0); auto). reflexivity. }
  rewrite E. simpl. apply fconstruct_items. split; [apply wf_dmap; auto|].
  apply Forall_forall. intros [k v] I. apply In_dmap in I as (p & _ & ->). simpl.
  now rewrite map_length, length_freqs.
Qed.

(** discrete transform of the samples of a series: aliasing *)
Lemma dft_sampled M v n m : (0 < n)%nat ->
  dft (sampled n (fun x => Re (series M v x))) m =
  Csum (fun m' => if ((m' - m) mod Z.of_nat n =? 0)%Z then herm_part M v m' else RtoC 0) (freqs M).
Proof.
  intros P. assert (NZ : INR n <> 0) by (apply not_0_INR; lia).
  unfold dft, sampled. rewrite map_length, grid_length, Csum_map. unfold grid. rewrite Csum_map. simpl.
  assert (R : forall x, RtoC (Re (series M v x)) =
     Csum (fun m' => Cmult (herm_part M v m') (cis (IZR m' * x))) (freqs M)).
  { intros x. rewrite Re_conj_sum. unfold series. rewrite Csum_conj.
    unfold Cdiv. rewrite Cmult_plus_distr_r, <- !Csum_mult_r.
    transitivity (Cplus (Csum (fun a => Cmult (Cmult (coef M v a) (Cinv (RtoC 2))) (cis (IZR a * x))) (freqs M))
      (Csum (fun a => Cmult (Cmult (Cconj (coef M v (- a))) (Cinv (RtoC 2))) (cis (IZR a * x))) (freqs M))).
    - f_equal; [apply Csum_ext; intros; ring|].
      assert (PE : Permutation (freqs M) (map Z.opp (freqs M))).
      { apply NoDup_Permutation; [apply NoDup_zrange|apply FinFun.Injective_map_NoDup; [intros a b; lia|apply NoDup_zrange]|].
        intros z. rewrite in_map_iff. rewrite In_freqs. split.
        - intros I. exists (- z)%Z. rewrite In_freqs. lia.
        - intros [y [<- I]]. apply In_freqs in I. lia. }
      rewrite (Csum_perm _ _ _ PE), Csum_map. apply Csum_ext. intros a.
      rewrite Cconj_mult, <- cis_opp, opp_IZR. replace (- (- IZR a * x))%R with (IZR a * x)%R by ring. ring.
    - rewrite <- Csum_plus. apply Csum_ext. intros a. unfold herm_part, Cdiv. ring. }
  rewrite (Csum_ext _ (fun j => Csum (fun m' => Cmult (herm_part M v m') (cis (IZR (m' - m) * node n j))) (freqs M))).
  2:{ intros j. rewrite R, <- Csum_mult_r. apply Csum_ext. intros m'.
      rewrite minus_IZR. replace ((IZR m' - IZR m) * node n j)%R with (IZR m' * node n j + - IZR m * node n j)%R by ring.
      rewrite cis_plus. ring. }
  rewrite Csum_swap, <- Csum_mult_l. apply Csum_ext. intros m'.
  rewrite Csum_mult_l, roots_sum by auto.
  destruct (_ =? 0)%Z; [|ring]. rewrite RtoC_inv by auto. field. intros E. apply NZ. apply RtoC_inj; auto.
Qed.

Lemma herm_part_hermitian M v m : hermitian M v -> (Z.abs m <= Z.of_nat M)%Z -> herm_part M v m = coef M v m.
Proof.
  intros H L. unfold herm_part. rewrite H, Cconj_conj by auto. apply Chalf.
Qed.

Lemma no_alias M v n m : (2 * M < n)%nat -> hermitian M v -> (Z.abs m <= Z.of_nat M)%Z ->
  dft (sampled n (fun x => Re (series M v x))) m = coef M v m.
Proof.
  intros L H I. rewrite dft_sampled by lia.
  rewrite (Csum_single_Z _ m).
  - rewrite Z.sub_diag, Z.mod_0_l by lia. simpl. apply herm_part_hermitian; auto.
  - apply NoDup_zrange.
  - apply In_freqs; lia.
  - intros b J N. apply In_freqs in J. destruct (Z.eqb_spec ((b - m) mod Z.of_nat n) 0) as [E|]; auto.
    exfalso. apply Z.mod_divide in E; [|lia]. destruct E as [q E].
    assert (q = 0 \/ q <= -1 \/ 1 <= q)%Z as [->|[Q|Q]] by lia; nia.
Qed.
