(** Proofs: C15 (fDataContainer), C17, C19, C30, C63. *)
From Coq Require Import String List ZArith Reals Lra Lia Sorted Permutation Bool.
From Coquelicot Require Import Complex.
From Verif Require Import PyBase RMod DataModel SpecData DataProofs DataProofs2 DataProofs3 CBase FDataModel SpecFData FDataProofs.
Import ListNotations.
Open Scope R_scope.

Lemma NoDup_map_in {A B} (f : A -> B) l :
  (forall a b, In a l -> In b l -> f a = f b -> a = b) -> NoDup l -> NoDup (map f l).
Proof.
  induction l as [|a l IH]; intros H N; simpl; constructor; inversion N; subst.
  - intros I. apply in_map_iff in I as [b [E I]]. assert (b = a) by (apply H; simpl; auto). subst; auto.
  - apply IH; auto. intros x y I J; apply H; right; auto.
Qed.
Lemma Forall2_In_l {A B} (P : A -> B -> Prop) l1 l2 a : Forall2 P l1 l2 -> In a l1 -> exists b, In b l2 /\ P a b.
Proof.
  induction 1; simpl; [tauto|]. intros [->|I]; eauto. destruct (IHForall2 I) as (b & ? & ?); eauto.
Qed.

Lemma Forall2_length {A B} (P : A -> B -> Prop) l1 l2 : Forall2 P l1 l2 -> length l1 = length l2.
Proof. induction 1; simpl; auto. Qed.

Lemma construct_wf it u n d : construct it u n = Ok d -> wf_dict (dc_data d).
Proof.
  intros C. apply construct_Ok in C as (_ & Ci & d2 & E & _ & ->). simpl. apply wf_dmap.
  destruct n; [eapply wf_coerce; eauto|]. injection E as <-. apply wf_before; auto.
Qed.
Lemma reachable_wf d : reachable d -> wf_dict (dc_data d).
Proof.
  intros (it & u & n & d0 & h & C & ->). unfold wf_dict. change (NoDup (get_keys (run d0 h))).
  rewrite run_keys. apply (construct_wf _ _ _ _ C).
Qed.
Lemma reachable_normal d : reachable d -> normal_dat d.
Proof. intros (it & u & n & d0 & h & C & ->). apply run_normal. eapply construct_normal_dat; eauto. Qed.

(* ------------------------------------------------------------------ *)
(** * C17 *)

Lemma sorted_R_perm (l1 : list R) : forall l2, NoDup l1 -> Permutation l1 l2 ->
  StronglySorted Rle l1 -> StronglySorted Rle l2 -> l1 = l2.
Proof.
  intros l2 N P S1 S2.
  assert (H : forall l, map fst (map (fun x : R => (x, 0)) l) = l) by (intros; rewrite map_map; apply map_id).
  rewrite <- (H l1), <- (H l2). f_equal. 
  assert (K : forall l, StronglySorted Rle l -> StronglySorted le_x (map (fun x : R => (x, 0)) l)).
  { induction 1; simpl; constructor; auto. apply Forall_forall. intros q I. apply in_map_iff in I as [z [<- I]].
    rewrite Forall_forall in H1. unfold le_x; simpl; auto. }
  apply sorted_perm_eq; auto; [rewrite H; auto|apply Permutation_map; auto].
Qed.

Lemma le_of_lt_sorted l : StronglySorted Rlt l -> StronglySorted Rle l.
Proof. induction 1; constructor; auto. eapply Forall_impl; [|eauto]. intros; lra. Qed.

Lemma rotate_node n j k : (0 < n)%nat ->
  mod2pi (node n j + 2 * PI * IZR k / INR n) = node n (Z.to_nat ((Z.of_nat j + k) mod Z.of_nat n)).
Proof.
  intros P. assert (NZ : INR n <> 0) by (apply not_0_INR; lia).
  pose proof (Z.mod_pos_bound (Z.of_nat j + k) (Z.of_nat n) ltac:(lia)) as B.
  apply mod2pi_unique with (k := ((Z.of_nat j + k) / Z.of_nat n)%Z).
  - apply node_turn. lia.
  - pose proof (Z.div_mod (Z.of_nat j + k) (Z.of_nat n) ltac:(lia)) as E.
    unfold node, twopi. rewrite (INR_IZR_INZ (Z.to_nat _)), Z2Nat.id by lia.
    assert (E' : IZR (Z.of_nat j + k) = IZR (Z.of_nat n) * IZR ((Z.of_nat j + k) / Z.of_nat n) + IZR ((Z.of_nat j + k) mod Z.of_nat n))
      by (rewrite <- mult_IZR, <- plus_IZR, <- E; auto).
    rewrite plus_IZR, <- !INR_IZR_INZ in E'.
    transitivity (2 * PI * (INR j + IZR k) / INR n); [field; auto|]. rewrite E'. field; auto.
Qed.

Lemma rotate_grid n k : (0 < n)%nat ->
  Permutation (map (fun x => mod2pi (x + 2 * PI * IZR k / INR n)) (grid n)) (grid n).
Proof.
  intros P. apply NoDup_Permutation_bis.
  - unfold grid. rewrite map_map.
    apply NoDup_map_in; [|apply seq_NoDup].
    intros i j I J. rewrite !rotate_node by auto. intros E. apply in_seq in I, J.
    set (a := ((Z.of_nat i + k) mod Z.of_nat n)%Z) in *. set (b := ((Z.of_nat j + k) mod Z.of_nat n)%Z) in *.
    pose proof (Z.mod_pos_bound (Z.of_nat i + k) (Z.of_nat n) ltac:(lia)) as A.
    pose proof (Z.mod_pos_bound (Z.of_nat j + k) (Z.of_nat n) ltac:(lia)) as B. fold a in A. fold b in B.
    assert (a = b).
    { destruct (lt_eq_lt_dec (Z.to_nat a) (Z.to_nat b)) as [[L|L]|L]; [|lia|].
      - pose proof (node_lt n _ _ P L). lra.
      - pose proof (node_lt n _ _ P L). lra. }
    unfold a, b in H.
    assert (D : ((Z.of_nat i + k - (Z.of_nat j + k)) mod Z.of_nat n = 0)%Z) by (rewrite Zminus_mod, H, Z.sub_diag; apply Z.mod_0_l; lia).
    apply Z.mod_divide in D; [|lia]. destruct D as [q D]. assert (q = 0 \/ q <= -1 \/ 1 <= q)%Z as [->|[|]] by lia; nia.
  - now rewrite map_length.
  - intros x I. apply in_map_iff in I as [y [<- I]]. apply in_map_iff in I as [j [<- I]].
    rewrite rotate_node by auto. apply in_map. apply in_seq.
    pose proof (Z.mod_pos_bound (Z.of_nat j + k) (Z.of_nat n) ltac:(lia)). lia.
Qed.

Lemma shift_grid p k : let a := 2 * PI * IZR k / INR (length p) in
  (0 < length p)%nat -> map fst p = grid (length p) ->
  map fst (shift_pts a p) = grid (length p) /\ length (shift_pts a p) = length p /\
  forall m, dft (shift_pts a p) m = Cmult (dft p m) (cis (IZR m * - a)).
Proof.
  intros a P G.
  assert (PE : Permutation (map (turn_by a) p) (shift_pts a p)) by apply isort_perm.
  assert (L : length (shift_pts a p) = length p) by (unfold shift_pts; rewrite isort_length, map_length; auto).
  split; [|split; auto].
  - symmetry. apply sorted_R_perm.
    + apply grid_NoDup.
    + apply Permutation_sym. eapply perm_trans; [apply Permutation_map, Permutation_sym, PE|].
      rewrite map_map. unfold turn_by; simpl. rewrite <- (map_map fst (fun x => mod2pi (x + a))), G.
      apply rotate_grid; auto.
    + apply le_of_lt_sorted, grid_sorted.
    + assert (S := isort_sorted (map (turn_by a) p)). fold (shift_pts a p) in S.
      clear - S. induction S; simpl; constructor; auto. apply Forall_forall. intros x I.
      apply in_map_iff in I as [q [<- I]]. rewrite Forall_forall in H. apply (H _ I).
  - intros m. unfold dft. rewrite L, <- Cmult_assoc. f_equal.
    rewrite <- (Csum_perm _ _ _ PE), Csum_map, <- Csum_mult_r. apply Csum_ext. intros [x y]. unfold turn_by; simpl.
    rewrite <- opp_IZR, cis_mod2pi. rewrite <- Cmult_assoc, <- cis_plus. do 2 f_equal. rewrite opp_IZR. ring.
Qed.

Lemma transform_shifted interp d n k M (a := 2 * PI * IZR k / INR n) np :
  exact_at_nodes interp -> accepts interp n -> (2 <= n)%nat -> wf_dict (dc_data d) ->
  (forall k p, In (k, p) (dc_data d) -> length p = n /\ map fst p = grid n) ->
  exists f f', dat_to_fdat interp d M = Ok f /\
    dat_to_fdat interp (fst (phase_shift_data d a "radians")) M = Ok f' /\
    snd (phase_shift_fdata f (- a) np "radians") = Ok tt /\
    fd_data f' = fd_data (fst (phase_shift_fdata f (- a) np "radians")).
Proof.
  intros X Ac L W H. eexists _, _. split; [|split].
  - apply dat_to_fdat_spec; auto. intros k0 p I. destruct (H k0 p I) as [E G]. rewrite E.
    split; auto. split; auto. apply Ac; auto. rewrite G. apply grid_NoDup.
  - rewrite phase_shift_radians. simpl fst. apply dat_to_fdat_spec; simpl; auto.
    + apply wf_dmap; auto.
    + intros k0 p I. apply In_dmap in I as (p0 & I & ->). destruct (H k0 p0 I) as [E G].
      destruct (shift_grid p0 k) as (A & B & _); [lia|rewrite E; auto|]. rewrite E in A, B.
      change (2 * PI * IZR k / INR n) with a in A, B. rewrite B, A. split; auto. split; auto.
      apply Ac; auto. rewrite A. apply grid_NoDup.
  - simpl. split; [reflexivity|]. unfold phase_shift_fdata; simpl. rewrite !dmap_dmap. apply dmap_ext.
    intros k0 p I. destruct (H k0 p I) as [E G].
    destruct (shift_grid p k) as (A & B & D); [lia|rewrite E; auto|]. rewrite E in D.
    change (2 * PI * IZR k / INR n) with a in D.
    rewrite shift_row_map by (rewrite map_length, length_freqs; auto).
    apply map_ext_in. intros m J. rewrite D, coef_map_freqs; auto. apply In_freqs in J. lia.
Qed.

(** An interpolator that satisfies the requirements: a table. *)
Definition table_interp (p : list (R * R)) : res (R -> R) :=
  Ok (fun x => match find (fun q => Reqb (fst q) x) p with Some q => snd q | None => 0 end).
Lemma table_exact : exact_at_nodes table_interp.
Proof.
  intros p g x y N E I. injection E as <-. induction p as [|[x0 y0] p IH]; [destruct I|]. simpl.
  inversion N; subst. destruct I as [E|I].
  - injection E as -> ->. rewrite (proj2 (Reqb_true x x)); auto.
  - rewrite (proj2 (Reqb_false x0 x)); auto. intros ->. apply H1. apply in_map_iff. exists (x, y); auto.
Qed.
Lemma table_accepts n : accepts table_interp n.
Proof. intros p _ _. eexists; reflexivity. Qed.

(* ------------------------------------------------------------------ *)
(** * C19: two data sets with the same samples *)

Definition sin_coef (k m : Z) : C :=
  Cplus (if (m =? k)%Z then (0, - (1/2)) else RtoC 0) (if (m =? - k)%Z then (0, 1/2) else RtoC 0).
Definition sin_row (M : nat) (k1 k2 : Z) : list C :=
  map (fun m => Cplus (sin_coef k1 m) (sin_coef k2 m)) (freqs M).

Lemma sin_coef_opp k m : sin_coef k (- m) = Cconj (sin_coef k m).
Proof.
  unfold sin_coef. destruct (Z.eqb_spec (- m) k), (Z.eqb_spec (- m) (- k)), (Z.eqb_spec m k), (Z.eqb_spec m (- k));
    try lia; apply C_ext; simpl; lra.
Qed.
Lemma sin_row_hermitian M k1 k2 : hermitian M (sin_row M k1 k2).
Proof.
  intros m L. unfold sin_row. rewrite !coef_map_freqs by lia. rewrite Cconj_plus, !sin_coef_opp. reflexivity.
Qed.

Lemma sum_delta M k (c : C) (g : Z -> C) : (Z.abs k <= Z.of_nat M)%Z ->
  Csum (fun m => Cmult (if (m =? k)%Z then c else RtoC 0) (g m)) (freqs M) = Cmult c (g k).
Proof.
  intros L. rewrite (Csum_single_Z _ k).
  - now rewrite Z.eqb_refl.
  - apply NoDup_zrange.
  - apply In_freqs; lia.
  - intros b _ N. destruct (Z.eqb_spec b k); [contradiction|]. ring.
Qed.

Lemma sin_series M k x : (Z.abs k <= Z.of_nat M)%Z ->
  Csum (fun m => Cmult (sin_coef k m) (cis (IZR m * x))) (freqs M) = RtoC (sin (IZR k * x)).
Proof.
  intros L. unfold sin_coef.
  rewrite (Csum_ext _ (fun m => Cplus (Cmult (if (m =? k)%Z then (0, - (1/2)) else RtoC 0) (cis (IZR m * x)))
    (Cmult (if (m =? - k)%Z then (0, 1/2) else RtoC 0) (cis (IZR m * x))))) by (intros; ring).
  rewrite Csum_plus, !(sum_delta M _ _ (fun m => cis (IZR m * x))) by lia. rewrite opp_IZR, Ropp_mult_distr_l_reverse.
  unfold cis. rewrite cos_neg, sin_neg. apply C_ext; simpl; field.
Qed.

Lemma sin_row_series M k1 k2 x : (Z.abs k1 <= Z.of_nat M)%Z -> (Z.abs k2 <= Z.of_nat M)%Z ->
  Re (series M (sin_row M k1 k2) x) = sin (IZR k1 * x) + sin (IZR k2 * x).
Proof.
  intros L1 L2. unfold series.
  rewrite (Csum_ext_in _ (fun m => Cplus (Cmult (sin_coef k1 m) (cis (IZR m * x))) (Cmult (sin_coef k2 m) (cis (IZR m * x))))).
  - rewrite Csum_plus, !sin_series by auto. reflexivity.
  - intros m I. apply In_freqs in I. unfold sin_row. rewrite coef_map_freqs by lia. ring.
Qed.

Lemma alias_sin n k j : (0 < n)%nat ->
  sin (IZR k * node n j) + sin (IZR (Z.of_nat n - k) * node n j) = 0.
Proof.
  intros P. assert (NZ : INR n <> 0) by (apply not_0_INR; lia).
  replace (IZR (Z.of_nat n - k) * node n j) with (- (IZR k * node n j) + IZR (Z.of_nat j) * (2 * PI)).
  - rewrite sin_period_Z, sin_neg. lra.
  - rewrite minus_IZR. unfold node. rewrite <- !INR_IZR_INZ. field; auto.
Qed.

Lemma zero_row_series M x : series M (map (fun _ => RtoC 0) (freqs M)) x = RtoC 0.
Proof.
  unfold series. apply Csum_0_in. intros m I. apply In_freqs in I. rewrite coef_map_freqs by lia. ring.
Qed.

Lemma indistinguishable M n : (0 < n)%nat -> (n <= 2 * M)%nat -> exists v w,
  length v = (2 * M + 1)%nat /\ length w = (2 * M + 1)%nat /\ hermitian M v /\ hermitian M w /\ v <> w /\
  sampled n (fun x => Re (series M v x)) = sampled n (fun x => Re (series M w x)).
Proof.
  intros P L. exists (sin_row M (Z.of_nat M) (Z.of_nat n - Z.of_nat M)), (map (fun _ => RtoC 0) (freqs M)).
  split; [unfold sin_row; rewrite map_length, length_freqs; auto|].
  split; [rewrite map_length, length_freqs; auto|].
  split; [apply sin_row_hermitian|]. split.
  { intros m I. rewrite !coef_map_freqs by lia. apply C_ext; simpl; ring. }
  split.
  - intros E. apply (f_equal (fun v => coef M v (Z.of_nat M))) in E. unfold sin_row in E.
    rewrite !coef_map_freqs in E by lia. unfold sin_coef in E. rewrite Z.eqb_refl in E.
    destruct (Z.eqb_spec (Z.of_nat M) (- Z.of_nat M)); [lia|].
    destruct (Z.eqb_spec (Z.of_nat M) (- (Z.of_nat n - Z.of_nat M))); [lia|].
    destruct (Z.eqb_spec (Z.of_nat M) (Z.of_nat n - Z.of_nat M)); injection E; intros; lra.
  - unfold sampled. apply map_ext_in. intros x I. f_equal. apply in_map_iff in I as [j [<- _]].
    rewrite sin_row_series by lia. rewrite alias_sin by auto. rewrite zero_row_series. reflexivity.
Qed.

(* ------------------------------------------------------------------ *)
(** * C15: the copy of a Fourier data container *)

Lemma fcopy_spec f : fwf f -> fcopy f = Ok (mkfdat (fd_data f) (fd_scale f) (PTup (fd_phase f)) (fd_M f)).
Proof. intros W. unfold fcopy. rewrite fconstruct_items by exact W. reflexivity. Qed.

(** Two containers that differ at most in the recorded phase shift. *)
Definition same_but_phase (f g : fdat) : Prop :=
  fd_data f = fd_data g /\ fd_scale f = fd_scale g /\ fd_M f = fd_M g.
Lemma fstep_same f g o : same_but_phase f g -> same_but_phase (fst (fstep f o)) (fst (fstep g o)).
Proof.
  intros (D & S & M). destruct o as [s|x|a n u]; simpl.
  - unfold scale_fdata. destruct (Rltb s 0); simpl; unfold same_but_phase; simpl; rewrite ?D, ?S, ?M; auto.
  - unfold normalize_fdata, fget_maxval. rewrite <- D.
    destruct (fmaxval_loop (fd_data f) None) as [[[k m]|]|e]; simpl.
    + destruct (Reqb m 0); [destruct (Rltb x 0); simpl; repeat split; auto|].
      unfold scale_fdata. destruct (Rltb _ 0); simpl; unfold same_but_phase; simpl; rewrite ?D, ?S, ?M; auto.
    + unfold scale_fdata. destruct (Rltb _ 0); simpl; unfold same_but_phase; simpl; rewrite ?D, ?S, ?M; auto.
    + repeat split; auto.
  - unfold phase_shift_fdata. destruct (check_angle_units (lower u)); simpl; [|repeat split; auto].
    destruct (phase_add (fd_phase f) _ _), (phase_add (fd_phase g) _ _); simpl; unfold same_but_phase; simpl; rewrite ?D, ?S, ?M; auto.
Qed.
Lemma frun_same h : forall f g, same_but_phase f g -> same_but_phase (frun f h) (frun g h).
Proof. induction h; simpl; intros; auto. apply IHh, fstep_same; auto. Qed.

(* ------------------------------------------------------------------ *)
(** * C30 *)

Lemma isclose_spec a b : isclose a b = true <-> close a b.
Proof. unfold isclose, close. destruct (Rle_dec _ _); split; auto; discriminate. Qed.

Lemma stretch_same n p : length p = n -> stretch n p = p.
Proof. intros <-. destruct p as [|q [|r p]]; reflexivity. Qed.
Lemma stretch_length n p : length (stretch n p) = n -> (length p = n \/ length p = 1%nat).
Proof. destruct p as [|q [|r p]]; simpl; auto. Qed.

Lemma map2_repeat {A B} (f : A -> B -> R) (a : list A) y :
  map (fun p => f (fst p) (snd p)) (combine a (repeat y (length a))) = map (fun x => f x y) a.
Proof. induction a; simpl; congruence. Qed.

(** broadcasting a column of [p1] with one of [p2] *)
Lemma bcast_stretch {f : R -> R -> R} (h : R * R -> R) p1 p2 :
  length (stretch (length p1) p2) = length p1 ->
  bcast f (map h p1) (map h p2) = Ok (map (fun ab => f (h (fst ab)) (h (snd ab))) (combine p1 (stretch (length p1) p2))).
Proof.
  intros L. unfold bcast. rewrite !map_length. destruct (Nat.eqb_spec (length p1) (length p2)) as [E|N].
  - rewrite stretch_same by auto. f_equal. clear L. revert p2 E. induction p1 as [|q p1 IH]; intros [|r p2] E; simpl in *; auto; try lia.
    f_equal. apply IH. lia.
  - apply stretch_length in L as [L|L]; [congruence|]. destruct p2 as [|r [|]]; try discriminate. simpl.
    assert (E : map (fun x => f x (h r)) (map h p1) =
                map (fun ab => f (h (fst ab)) (h (snd ab))) (combine p1 (repeat r (length p1)))).
    { clear. induction p1; simpl; congruence. }
    destruct (map h p1) as [|a [|b l]] eqn:Eq; rewrite E; reflexivity.
Qed.

Lemma bcast_length f (a b c : list R) : bcast f a b = Ok c -> length c = length a ->
  length b = length a \/ length b = 1%nat.
Proof.
  unfold bcast. destruct (Nat.eqb_spec (length a) (length b)) as [E|N]; auto.
  destruct b as [|y [|z b]]; auto.
  - destruct a as [|x [|w a]]; try discriminate. intros E; injection E as <-. discriminate.
  - destruct a as [|x [|w a]]; try discriminate. intros E; injection E as <-. simpl. rewrite map_length. intros; lia.
Qed.

Lemma Forall2_combine {A B} (P : A -> B -> Prop) a : forall b, length a = length b ->
  (Forall2 P a b <-> forall p, In p (combine a b) -> P (fst p) (snd p)).
Proof.
  induction a as [|x a IH]; intros [|y b] L; simpl in L; try lia.
  - split; [simpl; tauto|constructor].
  - split.
    + intros F p I. inversion F; subst. destruct I as [<-|I]; auto. apply (IH b); auto.
    + intros H. constructor; [apply (H (x, y)); left; auto|]. apply IH; [lia|]. intros p I; apply H; right; auto.
Qed.

Lemma combine_pc_spec op d1 d2 k p1 p2 :
  get_pc d1 k "radians" = Ok p1 -> get_pc d2 k "radians" = Ok p2 ->
  combine_pc op d1 d2 k = Ok (k, pointwise op p1 p2) /\ compatible p1 p2 \/
  combine_pc op d1 d2 k = Raise ValueError /\ ~ compatible p1 p2.
Proof.
  intros E1 E2. unfold combine_pc. rewrite E1, E2. cbn [bind].
  destruct (Nat.eq_dec (length (stretch (length p1) p2)) (length p1)) as [L|L].
  - rewrite (bcast_stretch fst) by auto. cbn [bind].
    destruct (existsb _ _) eqn:X.
    + right. split; auto. intros C. unfold compatible in C. rewrite (Forall2_combine _ p1 _ (eq_sym L)) in C.
      apply existsb_exists in X as [z [I Z]]. apply in_map_iff in I as [ab [<- I]].
      apply C, isclose_spec in I. rewrite I in Z. apply Reqb_true in Z. lra.
    + left. rewrite (bcast_stretch snd) by auto. cbn [bind]. rewrite map_length, combine_length, L, Nat.min_id, Nat.eqb_refl.
      split.
      * do 2 f_equal. unfold pointwise. clear -L. revert L. generalize (stretch (length p1) p2) as q.
        induction p1 as [|a p1 IH]; intros [|b q] L; simpl in *; auto; try lia. f_equal. apply IH. lia.
      * unfold compatible. rewrite (Forall2_combine _ p1 _ (eq_sym L)). intros ab I. apply isclose_spec.
        destruct (isclose (fst (fst ab)) (fst (snd ab))) eqn:Q; auto. exfalso.
        assert (existsb (fun x => Reqb x 0) (map (fun ab : R * R * (R * R) => if isclose (fst (fst ab)) (fst (snd ab)) then 1 else 0) (combine p1 (stretch (length p1) p2))) = true).
        { apply existsb_exists. exists 0. split; [|apply Reqb_true; auto]. apply in_map_iff. exists ab. rewrite Q. auto. }
        congruence.
  - right. split.
    2:{ intros C. apply Forall2_length in C. congruence. }
    assert (N : ~ (length p2 = length p1 \/ length p2 = 1%nat)).
    { intros [E|E]; apply L; [rewrite stretch_same; auto|]. destruct p2 as [|q [|]]; try discriminate. simpl. apply repeat_length. }
    assert (H : forall f h, (exists c, bcast f (map h p1) (map h p2) = Ok c /\ length c <> length p1) \/
                            bcast f (map h p1) (map h p2) = Raise ValueError).
    { intros f h. destruct (bcast f (map h p1) (map h p2)) as [c|e] eqn:B.
      - left. exists c. split; auto. intros E. apply N.
        assert (B' := bcast_length _ _ _ _ B). rewrite !map_length in B'. destruct (B' E); auto.
      - right. unfold bcast in B. destruct (Nat.eqb _ _); [discriminate|].
        destruct (map h p1) as [|? [|]], (map h p2) as [|? [|]]; try discriminate; congruence. }
    destruct (H (fun a b => if isclose a b then 1 else 0) fst) as [[c [-> _]]| ->]; cbn [bind]; auto.
    destruct (existsb _ c); auto.
    destruct (H op snd) as [[c' [-> L']]| ->]; cbn [bind]; auto.
    destruct (Nat.eqb_spec (length c') (length p1)); auto. contradiction.
Qed.

(** strictly increasing angles from normal form and distinctness *)
Lemma strict_of_distinct p : normal_form p -> distinct_angles p -> StronglySorted (fun a b => fst a < fst b) p.
Proof.
  intros (_ & T & S) D. revert T S. induction D as [|q p F D IH]; simpl; intros T S; constructor.
  - inversion T; inversion S; subst; auto.
  - inversion T; inversion S; subst. apply Forall_forall. intros r I.
    rewrite Forall_forall in F, H2, H6. 
    assert (J : In (fst r) (map fst p)) by (apply in_map; auto).
    specialize (F _ I). specialize (H6 _ J). destruct (Req_dec (fst q) (fst r)) as [E|]; [|lra].
    exfalso. apply F. rewrite E. apply same_angle_refl.
Qed.

Lemma pointwise_fst op p1 p2 : length (stretch (length p1) p2) = length p1 -> map fst (pointwise op p1 p2) = map fst p1.
Proof.
  unfold pointwise. generalize (stretch (length p1) p2) as q. induction p1 as [|a p1 IH]; intros [|b q] L; simpl in *; auto; try lia.
  f_equal. apply IH. lia.
Qed.

Lemma SS_by_fst (p q : list (R * R)) : map fst p = map fst q ->
  StronglySorted (fun a b => fst a < fst b) p -> StronglySorted (fun a b => fst a < fst b) q.
Proof.
  intros E S. revert q E. induction S as [|a p S IH F]; intros [|b q] E; simpl in E; try discriminate; constructor.
  - apply IH. injection E; auto.
  - injection E as E0 E. apply Forall_forall. intros r I. rewrite <- E0.
    assert (J : In (fst r) (map fst p)) by (rewrite E; apply in_map; auto).
    apply in_map_iff in J as [s [Es J]]. rewrite <- Es. rewrite Forall_forall in F. apply F; auto.
Qed.

Lemma finish_pointwise op p1 p2 : normal_form p1 -> distinct_angles p1 -> compatible p1 p2 ->
  finish (DFloat, pointwise op p1 p2) = pointwise op p1 p2 /\ pointwise op p1 p2 <> [].
Proof.
  intros N D C. assert (L : length (stretch (length p1) p2) = length p1) by (symmetry; apply (Forall2_length _ _ _ C)).
  pose proof (pointwise_fst op p1 p2 L) as E. split.
  - apply finish_id; [rewrite E; apply N|]. apply (SS_by_fst p1); auto. apply strict_of_distinct; auto.
  - intros Z. rewrite Z in E. simpl in E. destruct N as [N _]. destruct p1; [contradiction|discriminate].
Qed.

Lemma get_pc_In d k p : wf_dict (dc_data d) -> (get_pc d k "radians" = Ok p <-> In (k, p) (dc_data d)).
Proof.
  intros W. unfold get_pc, view, dgetr; simpl. split.
  - destruct (dget k (dc_data d)) eqn:E; [|discriminate]. intros H; injection H as <-. apply dget_In; auto.
  - intros I. rewrite (In_dget _ _ _ W I). reflexivity.
Qed.
Lemma get_pc_key d k : In k (get_keys d) <-> is_ok (get_pc d k "radians").
Proof.
  unfold get_pc, view, dgetr, get_keys; simpl. rewrite <- dget_keys. split.
  - intros N. destruct (dget k (dc_data d)); [eexists; reflexivity|contradiction].
  - intros [p E]. destruct (dget k (dc_data d)); [discriminate|discriminate].
Qed.
Lemma is_ok_dec {A} (r : res A) : {a | r = Ok a} + {e | r = Raise e}.
Proof. destruct r; [left|right]; eauto. Qed.

(** the dictionary of results *)
Definition arith_data (op : R -> R -> R) (d1 d2 : dat) : dict string (list (R * R)) :=
  map (fun kv => (fst kv, pointwise op (snd kv) (match dget (fst kv) (dc_data d2) with Some p => p | None => [] end))) (dc_data d1).

Lemma dat_arith_ok op d1 d2 : wf_dict (dc_data d1) -> normal_dat d1 -> all_distinct d1 -> can_combine d1 d2 ->
  dat_arith op d1 d2 = Ok (mkdat (arith_data op d1 d2) 1 0 0 "radians" false).
Proof.
  intros W N D (NE & K & V & Co). unfold dat_arith.
  replace (set_eqb (get_keys d1) (get_keys d2)) with true by (symmetry; apply set_eqb_spec; auto).
  simpl negb. cbv iota. unfold get_values in *. unfold view in *. simpl in *. 
  unfold get_keys in NE.
  destruct (dc_data d1) as [|[k1 p1] r1] eqn:E1; [contradiction|].
  destruct (dc_data d2) as [|[k2 p2] r2] eqn:E2.
  { exfalso. pose proof (proj1 (K k1)) as Z. unfold get_keys in Z. rewrite E1, E2 in Z. apply Z; left; auto. }
  simpl. rewrite (V p1 p2 (dvals r1) (dvals r2)) by reflexivity. rewrite Nat.eqb_refl. simpl negb. cbv iota.
  rewrite <- E1 in *. clear E1 k1 p1 r1. rewrite <- E2 in *. clear E2 k2 p2 r2.
  assert (G : mapM (combine_pc op d1 d2) (get_keys d1) = Ok (arith_data op d1 d2)).
  { unfold get_keys, arith_data, dkeys.
    assert (G : forall l, incl l (dc_data d1) -> mapM (combine_pc op d1 d2) (map fst l) =
      Ok (map (fun kv => (fst kv, pointwise op (snd kv) (match dget (fst kv) (dc_data d2) with Some p => p | None => [] end))) l)).
    { induction l as [|[k p] l IH]; intros I; [reflexivity|]. cbn [map fst mapM].
      assert (J : In (k, p) (dc_data d1)) by (apply I; left; auto).
      apply (get_pc_In d1 k p W) in J.
      assert (Kk : In k (get_keys d2)) by (apply K; apply get_pc_key; eexists; eauto).
      apply get_pc_key in Kk as [q Q].
      destruct (combine_pc_spec op d1 d2 k p q J Q) as [[-> _]|[_ X]]; [|exfalso; apply X; eauto].
      cbn [bind]. rewrite IH by (intros z Z; apply I; right; auto). cbn [bind snd].
      unfold get_pc, view, dgetr in Q. simpl in Q. destruct (dget k (dc_data d2)); [|discriminate]. injection Q as ->. reflexivity. }
    apply G, incl_refl. }
  rewrite G. cbn [bind]. change (map _ (arith_data op d1 d2)) with (input DFloat (arith_data op d1 d2)).
  assert (FP : forall k p, In (k, p) (arith_data op d1 d2) -> finish (DFloat, p) = p /\ p <> []).
  { intros k p I. unfold arith_data in I. apply in_map_iff in I as [[k' p'] [E I]]. simpl in E. injection E as -> <-.
    unfold normal_dat in N. rewrite Forall_forall in N. pose proof (N _ I) as Np. simpl in Np.
    apply (get_pc_In d1 k p' W) in I.
    assert (Kk : In k (get_keys d2)) by (apply K; apply get_pc_key; eexists; eauto).
    apply get_pc_key in Kk as [q Q]. pose proof (Co _ _ _ I Q).
    unfold get_pc, view, dgetr in Q. simpl in Q. destruct (dget k (dc_data d2)); [|discriminate]. injection Q as ->.
    apply finish_pointwise; auto. apply (D k); auto. }
  rewrite construct_input.
  - do 2 f_equal. apply dmap_id. intros k p I. apply (FP k p I).
  - unfold wf_dict, dkeys, arith_data. rewrite map_map. exact W.
  - apply Forall_forall. intros [k p] I. apply (FP k p I).
Qed.

Lemma mapM_raise_or {A B} (f : A -> res B) l e : (forall a, In a l -> is_ok (f a) \/ f a = Raise e) ->
  is_ok (mapM f l) \/ mapM f l = Raise e.
Proof.
  induction l as [|a l IH]; simpl; intros H; [left; eexists; reflexivity|].
  destruct (H a (or_introl eq_refl)) as [[b ->]| ->]; simpl; auto.
  destruct IH as [[bs ->]| ->]; simpl; auto. left; eexists; reflexivity.
Qed.

(** If it succeeds, the containers could be combined; otherwise ValueError, or
    IndexError without polarizations. *)
Lemma dat_arith_conv op d1 d2 : wf_dict (dc_data d1) -> wf_dict (dc_data d2) ->
  (is_ok (dat_arith op d1 d2) -> can_combine d1 d2) /\
  (~ is_ok (dat_arith op d1 d2) -> dat_arith op d1 d2 = Raise ValueError \/
     get_keys d1 = [] /\ dat_arith op d1 d2 = Raise IndexError).
Proof.
  intros W1 W2. unfold dat_arith.
  destruct (set_eqb (get_keys d1) (get_keys d2)) eqn:S; simpl negb; cbv iota.
  2:{ split; [intros [x X]; discriminate|auto]. }
  rewrite set_eqb_spec in S.
  unfold get_values, view; simpl.
  destruct (dc_data d1) as [|[k1 p1] r1] eqn:E1.
  { simpl. split; [intros [x X]; discriminate|]. intros _. right. unfold get_keys. rewrite E1; auto. }
  destruct (dc_data d2) as [|[k2 p2] r2] eqn:E2.
  { exfalso. pose proof (proj1 (S k1)) as Z. unfold get_keys in Z. rewrite E1, E2 in Z. apply Z; left; auto. }
  simpl. destruct (Nat.eqb_spec (length p1) (length p2)) as [L|L]; simpl negb; cbv iota.
  2:{ split; [intros [x X]; discriminate|auto]. }
  assert (V : forall q1 q2 s1 s2, get_values d1 "radians" = Ok (q1 :: s1) -> get_values d2 "radians" = Ok (q2 :: s2) -> length q1 = length q2).
  { intros q1 q2 s1 s2 A B. unfold get_values, view in A, B; simpl in A, B. rewrite E1 in A. rewrite E2 in B. simpl in A, B. congruence. }
  assert (NE : get_keys d1 <> []) by (unfold get_keys; rewrite E1; discriminate).
  rewrite <- E1 in W1. rewrite <- E2 in W2. clear E1 E2.
  assert (CP : forall k, In k (get_keys d1) -> exists q1 q2, get_pc d1 k "radians" = Ok q1 /\ get_pc d2 k "radians" = Ok q2 /\
     (combine_pc op d1 d2 k = Ok (k, pointwise op q1 q2) /\ compatible q1 q2 \/ combine_pc op d1 d2 k = Raise ValueError /\ ~ compatible q1 q2)).
  { intros k I. pose proof (proj1 (get_pc_key d1 k) I) as [q1 Q1]. pose proof (proj1 (get_pc_key d2 k) (proj1 (S k) I)) as [q2 Q2].
    exists q1, q2. split; auto. split; auto. apply combine_pc_spec; auto. }
  destruct (mapM_raise_or (combine_pc op d1 d2) (get_keys d1) ValueError) as [[l E]|E].
  { intros k I. destruct (CP k I) as (q1 & q2 & _ & _ & [[-> _]|[-> _]]); auto. left; eexists; reflexivity. }
  - rewrite E. cbn [bind]. split.
    + intros _. split; auto. split; auto. split; auto. intros k q1 q2 Q1 Q2.
      assert (I : In k (get_keys d1)) by (apply get_pc_key; eexists; eauto).
      apply mapM_Ok in E. destruct (Forall2_In_l _ _ _ _ E I) as [b [_ B]].
      destruct (CP k I) as (s1 & s2 & S1 & S2 & [[_ C]|[C _]]); [congruence|congruence].
    + intros N. left. destruct (construct_outcome_all (map (fun kv => (KStr (fst kv), NDArray 2 DFloat [map fst (snd kv); map snd (snd kv)])) l) "radians" false) as [[d Ed]|Ed]; auto.
      exfalso. apply N. eexists; eauto.
  - rewrite E. cbn [bind]. split; [intros [x X]; discriminate|auto].
Qed.
