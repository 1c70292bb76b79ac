(** Consequences for scaling, sums, subtraction of the minimum; filters. *)
From Coq Require Import String List Arith ZArith Reals Lra Lia Bool Permutation.
From Coquelicot Require Import Complex.
From Verif Require Import PyBase CBase RMod DataModel SpecData DataProofs DataProofs2 FDataModel SpecFData FDataProofs FDataProofs2 SpecLin LinProofs.
Import ListNotations.
Local Open Scope nat_scope.

Lemma lincomb_self a p : lincomb a 0 p p = map_y (fun y => (a * y)%R) p.
Proof.
  unfold lincomb, map_y. induction p as [|[x y] p IH]; [reflexivity|]. cbn [combine map fst snd]. rewrite IH. do 2 f_equal. ring.
Qed.
Lemma lincomb_const b c p : lincomb 1 b p (map_y (fun _ => c) p) = map_y (fun y => (y + b * c)%R) p.
Proof.
  unfold lincomb, map_y. induction p as [|[x y] p IH]; [reflexivity|]. cbn [combine map fst snd]. rewrite IH. do 2 f_equal. ring.
Qed.
Lemma map_y_fst f p : map fst (map_y f p) = map fst p.
Proof. unfold map_y. rewrite map_map. reflexivity. Qed.
Lemma lincomb_pointwise (op : R -> R -> R) b p q : (forall y z, op y z = y + b * z)%R -> map fst p = map fst q ->
  lincomb 1 b p q = pointwise op p q.
Proof.
  intros H E. assert (L : length p = length q) by (rewrite <- (map_length fst p), E, map_length; reflexivity).
  unfold pointwise. replace (stretch (length p) q) with q.
  - unfold lincomb. apply map_ext. intros [[x y] [x' z]]. cbn [fst snd]. rewrite H. f_equal. ring.
  - destruct q as [|q0 [|q1 q]]; try reflexivity. cbn [length] in L. rewrite L. reflexivity.
Qed.

Section Transform.
Variable interp : list (R * R) -> res (R -> R).
Hypothesis Li : linear_interp interp.

Lemma transform_scale d M f s : wf_dict (dc_data d) -> (0 <= s)%R -> dat_to_fdat interp d M = Ok f ->
  dat_to_fdat interp (fst (scale_data d s)) M = Ok (mkfdat (fget_items (fst (scale_fdata f s))) 1 (PNum 0) M).
Proof.
  intros W S H. apply transform_rows in H; [|exact W]. destruct H as (r & F & ->).
  unfold scale_data, scale_fdata, fget_items. rewrite (proj2 (Rltb_false s 0) S). cbn [fst fd_data].
  apply transform_rows. { cbn [dc_data]. unfold wf_dict. rewrite dkeys_dmap. exact W. }
  cbn [dc_data]. eexists; split; [|reflexivity]. clear W.
  induction F as [|[k p] [k' v] l r [E T] F IH]; [constructor|]. constructor; [|exact IH].
  cbn [fst snd] in *. split; [exact E|]. cbn [snd].
  rewrite <- lincomb_self. pose proof (transformed_lin interp M s 0 p p v v Li eq_refl T T) as X.
  replace (map (Cmult (RtoC s)) v) with (map (fun zw => Cplus (Cmult (RtoC s) (fst zw)) (Cmult (RtoC 0) (snd zw))) (combine v v)); [exact X|].
  clear. induction v as [|z v IH]; [reflexivity|]. cbn [combine map fst snd]. rewrite IH. f_equal. rewrite Cmult_0_l, Cplus_0_r. reflexivity.
Qed.

Definition op_rows (op : R -> R -> R) (v w : list C) : list C := map (fun zw => combined op (fst zw) (snd zw)) (combine v w).

Lemma transform_sum (op : R -> R -> R) b d1 d2 M f1 f2 : (forall y z, op y z = y + b * z)%R ->
  wf_dict (dc_data d1) -> wf_dict (dc_data d2) -> normal_dat d1 -> all_distinct d1 -> can_combine d1 d2 ->
  (forall k p1 p2, In (k, p1) (dc_data d1) -> In (k, p2) (dc_data d2) -> map fst p1 = map fst p2) ->
  dat_to_fdat interp d1 M = Ok f1 -> dat_to_fdat interp d2 M = Ok f2 ->
  exists d3 f3, dat_arith op d1 d2 = Ok d3 /\ dat_to_fdat interp d3 M = Ok f3 /\ fget_M f3 = M /\ fget_keys f3 = fget_keys f1 /\
    forall k v1 v2, fget_pc f1 k = Ok v1 -> fget_pc f2 k = Ok v2 -> fget_pc f3 k = Ok (op_rows op v1 v2).
Proof.
  intros Hop W1 W2 N D Cc An H1 H2. exists (mkdat (arith_data op d1 d2) 1 0 0 "radians" false).
  pose (rows := map (fun kv => (fst kv, op_rows op (snd kv) (match dget (fst kv) (fd_data f2) with Some w => w | None => [] end))) (fd_data f1)).
  exists (mkfdat rows 1 (PNum 0) M). split; [apply dat_arith_ok; auto|].
  apply transform_rows in H1; [|exact W1]. destruct H1 as (r1 & F1 & ->).
  apply transform_rows in H2; [|exact W2]. destruct H2 as (r2 & F2 & ->). cbn [fd_data] in rows.
  pose proof (rows_keys _ _ _ _ F1) as K1. pose proof (rows_keys _ _ _ _ F2) as K2.
  split; [|split; [reflexivity|split]].
  - apply transform_rows. { unfold wf_dict, dkeys, arith_data. cbn [dc_data]. rewrite map_map. cbn [fst]. exact W1. }
    cbn [dc_data]. eexists; split; [|reflexivity]. unfold arith_data, rows. destruct Cc as (_ & KK & _ & _).
    assert (Sub : forall kv, In kv (dc_data d1) -> In (fst kv) (dkeys (dc_data d2))).
    { intros kv I. apply KK. unfold get_keys, dkeys. apply in_map. exact I. }
    clear KK W1 K1 rows D N. induction F1 as [|[k p] [k' v] l r [E T] F IH]; [constructor|].
    cbn [map fst snd] in *. subst k'. constructor.
    + cbn [fst snd]. split; [reflexivity|]. cbn [snd].
      assert (I2 : exists q w, dget k (dc_data d2) = Some q /\ dget k r2 = Some w /\ In (k, q) (dc_data d2) /\ transformed interp M q w).
      { assert (I : In k (dkeys (dc_data d2))) by (apply (Sub (k, p)); left; reflexivity).
        unfold dkeys in I. apply in_map_iff in I. destruct I as ([k0 q] & E0 & I). cbn [fst] in E0. subst k0.
        destruct (Forall2_In_l _ _ _ _ F2 I) as ([k0 w] & Iw & E0 & Tw). cbn [fst snd] in *. subst k0.
        exists q, w. split; [apply In_dget; auto|]. split; [|split; [exact I|exact Tw]].
        apply In_dget; auto. unfold wf_dict, dkeys. rewrite <- K2. exact W2. }
      destruct I2 as (q & w & E1 & E2 & Iq & Tq). rewrite E1, E2.
      assert (A : map fst p = map fst q) by (apply (An k); [left; reflexivity|exact Iq]).
      rewrite <- (lincomb_pointwise op b p q Hop A).
      pose proof (transformed_lin interp M 1 b p q v w Li A T Tq) as X.
      replace (op_rows op v w) with (map (fun zw => Cplus (Cmult (RtoC 1) (fst zw)) (Cmult (RtoC b) (snd zw))) (combine v w)); [exact X|].
      apply map_ext. intros [z z']. unfold combined. cbn [fst snd]. apply C_ext; unfold Re, Im; cbn [fst snd]; rewrite Hop; simpl; ring.
    + apply IH.
      * intros k0 p1 p2 I. apply An. right; exact I.
      * intros kv I. apply Sub. right; exact I.
  - unfold fget_keys, dkeys, rows. cbn [fd_data]. rewrite map_map. reflexivity.
  - intros k v1 v2 G1 G2. unfold fget_pc, dgetr in *. cbn [fd_data] in *.
    destruct (dget k r1) as [v|] eqn:E1; [|discriminate]. injection G1 as ->.
    destruct (dget k r2) as [w|] eqn:E2; [|discriminate]. injection G2 as ->.
    replace (dget k rows) with (Some (op_rows op v1 v2)); [reflexivity|]. symmetry. apply In_dget.
    + unfold wf_dict, dkeys, rows. rewrite map_map. cbn [fst]. change (NoDup (map fst r1)). rewrite <- K1. exact W1.
    + unfold rows. apply in_map_iff. exists (k, v1). split; [|apply dget_In; exact E1]. cbn [fst snd]. rewrite E2. reflexivity.
Qed.

Hypothesis By : by_angles interp.
Hypothesis Kc : keeps_constants interp.

Lemma transform_lower c d M f d' : wf_dict (dc_data d) -> dc_data d' = dmap (map_y (fun y => (y - c)%R)) (dc_data d) -> dat_to_fdat interp d M = Ok f ->
  exists f', dat_to_fdat interp d' M = Ok f' /\ fget_M f' = M /\ fget_keys f' = fget_keys f /\
    forall k p v, In (k, p) (dc_data d) -> fget_pc f k = Ok v -> exists v', fget_pc f' k = Ok v' /\
      forall m, (Z.abs m <= Z.of_nat M)%Z ->
        coef M v' m = if (m mod Z.of_nat (length p) =? 0)%Z then Cminus (coef M v m) (RtoC c) else coef M v m.
Proof.
  intros W E H. apply transform_rows in H; [|exact W]. destruct H as (r & F & ->).
  pose proof (rows_keys _ _ _ _ F) as K.
  assert (X : exists r', Forall2 (rows_of interp M) (dc_data d') r' /\
     Forall2 (fun kp_kv kv' => fst (snd kp_kv) = fst kv' /\ forall m, (Z.abs m <= Z.of_nat M)%Z ->
        coef M (snd kv') m = if (m mod Z.of_nat (length (snd (fst kp_kv))) =? 0)%Z then Cminus (coef M (snd (snd kp_kv)) m) (RtoC c) else coef M (snd (snd kp_kv)) m) (combine (dc_data d) r) r').
  { rewrite E. clear W K E. induction F as [|[k p] [k' v] l r [Ek T] F (r' & A & B)]; [exists []; split; constructor|].
    cbn [fst snd] in *. subst k'.
    assert (Y : exists v', transformed interp M (map_y (fun y => (y - c)%R) p) v' /\ forall m, (Z.abs m <= Z.of_nat M)%Z ->
        coef M v' m = if (m mod Z.of_nat (length p) =? 0)%Z then Cminus (coef M v m) (RtoC c) else coef M v m).
    { destruct T as (g & Eg & L & ->).
      assert (Ac : is_ok (interp (map_y (fun _ => c) p))).
      { apply (By p); [rewrite map_y_fst; reflexivity|]. exists g; exact Eg. }
      destruct Ac as (h & Eh).
      destruct (Li 1%R (-1)%R p (map_y (fun _ => c) p) g h (eq_sym (map_y_fst _ _)) Eg Eh) as (k0 & Ek & Hk).
      rewrite lincomb_const in Ek.
      replace (map_y (fun y : R => (y + -1 * c)%R) p) with (map_y (fun y : R => (y - c)%R) p) in Ek
        by (unfold map_y; apply map_ext; intros q; f_equal; ring).
      assert (Hh : forall x, h x = c).
      { intros x. apply (Kc (map_y (fun _ => c) p) c h x); [|intros q I|exact Eh].
        - destruct p; [simpl in L; lia|discriminate].
        - unfold map_y in I. apply in_map_iff in I. destruct I as (q0 & <- & _). reflexivity. }
      eexists. split.
      - exists k0. split; [exact Ek|]. split; [unfold map_y; rewrite map_length; exact L|reflexivity].
      - intros m Im_. unfold map_y at 1. rewrite map_length. rewrite !coef_map_freqs by exact Im_.
        rewrite (gdft_lin _ 1%R (-1)%R g h k0 m Hk), (gdft_const (length p) c h m) by (try lia; auto).
        destruct (m mod Z.of_nat (length p) =? 0)%Z; apply C_ext; unfold Re, Im; simpl; ring. }
    destruct Y as (v' & T' & Y). exists ((k, v') :: r'). split.
    - cbn [dmap map]. constructor; [split; [reflexivity|exact T']|exact A].
    - cbn [combine]. constructor; [split; [reflexivity|exact Y]|exact B]. }
  destruct X as (r' & A & B). exists (mkfdat r' 1 (PNum 0) M).
  assert (W' : wf_dict (dc_data d')) by (rewrite E; unfold wf_dict; rewrite dkeys_dmap; exact W).
  split; [apply transform_rows; [exact W'|]; exists r'; auto|]. split; [reflexivity|].
  assert (K' : map fst r' = map fst r).
  { rewrite <- (rows_keys _ _ _ _ A), E, <- K. exact (dkeys_dmap _ _). }
  split; [exact K'|].
  intros k p v I G. unfold fget_pc, dgetr in *. cbn [fd_data] in *.
  destruct (dget k r) as [v0|] eqn:E0; [|discriminate]. injection G as ->.
  assert (Ic : In ((k, p), (k, v)) (combine (dc_data d) r)).
  { clear - W F I E0. apply dget_In in E0. unfold wf_dict, dkeys in W. revert W.
    induction F as [|[k1 p1] [k2 v2] l r [Ek T] F IH]; [destruct I|]. cbn [map fst snd combine] in *. subst k2. intros W. inversion W as [|? ? Nk Wl]; subst.
    destruct I as [I|I], E0 as [J|J].
    - left. congruence.
    - exfalso. apply Nk. injection I as -> ->. pose proof (rows_keys _ _ _ _ F) as K. rewrite K. apply in_map_iff. exists (k, v); auto.
    - exfalso. apply Nk. injection J as -> ->. apply in_map_iff. exists (k, p); auto.
    - right. apply IH; auto. }
  destruct (Forall2_In_l _ _ _ _ B Ic) as ([k2 v'] & I' & Ek & Y). cbn [fst snd] in *. subst k2.
  exists v'. split; [|exact Y].
  assert (Wr : wf_dict r') by (unfold wf_dict, dkeys; rewrite K', <- K; exact W).
  apply (In_dget k v' r' Wr) in I'. rewrite I'. reflexivity.
Qed.
End Transform.

(* ------------------------------------------------------------------ *)
(** Filters *)
Lemma filter_loop_spec f : forall l l' r, filter_loop f l = (l', r) ->
  exists l1 l2 l1', l = (l1 ++ l2)%list /\ l' = (l1' ++ l2)%list /\
    Forall2 (fun a b => fst a = fst b /\ filtered f (snd a) (snd b)) l1 l1' /\
    match r with Ok _ => l2 = [] | Raise e => exists k p rest, l2 = (k, p) :: rest /\ bad_filter f p e end.
Proof.
  induction l as [|[k p] l IH]; intros l' r H; cbn [filter_loop] in H.
  - injection H as <- <-. exists [], [], []. repeat split; constructor.
  - destruct (f (map snd p)) as [ys|e] eqn:E.
    + destruct (Nat.eqb_spec (length ys) (length p)) as [L|L].
      * destruct (filter_loop f l) as [l'' r'] eqn:E'. injection H as <- <-.
        destruct (IH _ _ eq_refl) as (l1 & l2 & l1' & -> & -> & F & R).
        exists ((k, p) :: l1), l2, ((k, combine (map fst p) ys) :: l1'). split; [reflexivity|]. split; [reflexivity|]. split; [|exact R].
        constructor; [|exact F]. cbn [fst snd]. split; [reflexivity|]. exists ys. split; [exact E|].
        clear - L. revert ys L. induction p as [|[x y] p IH]; intros [|z ys] L; try discriminate; [split; reflexivity|].
        cbn [length] in L. destruct (IH ys) as [A B]; [lia|]. cbn [map combine fst snd]. rewrite A, B. split; reflexivity.
      * injection H as <- <-. exists [], ((k, p) :: l), []. split; [reflexivity|]. split; [reflexivity|]. split; [constructor|].
        exists k, p, l. split; [reflexivity|]. right. exists ys. auto.
    + injection H as <- <-. exists [], ((k, p) :: l), []. split; [reflexivity|]. split; [reflexivity|]. split; [constructor|].
      exists k, p, l. split; [reflexivity|]. left. exact E.
Qed.

Lemma filter_elementwise g l : filter_loop (fun ys => Ok (map g ys)) l = (dmap (map_y g) l, Ok tt).
Proof.
  induction l as [|[k p] l IH]; [reflexivity|]. cbn [filter_loop]. rewrite !map_length, Nat.eqb_refl, IH.
  cbn [dmap map]. do 3 f_equal. clear. induction p as [|[x y] p IH]; [reflexivity|]. cbn [map combine fst snd]. rewrite IH. reflexivity.
Qed.

Lemma insert_map_y g p l : insert (fst p, g (snd p)) (map_y g l) = map_y g (insert p l).
Proof.
  induction l as [|q l IH]; [reflexivity|]. cbn [map_y map insert fst]. destruct (Rle_dec (fst p) (fst q)); [reflexivity|].
  cbn [map]. f_equal. exact IH.
Qed.
Lemma isort_map_y g l : isort (map_y g l) = map_y g (isort l).
Proof. induction l as [|p l IH]; [reflexivity|]. cbn [map_y map isort]. fold (map_y g l). rewrite IH. apply insert_map_y. Qed.

Lemma filter_data_eq g d : filter_data d (fun ys => Ok (map g ys)) = (set_data d (dmap (map_y g) (dc_data d)), Ok tt).
Proof. unfold filter_data. rewrite filter_elementwise. reflexivity. Qed.

Lemma filter_phase g d a u :
  filter_data (fst (phase_shift_data d a u)) (fun ys => Ok (map g ys)) =
    (fst (phase_shift_data (fst (filter_data d (fun ys => Ok (map g ys)))) a u), Ok tt).
Proof.
  rewrite !filter_data_eq. cbn [fst]. unfold phase_shift_data. destruct (check_angle_units (lower u)) as [|e]; cbn [fst]; [|reflexivity].
  unfold set_data. cbn [dc_data dc_scale dc_phase dc_offset dc_units dc_coerced]. do 2 f_equal.
  unfold sort_dict. rewrite !dmap_dmap. unfold dmap. apply map_ext. intros [k v]. cbn [fst snd]. f_equal. rewrite <- isort_map_y. f_equal.
  unfold map_y. rewrite !map_map. reflexivity.
Qed.

(* ------------------------------------------------------------------ *)
(** Shifted data lie on the shifted curve *)
Lemma series_shift M a v x : length v = 2 * M + 1 -> series M (shift_row M a v) x = series M v (x + a).
Proof.
  intros L. unfold series. apply Csum_ext_in. intros m I. apply In_freqs in I. rewrite shift_row_coef by (auto; lia).
  rewrite <- Cmult_assoc, <- cis_plus. do 2 f_equal. ring.
Qed.
Lemma series_mod M v x : series M v (mod2pi x) = series M v x.
Proof. unfold series. apply Csum_ext. intros m. rewrite cis_mod2pi. reflexivity. Qed.
Lemma shifted_curve f n d a np k p x y : fwf f -> 0 < n -> fdat_to_dat f n = Ok d ->
  get_pc (fst (phase_shift_data d a "radians")) k "radians" = Ok p -> In (x, y) p ->
  exists v, fget_pc (fst (phase_shift_fdata f (- a) np "radians")) k = Ok v /\ y = Re (series (fd_M f) v x).
Proof.
  intros W N H G I. rewrite fdat_to_dat_spec in H by auto. injection H as <-.
  rewrite phase_shift_radians in G. cbn [fst] in G. unfold get_pc, view in G. simpl in G. unfold dgetr in G. rewrite !dget_dmap in G.
  destruct (dget k (fd_data f)) as [v|] eqn:E; [|discriminate]. cbn [option_map] in G. injection G as <-.
  exists (shift_row (fd_M f) (- a) v). split.
  - assert (Z : fd_data (fst (phase_shift_fdata f (- a) np "radians")) = dmap (shift_row (fd_M f) (- a)) (fd_data f)).
    { unfold phase_shift_fdata. simpl. destruct (phase_add _ _ _); reflexivity. }
    unfold fget_pc, dgetr. rewrite Z, dget_dmap, E. reflexivity.
  - unfold shift_pts in I. rewrite isort_In in I. unfold sampled in I. rewrite map_map in I. apply in_map_iff in I. destruct I as (x0 & E0 & _).
    unfold turn_by in E0. cbn [fst snd] in E0. injection E0 as <- <-.
    rewrite series_shift.
    2:{ destruct W as [_ F]. apply dget_In in E. rewrite Forall_forall in F. exact (F _ E). }
    f_equal. rewrite <- (series_mod _ _ (mod2pi (x0 + a) + - a)).
    replace (series (fd_M f) v (mod2pi (mod2pi (x0 + a) + - a))) with (series (fd_M f) v x0); [reflexivity|].
    rewrite series_mod. unfold series. apply Csum_ext. intros m. f_equal.
    rewrite Rmult_plus_distr_l, cis_plus, cis_mod2pi, <- cis_plus. f_equal. ring.
Qed.
