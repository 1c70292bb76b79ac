(** Proofs about the DataContainer model, third part: units, and the explicit
    data sets used as counterexamples and as non-vacuity examples. *)
From Coq Require Import String Ascii List ZArith Reals Lra Lia Bool Sorted Permutation.
From Verif Require Import PyBase RMod DataModel SpecData DataProofs DataProofs2.
Import ListNotations.
Open Scope R_scope.

Lemma PI_bounds : 3 < PI <= 167 / 50.
Proof.
  split.
  - pose proof PI2_3_2. lra.
  - destruct (PI_ineq 2) as [_ H].
    unfold sum_f_R0, tg_alt, PI_tg in H. simpl in H. lra.
Qed.

(* ------------------------------------------------------------------ *)
(** * C04 *)

Lemma dset_dmap {K V W} `{Eqb K} (f : V -> W) k v (d : dict K V) :
  dset k (f v) (dmap f d) = dmap f (dset k v d).
Proof.
  induction d as [|[k' v'] d IH]; simpl; auto. destruct (eqb k k'); simpl; auto. rewrite <- IH. reflexivity.
Qed.

Lemma dict_of_dmap {K V W} `{Eqb K} (f : V -> W) (l : dict K V) :
  dict_of (dmap f l) = dmap f (dict_of l).
Proof.
  unfold dict_of. change (@nil (K * W)) with (dmap f (@nil (K * V))) at 1.
  generalize (@nil (K * V)) as d. induction l as [|[k v] l IH]; intros d; [reflexivity|].
  cbn [dmap map fold_left fst snd]. rewrite dset_dmap. apply IH.
Qed.

Lemma good_val_rad v : good_val (val_rad v) = good_val v.
Proof.
  destruct v as [nd dt rows|]; auto. destruct dt; auto; destruct rows as [|xs [|ys rest]]; simpl; auto;
  now rewrite map_length.
Qed.

Lemma combine_map_l {A B C} (f : A -> B) (xs : list A) (ys : list C) :
  combine (map f xs) ys = map (fun p => (f (fst p), snd p)) (combine xs ys).
Proof. revert ys; induction xs; intros [|y ys]; simpl; auto. now rewrite IHxs. Qed.

Lemma columns_rad v : good_val v = true ->
  columns (val_rad v) = (DFloat, map (fun p => (deg2rad (fst p), snd p)) (snd (columns v))).
Proof.
  destruct v as [nd dt rows|]; [|discriminate].
  destruct rows as [|xs [|ys rest]]; try (simpl; rewrite ?andb_false_r; discriminate).
  destruct dt; try discriminate; intros _; simpl; rewrite combine_map_l; reflexivity.
Qed.

Lemma check_rad d : check_iterable (dmap val_rad d) = check_iterable d.
Proof.
  unfold check_iterable. rewrite dkeys_dmap. f_equal.
  replace (forallb good_val (dvals (dmap val_rad d))) with (forallb good_val (dvals d)); auto.
  unfold dvals, dmap. rewrite map_map. simpl. induction d as [|[k v] d IH]; simpl; auto.
  now rewrite good_val_rad, IH.
Qed.

Lemma raw_rad d : check_iterable d = Ok tt -> raw_dict (dmap val_rad d) = to_radians (raw_dict d).
Proof.
  intros Ci. apply check_iterable_Ok in Ci as [_ G].
  unfold raw_dict, to_radians, dmap. rewrite !map_map. simpl. apply map_ext_in. intros [k v] I. simpl.
  f_equal. apply columns_rad. rewrite forallb_forall in G. apply G. apply in_map_iff. exists (k, v); auto.
Qed.

Lemma degrees_radians it n2o :
  match construct it "degrees" n2o, construct (it_rad it) "radians" n2o with
  | Ok d, Ok d' => same_container d d'
  | Raise e, Raise e' => e = e'
  | _, _ => False
  end.
Proof.
  unfold construct. simpl.
  change (it_rad it) with (dmap val_rad it). rewrite dict_of_dmap, check_rad.
  destruct (check_iterable_cases (dict_of it)) as [Ci|Ci]; rewrite Ci; simpl; auto.
  rewrite raw_rad by auto.
  set (d1 := to_radians (raw_dict (dict_of it))).
  destruct (if n2o then coerce d1 else Ok d1) as [d2|e]; simpl; auto.
  destruct (dmapM modulate (dmap remove_dups d2)) as [d4|e]; simpl; auto.
  repeat split.
Qed.

Lemma view_units d u : lower u = "degrees"%string -> exists v,
  view d "radians" = Ok v /\
  view d u = Ok (map (fun kv => (fst kv, map (fun p => (180 / PI * fst p, snd p)) (snd kv))) v).
Proof.
  intros E. exists (dc_data d). split; [reflexivity|]. unfold view. rewrite E. simpl.
  f_equal. unfold dmap. apply map_ext. intros [k v]; simpl. f_equal. unfold deg_pts.
  apply map_ext. intros [x y]; unfold rad2deg; simpl. f_equal. ring.
Qed.

(* ------------------------------------------------------------------ *)
(** * Explicit containers *)

(** Evaluation of the modulus on literals. *)
Ltac mod0 := match goal with |- context [mod2pi ?x] =>
  rewrite (mod2pi_small x) by (unfold twopi; pose proof PI_bounds; lra) end.

Lemma mod2pi_2pi : mod2pi (2 * PI) = 0.
Proof. apply mod2pi_unique with (k := 1%Z); unfold twopi; pose proof PI_bounds; lra. Qed.

Lemma mod2pi_7 : mod2pi 7 = 7 - 2 * PI.
Proof. apply mod2pi_unique with (k := 1%Z); unfold twopi; pose proof PI_bounds; lra. Qed.

Lemma construct_single k dt l u (n2o := false) :
  dt <> DObject -> l <> [] -> (u = "radians"%string \/ u = "degrees"%string) ->
  construct (input dt [(k, l)]) u false = Ok (mkdat [(k, finish (conv u (dt, l)))] 1 0 0 u false).
Proof.
  intros D N U.
  assert (G : given (input dt [(k, l)]) k dt l).
  { exists [], (map fst l), (map snd l), [], []. repeat split; auto.
    - now rewrite !map_length.
    - clear; induction l as [|[x y] l IH]; simpl; auto. now rewrite <- IH. }
  assert (W : well_formed (input dt [(k, l)])).
  { intros pk [<-|[]]. exists k, dt, l. repeat split; auto. }
  destruct (construct_outcome (input dt [(k, l)]) u) as [(_ & _ & d & C)|[X _]]; [|tauto].
  rewrite C. f_equal. pose proof (construct_get _ _ _ _ _ _ C G) as E.
  pose proof (construct_keys _ _ _ C) as K.
  apply construct_Ok in C as (_ & _ & d2 & E2 & _ & ->). simpl in *. f_equal.
  unfold get_keys in K; simpl in K.
  destruct (dmap finish d2) as [|[k1 v1] [|kv2 r]]; simpl in K; try discriminate.
  injection K as ->. simpl in E. rewrite String.eqb_refl in E. congruence.
Qed.

(** Two measurements at 2*pi radians survive as two measurements at 0. *)
Lemma dup_witness : construct (input DFloat [("PP"%string, [(2 * PI, 1); (2 * PI, 2)])]) "radians" false =
  Ok (mkdat [("PP"%string, [(0, 1); (0, 2)])] 1 0 0 "radians" false).
Proof.
  rewrite construct_single; [|discriminate|discriminate|auto].
  unfold conv, finish; simpl. rewrite mod2pi_2pi. unfold mem; simpl.
  replace (Reqb 0 (2 * PI)) with false by (symmetry; apply Reqb_false; pose proof PI_bounds; lra).
  simpl. rewrite mod2pi_2pi. destruct (Rle_dec 0 0) as [_|N]; [reflexivity|lra].
Qed.

(** An integer angle of 7 rad is stored as 0 instead of 7-2*pi. *)
Lemma int_witness : construct (input DInt [("PP"%string, [(7, 1)])]) "radians" false =
  Ok (mkdat [("PP"%string, [(0, 1)])] 1 0 0 "radians" false).
Proof.
  rewrite construct_single; [|discriminate|discriminate|auto].
  unfold conv, finish; simpl. rewrite mod2pi_7.
  assert (E : rtrunc (7 - 2 * PI) = 0).
  { unfold rtrunc. pose proof PI_bounds. destruct (Rle_dec 0 (7 - 2 * PI)) as [_|N]; [|lra].
    rewrite (Int_part_unique (7 - 2 * PI) 0); auto. lra. }
  rewrite E. reflexivity.
Qed.

Lemma not_same_0_7 : ~ same_angle 0 7.
Proof.
  rewrite same_angle_iff, mod2pi_7, mod2pi_small by (unfold twopi; pose proof PI_bounds; lra).
  pose proof PI_bounds. lra.
Qed.

(** A well-behaved data set: angles 1, 0, 2*pi (the last one repeats 0). *)
Lemma good_witness : construct (input DFloat [("PP"%string, [(1, 5); (0, 3); (2 * PI, 4)])]) "radians" false =
  Ok (mkdat [("PP"%string, [(0, 3); (1, 5)])] 1 0 0 "radians" false).
Proof.
  rewrite construct_single; [|discriminate|discriminate|auto].
  pose proof PI_bounds as PB.
  assert (E0 : mod2pi 0 = 0) by (apply mod2pi_small; unfold twopi; lra).
  assert (E1 : mod2pi 1 = 1) by (apply mod2pi_small; unfold twopi; lra).
  unfold conv, finish; simpl. rewrite mod2pi_2pi, E0. unfold mem; simpl.
  replace (Reqb 0 1) with false by (symmetry; apply Reqb_false; lra). simpl.
  replace (Reqb 0 1) with false by (symmetry; apply Reqb_false; lra). simpl.
  replace (Reqb 0 0) with true by (symmetry; apply Reqb_true; lra). simpl.
  rewrite E1, E0. destruct (Rle_dec 1 0); [lra|]. reflexivity.
Qed.
