(** Properties C17 (curve), C89, C90: linear operations and filters. *)
From Coq Require Import String List Arith ZArith Reals Lra Lia Bool.
From Coquelicot Require Import Complex.
From Verif Require Import PyBase RMod CBase DataModel SpecData DataProofs DataProofs2 DataProofs3 PropertiesData
  FDataModel SpecFData FDataProofs FDataProofs2 PropertiesFData SpecLin LinProofs LinProofs2.
Import ListNotations.
Open Scope R_scope.

(* ================================================================== *)
(** * C17: data sampled from a series and then shifted lie on the curve of the
    series shifted by the opposite angle, whatever the angle. *)

Theorem C17_curve : forall f n d a np k p x y, freachable f -> (0 < n)%nat -> fdat_to_dat f n = Ok d ->
  get_pc (fst (phase_shift_data d a "radians")) k "radians" = Ok p -> In (x, y) p ->
  exists v, fget_pc (fst (phase_shift_fdata f (- a) np "radians")) k = Ok v /\ y = Re (series (fget_M f) v x).
Proof. intros f n d a np k p x y R. exact (shifted_curve f n d a np k p x y (freachable_wf f R)). Qed.
Print Assumptions C17_curve.

Example C17_curve_case : exists f d p, freachable f /\ fdat_to_dat f 4 = Ok d /\
  get_pc (fst (phase_shift_data d 1 "radians")) "PP" "radians" = Ok p /\ length p = 4%nat.
Proof.
  exists cos_fdat. eexists _, _. split; [apply cos_fdat_reach|].
  split; [apply fdat_to_dat_spec; [apply freachable_wf, cos_fdat_reach|lia]|].
  rewrite phase_shift_radians. split; [reflexivity|]. unfold shift_pts. rewrite isort_length, map_length. reflexivity.
Qed.

(* ================================================================== *)
(** * C89 *)

Theorem C89_scale : forall interp d M f s, linear_interp interp -> reachable d -> 0 <= s ->
  dat_to_fdat interp d M = Ok f ->
  exists f', dat_to_fdat interp (fst (scale_data d s)) M = Ok f' /\ fget_M f' = M /\
    fget_items f' = fget_items (fst (scale_fdata f s)).
Proof.
  intros interp d M f s Li R S H. eexists. split; [exact (transform_scale interp Li d M f s (reachable_wf d R) S H)|]. split; reflexivity.
Qed.
Print Assumptions C89_scale.

Theorem C89_arithmetic : forall interp (plus : bool) d1 d2 M f1 f2, linear_interp interp ->
  reachable d1 -> reachable d2 -> all_distinct d1 -> can_combine d1 d2 ->
  (forall k p1 p2, get_pc d1 k "radians" = Ok p1 -> get_pc d2 k "radians" = Ok p2 -> map fst p1 = map fst p2) ->
  dat_to_fdat interp d1 M = Ok f1 -> dat_to_fdat interp d2 M = Ok f2 ->
  exists d3 f3, (if plus then dat_add d1 d2 else dat_subtract d1 d2) = Ok d3 /\ dat_to_fdat interp d3 M = Ok f3 /\
    fget_M f3 = M /\ fget_keys f3 = fget_keys f1 /\
    forall k v1 v2, fget_pc f1 k = Ok v1 -> fget_pc f2 k = Ok v2 ->
      fget_pc f3 k = Ok (map (fun zw => if plus then Cplus (fst zw) (snd zw) else Cminus (fst zw) (snd zw)) (combine v1 v2)).
Proof.
  intros interp plus d1 d2 M f1 f2 Li R1 R2 D Cc An H1 H2.
  pose proof (reachable_wf d1 R1) as W1. pose proof (reachable_wf d2 R2) as W2.
  assert (An' : forall k p1 p2, In (k, p1) (dc_data d1) -> In (k, p2) (dc_data d2) -> map fst p1 = map fst p2).
  { intros k p1 p2 I1 I2. apply (An k); [apply get_pc_In|apply get_pc_In]; auto. }
  destruct plus.
  - destruct (transform_sum interp Li Rplus 1 d1 d2 M f1 f2) as (d3 & f3 & A & B & Cm & K & E); auto using reachable_normal.
    { intros; ring. } exists d3, f3. repeat (split; [assumption|]). exact E.
  - destruct (transform_sum interp Li Rminus (-1) d1 d2 M f1 f2) as (d3 & f3 & A & B & Cm & K & E); auto using reachable_normal.
    { intros; ring. } exists d3, f3. repeat (split; [assumption|]). exact E.
Qed.
Print Assumptions C89_arithmetic.

(** Subtracting the minimum changes the mean of every polarization, and with it
    the coefficients whose frequency is a multiple of the number of points. *)
Theorem C89_subtract_min : forall interp d M f mn, linear_interp interp -> by_angles interp -> keeps_constants interp ->
  reachable d -> is_min (value_of (dc_data d)) mn -> dat_to_fdat interp d M = Ok f ->
  exists f', dat_to_fdat interp (fst (subtract_min d)) M = Ok f' /\ fget_M f' = M /\ fget_keys f' = fget_keys f /\
    forall k p v, get_pc d k "radians" = Ok p -> fget_pc f k = Ok v -> exists v', fget_pc f' k = Ok v' /\
      forall m, (Z.abs m <= Z.of_nat M)%Z ->
        ((Z.of_nat (length p) | m)%Z -> coef M v' m = Cminus (coef M v m) (RtoC mn)) /\
        (~ (Z.of_nat (length p) | m)%Z -> coef M v' m = coef M v m).
Proof.
  intros interp d M f mn Li By Kc R Mn H. pose proof (reachable_wf d R) as W.
  assert (E : dc_data (fst (subtract_min d)) = dmap (map_y (fun y => y - mn)) (dc_data d)).
  { rewrite (subtract_min_spec d mn); [reflexivity|apply reachable_nonempty; auto|exact Mn]. }
  destruct (transform_lower interp Li By Kc mn d M f _ W E H) as (f' & A & B & Ck & X).
  exists f'. repeat (split; [assumption|]). intros k p v Ip Iv. apply (get_pc_In d k p W) in Ip.
  destruct (X k p v Ip Iv) as (v' & Ev & Y). exists v'. split; [exact Ev|]. intros m Lm. specialize (Y m Lm).
  assert (Nz : Z.of_nat (length p) <> 0%Z).
  { pose proof (reachable_nonempty d R) as F. unfold nonempty_pcs in F. rewrite Forall_forall in F. specialize (F _ Ip). cbn [snd] in F.
    destruct p; [congruence|cbn [length]; lia]. }
  split; intros D.
  - apply Z.mod_divide in D; [|exact Nz]. apply Z.eqb_eq in D. rewrite D in Y. exact Y.
  - destruct (Z.eqb_spec (m mod Z.of_nat (length p)) 0) as [D'|D']; [|exact Y].
    exfalso. apply D. apply Z.mod_divide; auto.
Qed.
Print Assumptions C89_subtract_min.

(** An interpolator that meets all the requirements: a table, and the first value
    at angles that are not in it. *)
Definition padded (p : list (R * R)) : res (R -> R) :=
  match p with
  | [] => Raise ValueError
  | q0 :: _ => Ok (fun x => match find (fun q => Reqb (fst q) x) p with Some q => snd q | None => snd q0 end)
  end.
Lemma find_lincomb a b x : forall p q, map fst p = map fst q ->
  find (fun r => Reqb (fst r) x) (lincomb a b p q) =
  match find (fun r => Reqb (fst r) x) p, find (fun r => Reqb (fst r) x) q with
  | Some u, Some w => Some (fst u, a * snd u + b * snd w) | _, _ => None end /\
  (find (fun r => Reqb (fst r) x) p = None <-> find (fun r => Reqb (fst r) x) q = None).
Proof.
  induction p as [|[x1 y1] p IH]; intros [|[x2 y2] q] E; try discriminate E; [split; [reflexivity|tauto]|].
  cbn [map fst] in E. injection E as -> E. unfold lincomb. cbn [combine map find fst snd]. fold (lincomb a b p q).
  destruct (Reqb x2 x); [split; [reflexivity|split; discriminate]|]. apply IH. exact E.
Qed.
Lemma padded_at p g x : padded p = Ok g ->
  g x = match find (fun q => Reqb (fst q) x) p with Some q => snd q | None => snd (hd (0, 0) p) end.
Proof. destruct p as [|u p]; [discriminate|]. intros H. injection H as <-. reflexivity. Qed.
Example C89_case : linear_interp padded /\ by_angles padded /\ keeps_constants padded /\ exact_at_nodes padded /\
  exists d f, reachable d /\ is_min (value_of (dc_data d)) 3 /\ dat_to_fdat padded d 1 = Ok f.
Proof.
  split; [|split; [|split; [|split]]].
  - intros a b p q g h E G H. destruct p as [|u p]; [discriminate|]. destruct q as [|w q]; [discriminate|].
    assert (K : exists k, padded (lincomb a b (u :: p) (w :: q)) = Ok k) by (eexists; reflexivity).
    destruct K as (k & K). exists k. split; [exact K|]. intros x.
    rewrite (padded_at _ _ x K), (padded_at _ _ x G), (padded_at _ _ x H).
    destruct (find_lincomb a b x (u :: p) (w :: q) E) as [F N]. rewrite F.
    destruct (find (fun r => Reqb (fst r) x) (u :: p)) as [u'|], (find (fun r => Reqb (fst r) x) (w :: q)) as [w'|]; try reflexivity.
    + exfalso. destruct N as [_ N]. discriminate N; reflexivity.
    + exfalso. destruct N as [N _]. discriminate N; reflexivity.
  - intros p q E [g G]. destruct p; [discriminate|]. destruct q; [discriminate|]. eexists. reflexivity.
  - intros p c g x N A G. rewrite (padded_at _ _ x G).
    destruct (find (fun q => Reqb (fst q) x) p) as [w|] eqn:F.
    + apply find_some in F. apply A. apply F.
    + apply A. destruct p; [congruence|left; reflexivity].
  - intros p g x y N G I. rewrite (padded_at _ _ x G).
    assert (F : find (fun q => Reqb (fst q) x) p = Some (x, y)).
    { clear - N I. induction p as [|[x0 y0] l IH]; [destruct I|]. simpl. inversion N; subst. destruct I as [E|I].
      - injection E as -> ->. rewrite (proj2 (Reqb_true x x)); auto.
      - rewrite (proj2 (Reqb_false x0 x)); auto. intros ->. apply H1. apply in_map_iff. exists (x, y); auto. }
    rewrite F. reflexivity.
  - assert (T : exists v, transformed padded 1 [(0, 3); (1, 5)] v).
    { eexists. eexists. split; [reflexivity|]. split; [cbn; lia|reflexivity]. }
    destruct T as (v & T). eexists _, (mkfdat [("PP"%string, v)] 1 (PNum 0) 1).
    split; [eexists _, _, _, _, []; split; [apply good_witness|reflexivity]|]. split.
    + simpl. split.
      * exists "PP"%string, [(0, 3); (1, 5)], 0. simpl; auto.
      * intros y (k & p & x & [E|[]] & I). injection E as <- <-. destruct I as [E|[E|[]]]; injection E as <- <-; lra.
    + apply transform_rows; [repeat constructor; simpl; tauto|]. eexists. split; [|reflexivity].
      constructor; [|constructor]. split; [reflexivity|exact T].
Qed.

(* ================================================================== *)
(** * C90 *)

(** A complete description of what a filter does: polarizations in order up to
    the first one for which the function raised or returned another length. *)
Theorem C90_filter : forall d f d' r, filter_data d f = (d', r) ->
  get_keys d' = get_keys d /\ get_scale d' = get_scale d /\ get_offset d' = get_offset d /\
  (forall u, get_phase_shift d' u = get_phase_shift d u) /\
  exists done kept done', get_items d "radians" = Ok (done ++ kept)%list /\ get_items d' "radians" = Ok (done' ++ kept)%list /\
    Forall2 (fun a b => fst a = fst b /\ filtered f (snd a) (snd b)) done done' /\
    match r with
    | Ok _ => kept = []
    | Raise e => exists k p rest, kept = (k, p) :: rest /\ bad_filter f p e
    end.
Proof.
  intros d f d' r H. unfold filter_data in H. destruct (filter_loop f (dc_data d)) as [l' r'] eqn:E. injection H as <- <-.
  destruct (filter_loop_spec f _ _ _ E) as (l1 & l2 & l1' & E1 & E2 & F & X).
  assert (K : map fst l1 = map fst l1').
  { clear - F. induction F as [|a b l l' [A _] F IH]; [reflexivity|]. cbn [map]. congruence. }
  split; [|split; [reflexivity|split; [reflexivity|split; [reflexivity|]]]].
  - unfold get_keys, dkeys, set_data. cbn [dc_data]. rewrite E1, E2, !map_app, K. reflexivity.
  - exists l1, l2, l1'. unfold get_items, view, set_data. cbn [dc_data]. simpl. rewrite <- E1, <- E2. repeat (split; [assumption || reflexivity|]). exact X.
Qed.
Print Assumptions C90_filter.

Theorem C90_elementwise : forall d g a u,
  let F := fun ys => Ok (map g ys) in
  snd (filter_data d F) = Ok tt /\
  (forall v, get_items d "radians" = Ok v ->
     get_items (fst (filter_data d F)) "radians" = Ok (map (fun kv => (fst kv, map (fun q => (fst q, g (snd q))) (snd kv))) v)) /\
  fst (filter_data (fst (phase_shift_data d a u)) F) = fst (phase_shift_data (fst (filter_data d F)) a u).
Proof.
  intros d g a u F. unfold F. rewrite filter_phase. rewrite filter_data_eq. split; [reflexivity|]. split; [|reflexivity].
  intros v H. unfold get_items, view, set_data in *. cbn [dc_data fst]. simpl in *. injection H as <-. reflexivity.
Qed.
Print Assumptions C90_elementwise.

(** A filter that looks at more than one value does not commute with a shift:
    here it replaces every value by the first one. *)
Theorem C90_positional : exists d f a, reachable d /\
  (forall ys, exists ys', f ys = Ok ys' /\ length ys' = length ys) /\
  get_items (fst (filter_data (fst (phase_shift_data d a "radians")) f)) "radians" <>
  get_items (fst (phase_shift_data (fst (filter_data d f)) a "radians")) "radians".
Proof.
  set (f := fun ys => Ok (map (fun _ => hd 0 ys) ys)).
  exists (mkdat [("PP"%string, [(0, 3); (1, 5)])] 1 0 0 "radians" false), f, (2 * PI - 1). split; [eexists _, _, _, _, []; split; [apply good_witness|reflexivity]|]. split.
  { intros ys. eexists. split; [reflexivity|]. apply map_length. }
  pose proof PI_bounds as PB.
  assert (E0 : mod2pi (0 + (2 * PI - 1)) = 2 * PI - 1) by (rewrite Rplus_0_l; apply mod2pi_small; unfold twopi; lra).
  assert (E1 : mod2pi (1 + (2 * PI - 1)) = 0) by (apply (mod2pi_unique _ 0 1); unfold twopi; lra).
  assert (Sh : forall y z, shift_pts (2 * PI - 1) [(0, y); (1, z)] = [(0, z); (2 * PI - 1, y)]).
  { intros y z. unfold shift_pts, turn_by. cbn [map fst snd]. rewrite E0, E1. cbn [isort insert fst].
    destruct (Rle_dec (2 * PI - 1) 0) as [L|L]; [exfalso; lra|reflexivity]. }
  change (fst (filter_data (mkdat [("PP"%string, [(0, 3); (1, 5)])] 1 0 0 "radians" false) f)) with (mkdat [("PP"%string, [(0, 3); (1, 3)])] 1 0 0 "radians" false).
  rewrite !phase_shift_radians. unfold dmap. cbn [fst snd dc_data map]. rewrite !Sh.
  cbn. intros H. injection H as H. lra.
Qed.
Print Assumptions C90_positional.

Example C90_case : exists d d', reachable d /\ get_keys d = ["PP"%string] /\
  filter_data d (fun _ => Ok [1]) = (d', Raise ValueError) /\ filter_data d (fun ys => Ok (rev ys)) = (mkdat [("PP"%string, [(0, 5); (1, 3)])] 1 0 0 "radians" false, Ok tt).
Proof.
  eexists _, _. split; [eexists _, _, _, _, []; split; [apply good_witness|reflexivity]|]. split; [reflexivity|]. split; reflexivity.
Qed.
