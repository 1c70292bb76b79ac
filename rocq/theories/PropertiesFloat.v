(** C96-C97: angles held in double precision. *)
From Coq Require Import Reals ZArith List Lia Lra Permutation Sorted.
From Verif Require Import PyBase RMod SpecFloat FloatModel FloatProofs FloatProofs2 FloatProofs3 FloatProofs4.
Import ListNotations.
Local Open Scope R_scope.

(** ** C96: turning the data *)

(** A point given at 15 degrees and turned back by 10 and by 5 degrees is stored at
    [2*np.pi], at the end of the circle and not at its beginning; a further turn by
    nothing moves it to 0. *)
Theorem C96_refuted : forall y : R, exists l : list (R * R),
  load_degrees64 [(15, y)] = Ok l /\
  phase_shift_degrees64 (-5) (phase_shift_degrees64 (-10) l) = [(two_pi64, y)] /\
  phase_shift64 0 [(two_pi64, y)] = [(0, y)].
Proof. intros y. exists [(deg2rad64 15, y)]. apply back_to_zero. Qed.
Print Assumptions C96_refuted.

(** Every small negative angle is sent to [2*np.pi]. *)
Theorem C96_small_negative : forall x : R, double x -> - (1 / 10 ^ 16) < x < 0 -> mod64 x two_pi64 = two_pi64.
Proof. intros x D H. apply tiny_negative; [exact H|apply double_iff; exact D]. Qed.
Print Assumptions C96_small_negative.

(** An angle which is not negative is reduced exactly, and below [2*np.pi]. *)
Theorem C96_exact : forall x : R, double x -> 0 <= x ->
  double (mod64 x two_pi64) /\ 0 <= mod64 x two_pi64 < two_pi64 /\ exists k : Z, x = mod64 x two_pi64 + two_pi64 * IZR k.
Proof.
  intros x D X. destruct (mod64_pos x two_pi64 two_pi64_pos X) as [E B]. split; [|split; [exact B|]].
  - apply mod64_ok. apply double_iff. exact D.
  - rewrite E. destruct (pymod_congr x two_pi64) as (k & H). exists k. lra.
Qed.
Print Assumptions C96_exact.
Example C96_exact_case : exists x, double x /\ 0 <= x /\ two_pi64 < x.
Proof.
  exists 100. split; [|split; [lra|pose proof two_pi64_range; lra]].
  exists 100%Z, 0%Z. split; [cbn; ring|split; [reflexivity|discriminate]].
Qed.

(** [2*np.pi] is below a turn by less than [2.6e-16]. *)
Theorem C96_turn : double two_pi64 /\ two_pi64 + 2 / 10 ^ 16 <= 2 * PI <= two_pi64 + 26 / 10 ^ 17.
Proof. split; [apply double_iff, is64_two_pi|apply two_pi64_bound]. Qed.
Print Assumptions C96_turn.

(** Whatever the data and the turns, the stored angles are doubles from 0 to
    [2*np.pi] in increasing order. *)
Theorem C96_range_partial : forall (l l' : list (R * R)) (turns : list R),
  Forall double (map fst l) -> load64 l = Ok l' ->
  angles_ok two_pi64 (fold_left (fun d a => phase_shift64 a d) turns l').
Proof.
  intros l l' turns F E. destruct (load64_ok l l' F E) as [_ A]. clear E F. revert l' A.
  induction turns as [|a turns IH]; intros l' A; [exact A|]. cbn [fold_left]. apply IH. apply phase_shift_ok.
Qed.
Print Assumptions C96_range_partial.

(** The points after any number of turns are the points before, turned by the sum,
    up to [(|a| + 10) * 2e-16] for each turn [a]; no point is lost. *)
Lemma drift_nonneg turns : 0 <= drift turns.
Proof. induction turns as [|a t IH]; cbn [drift fold_right]; [lra|]. fold (drift t). pose proof (Rabs_pos a). lra. Qed.
Theorem C96_turned_partial : forall (l : list (R * R)) (turns : list R), angles_ok two_pi64 l ->
  turned_by (total turns) (drift turns) l (fold_left (fun d a => phase_shift64 a d) turns l).
Proof.
  intros l turns. revert l. induction turns as [|a turns IH]; intros l A; cbn [fold_left].
  - apply turned_zero. apply drift_nonneg.
  - cbn [total drift fold_right]. eapply turned_trans; [apply phase_shift_turned; exact A|]. apply IH. apply phase_shift_ok.
Qed.
Print Assumptions C96_turned_partial.
(** The same for a turn given in degrees. *)
Theorem C96_turned_degrees_partial : forall (l : list (R * R)) (d : R), angles_ok two_pi64 l ->
  turned_by (d * (PI / 180)) ((Rabs d + 1000) * (8 / 10 ^ 18)) l (phase_shift_degrees64 d l).
Proof.
  intros l d A. eapply turned_weaken; [|apply phase_shift_turned; exact A].
  pose proof (deg2rad_error d). pose proof (deg2rad_size d). pose proof (Rabs_pos d). lra.
Qed.
Print Assumptions C96_turned_degrees_partial.
Example C96_turned_case : angles_ok two_pi64 [(0, 1); (1, 2); (two_pi64, 3)].
Proof.
  pose proof two_pi64_range. split.
  - cbn. repeat constructor; lra.
  - cbn. constructor; [|constructor; [|constructor; [|constructor]]].
    + split; [|lra]. exists 0%Z, 0%Z. split; [cbn; ring|split; [reflexivity|discriminate]].
    + split; [|lra]. exists 1%Z, 0%Z. split; [cbn; ring|split; [reflexivity|discriminate]].
    + split; [apply C96_turn|lra].
Qed.

(** Data given in degrees and read in degrees: every stored point is one of those
    given, with its value, up to whole turns and [(|d| + 1000) * 4e-16] degrees. *)
Theorem C96_degrees : forall l l' : list (R * R), load_degrees64 l = Ok l' ->
  forall q, In q (degrees64 l') -> exists p, In p l /\ snd q = snd p /\
    direction 360 ((Rabs (fst p) + 1000) * (4 / 10 ^ 16)) (fst p) (fst q).
Proof.
  intros l l' E q I. unfold degrees64 in I. apply in_map_iff in I. destruct I as (q' & <- & I).
  destruct (load64_In _ _ _ E I) as (p & J & ->). unfold radians64 in J. apply in_map_iff in J. destruct J as (p' & <- & J).
  exists p'. split; [exact J|]. split; [reflexivity|]. cbn [fst]. apply degrees_direction.
Qed.
Print Assumptions C96_degrees.

(** ** C97: repeated directions *)

(** A direction given as 1 and as 361 degrees is stored twice, at two angles less
    than [1e-15] apart. *)
Theorem C97_refuted : forall y z : R, exists x x' : R,
  load_degrees64 [(1, y); (361, z)] = Ok [(x', z); (x, y)] /\ x' < x /\ x - x' < / 10 ^ 15.
Proof. exact repeated_degree. Qed.
Print Assumptions C97_refuted.

(** Angles already between 0 and [2*np.pi]: the first point at each angle is kept,
    and no other. *)
Theorem C97_first_partial : forall l l' : list (R * R), Forall (fun x => 0 <= x < two_pi64) (map fst l) ->
  load64 l = Ok l' -> NoDup (map fst l') /\ forall p, In p l' <-> first_at l p.
Proof.
  intros l l' F E. destruct (load64_inv l l' E) as [_ ->].
  assert (M : map reduce (remove_dups64 [] l) = remove_dups64 [] l).
  { rewrite <- (map_id (remove_dups64 [] l)) at 2. apply map_ext_in. intros p I. unfold reduce.
    rewrite mod64_small; [symmetry; apply surjective_pairing|]. rewrite Forall_forall in F. apply F. apply in_map.
    apply (remove_dups_In []). exact I. }
  rewrite M. split.
  - eapply Permutation_NoDup; [apply Permutation_map, isort_perm|]. apply dups_nodup. exact F.
  - intros p. rewrite isort_In, (dups_first [] l F p). split; [tauto|]. intros H. split; [intros []|exact H].
Qed.
Print Assumptions C97_first_partial.

(** Directions which differ are never taken for repeated ones: all points are kept. *)
Theorem C97_apart : forall l : list (R * R), l <> [] -> separated l ->
  exists l', load_degrees64 l = Ok l' /\
    Permutation l' (map (fun p => (mod64 (deg2rad64 (fst p)) two_pi64, snd p)) l).
Proof. exact separated_load. Qed.
Print Assumptions C97_apart.

(** A full circle from 0 to 360 degrees: the last point is left out, the others stay. *)
Theorem C97_circle : forall (l : list (R * R)) (y0 y : R), separated l -> In (0, y0) l ->
  load_degrees64 (l ++ [(360, y)]) = load_degrees64 l.
Proof. exact circle. Qed.
Print Assumptions C97_circle.

(** The whole degrees from 0 to 359. *)
Definition whole (n : Z) : R * R := (IZR n, 1).
Example C97_case : separated (map whole (map Z.of_nat (seq 0 360))) /\ In (0, 1) (map whole (map Z.of_nat (seq 0 360))).
Proof.
  assert (G : forall n a, (a + n <= 360)%nat -> ForallOrdPairs (fun p q => apart (/ 10 ^ 10) (fst q) (fst p)) (map whole (map Z.of_nat (seq a n)))).
  { induction n as [|n IH]; intros a H; cbn [seq map]; constructor; [|apply IH; lia].
    apply Forall_forall. intros q I. rewrite map_map in I. apply in_map_iff in I. destruct I as (m & <- & I). apply in_seq in I.
    intros k. unfold whole. cbn [fst]. rewrite <- minus_IZR, <- mult_IZR, <- minus_IZR, <- abs_IZR.
    apply Rle_trans with 1; [lra|]. apply IZR_le. lia. }
  split; [split|].
  - apply Forall_forall. intros q I. rewrite map_map in I. apply in_map_iff in I. destruct I as (m & <- & I). apply in_seq in I.
    unfold whole. cbn [fst]. rewrite <- abs_IZR. apply IZR_le. lia.
  - apply G. lia.
  - apply (in_map whole _ 0%Z). apply (in_map Z.of_nat _ 0%nat). apply in_seq. lia.
Qed.
