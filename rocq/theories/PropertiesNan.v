(** C131: data with missing values. *)
From Coq Require Import Reals ZArith List String Bool Lra Lia Permutation.
From Coquelicot Require Import Rbar.
From Flocq Require Import Core IEEE754.BinarySingleNaN.
From Verif Require Import PyBase NanModel SpecNan NanProofs.
Import ListNotations.
Local Open Scope nat_scope.

(** The extremes reported are those of the polarizations that begin with a number. *)
Theorem C131_extremes : forall d, (forall k v, In (k, v) (nd_data d) -> v <> []) ->
  (exists o m, get_maxval d = Ok (o, m) /\ found below under (nd_data d) (inf true) o m) /\
  exists o m, get_minval d = Ok (o, m) /\ found (fun x y => below y x) (fun x y => under y x) (nd_data d) (inf false) o m.
Proof. intros d H. split; [exact (max_spec (nd_data d) H)|exact (min_spec (nd_data d) H)]. Qed.
Print Assumptions C131_extremes.
(** So if all of them do, missing values are ignored. *)
Theorem C131_ignored_partial : forall d, (forall k v, In (k, v) (nd_data d) -> begins_well v) ->
  exists o m o' m', get_maxval d = Ok (o, m) /\ get_minval d = Ok (o', m') /\ number m /\ number m' /\
    forall k v y, In (k, v) (nd_data d) -> In y (map snd v) -> number y -> below y m /\ below m' y.
Proof.
  intros d H. destruct (C131_extremes d) as [(o & m & E & N & _ & U & _) (o' & m' & E' & N' & _ & U' & _)].
  { intros k v I. destruct (H k v I) as (a & y & v' & -> & _). discriminate. }
  exists o, m, o', m'. split; [exact E|]. split; [exact E'|]. split; [exact N|]. split; [exact N'|].
  intros k v y I Iy Ny. split; [exact (U k v y I (H k v I) Iy Ny)|exact (U' k v y I (H k v I) Iy Ny)].
Qed.
Print Assumptions C131_ignored_partial.
(** If all begin with a missing value, normalizing succeeds and sets every
    measurement to zero, and subtracting the minimum sets it to minus infinity. *)
Theorem C131_wiped : forall d, (forall k v, In (k, v) (nd_data d) -> begins_missing v) ->
  (forall desired, is_finite desired = true -> exists d', normalize_data d desired = (d', Ok tt) /\ exists f, nd_data d' = map_y f (nd_data d) /\
     (forall y, is_finite y = true -> wiped (f y)) /\ (forall y, is_finite y = false -> f y = B754_nan) /\ (is_finite (nd_scale d) = true -> wiped (nd_scale d'))) /\
  exists d', subtract_min d = (d', Ok tt) /\ exists f, nd_data d' = map_y f (nd_data d) /\ (forall y, is_finite y = true -> f y = inf true) /\
    nd_scale d' = nd_scale d /\ (is_finite (nd_offset d) = true -> nd_offset d' = inf true).
Proof. intros d H. split; [intros desired; exact (normalize_wipes d desired H)|exact (subtract_sinks d H)]. Qed.
Print Assumptions C131_wiped.
(** If the minimum is finite, subtracting it leaves missing values missing and moves all
    others, and the recorded offset, by the minimum. *)
Theorem C131_subtract : forall d o m, get_minval d = Ok (o, m) -> is_finite m = true ->
  exists d', subtract_min d = (d', Ok tt) /\ exists f, nd_data d' = map_y f (nd_data d) /\ f B754_nan = B754_nan /\ wiped (f m) /\
    nd_scale d' = nd_scale d /\ nd_offset d' = f (nd_offset d) /\
    forall y, is_finite y = true -> (Rabs (round radix2 (SpecFloat.fexp 53 1024) ZnearestE (B2R y - B2R m)) < bpow radix2 1024)%R ->
      is_finite (f y) = true /\ B2R (f y) = round radix2 (SpecFloat.fexp 53 1024) ZnearestE (B2R y - B2R m).
Proof. exact subtract_moves. Qed.
Print Assumptions C131_subtract.
(** Data whose maximum is zero: every zero becomes a missing value and every negative
    value minus infinity, without an exception; unless the zero has a minus sign. *)
Theorem C131_zero : forall d desired o s, is_finite desired = true -> (0 < B2R desired)%R -> get_maxval d = Ok (o, B754_zero s) ->
  (s = true -> normalize_data d desired = (d, Raise ValueError)) /\
  (s = false -> exists d', normalize_data d desired = (d', Ok tt) /\ exists f, nd_data d' = map_y f (nd_data d) /\ nd_scale d' = mult (nd_scale d) (inf false) /\
    (forall t, f (B754_zero t) = B754_nan) /\ forall y, is_finite y = true -> (B2R y < 0)%R -> f y = inf true).
Proof. exact normalize_zero. Qed.
Print Assumptions C131_zero.
(** A missing scale factor is accepted and loses all data. *)
Theorem C131_scale : forall d, exists d', scale_data d B754_nan = (d', Ok tt) /\ nd_data d' = map_y (fun _ => B754_nan) (nd_data d) /\ nd_scale d' = B754_nan.
Proof. exact scale_nan. Qed.
Print Assumptions C131_scale.

(** It matters which of the values is missing: 1, 2, nan is normalized to 1/2, 1, nan
    and nan, 1, 2 to nan, 0, 0. *)
Definition one : b64 := Bone.
Definition two : b64 := Bplus mode_NE Bone Bone.
Definition dlast : ndat := mkndat [("PP"%string, [(0%R, one); (1%R, two); (2%R, B754_nan)])] one zero.
Definition dfirst : ndat := mkndat [("PP"%string, [(0%R, B754_nan); (1%R, one); (2%R, two)])] one zero.
Theorem C131_ignored_refuted : exists d d' k v v', nd_data d = [(k, v)] /\ nd_data d' = [(k, v')] /\ Permutation (map snd v) (map snd v') /\
  snd (normalize_data d one) = Ok tt /\ snd (normalize_data d' one) = Ok tt /\
  (exists w, nd_data (fst (normalize_data d one)) = [(k, w)] /\ In one (map snd w)) /\
  (exists w', nd_data (fst (normalize_data d' one)) = [(k, w')] /\ forall y, In y (map snd w') -> y = B754_nan \/ wiped y) /\
  (exists y, In y (map snd v) /\ B2R y = 1%R).
Proof.
  exists dlast, dfirst, "PP"%string. eexists. eexists. split; [reflexivity|]. split; [reflexivity|].
  split; [cbn [map snd]; apply Permutation_sym; exact (Permutation_cons_append [one; two] B754_nan)|].
  split; [reflexivity|]. split; [reflexivity|]. split; [|split].
  - eexists. split; [reflexivity|]. right. left. apply B2SF_inj. reflexivity.
  - assert (B : forall k v, In (k, v) (nd_data dfirst) -> begins_missing v) by (intros k v [X|[]]; injection X as <- <-; eexists _, _; reflexivity).
    destruct (normalize_wipes dfirst one B eq_refl) as (d' & E & f & D & F & G & _). rewrite E. cbn [fst]. rewrite D. eexists. split; [reflexivity|].
    cbn [map_y map snd fst]. intros y [<-|[<-|[<-|[]]]]; [left; apply G; reflexivity|right; apply F; reflexivity|right; apply F; reflexivity].
  - exists one. split; [left; reflexivity|]. exact (Bone_correct 53 1024 _ _).
Qed.
Print Assumptions C131_ignored_refuted.
(** The hypotheses of the theorems are met. *)
Example C131_case : (forall k v, In (k, v) (nd_data dlast) -> begins_well v) /\ (forall k v, In (k, v) (nd_data dfirst) -> begins_missing v) /\
  get_maxval (mkndat [("PP"%string, [(0%R, Bopp two); (1%R, zero)])] one zero) = Ok (Some "PP"%string, B754_zero false) /\ is_finite one = true /\ (0 < B2R one)%R /\
  (exists o m, get_minval dlast = Ok (o, m) /\ is_finite m = true).
Proof.
  split; [intros k v [X|[]]; injection X as <- <-; eexists _, _, _; split; [reflexivity|reflexivity]|].
  split; [intros k v [X|[]]; injection X as <- <-; eexists _, _; reflexivity|]. split; [vm_compute; reflexivity|].
  split; [reflexivity|]. split; [unfold one; rewrite (Bone_correct 53 1024 _ _); lra|]. eexists _, _. split; reflexivity.
Qed.
