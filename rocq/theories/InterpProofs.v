(** Linear interpolation: the values it takes, and the requirements it meets. *)
From Coq Require Import String List Arith ZArith Reals Lra Lia Bool Sorted Permutation.
From Coquelicot Require Import Complex.
From Verif Require Import PyBase RMod CBase DataModel SpecData DataProofs DataProofs2 FDataModel SpecFData FDataProofs FDataProofs2
  LsqProofs SpecLin InterpModel SpecInterp.
Import ListNotations.
Open Scope R_scope.

Notation strict := (StronglySorted (fun a b : R * R => fst a < fst b)).

Lemma segment_two q1 q2 rest x : segment (q1 :: q2 :: rest) x =
  if match rest with [] => true | _ => negb (Rltb (fst q2) x) end then chord q1 q2 x else segment (q2 :: rest) x.
Proof. cbn [segment]. destruct (match rest with [] => true | _ => _ end); [unfold chord; ring|reflexivity]. Qed.

Lemma strict_tail a p : strict (a :: p) -> strict p.
Proof. intros S. now inversion S. Qed.
Lemma strict_head a p b : strict (a :: p) -> In b p -> fst a < fst b.
Proof. intros S I. inversion S as [|? ? _ F]; subst. rewrite Forall_forall in F. exact (F b I). Qed.
Lemma strict_app l1 q1 l : strict (l1 ++ q1 :: l) -> forall b, In b l1 -> fst b < fst q1.
Proof.
  induction l1 as [|a l1 IH]; intros S b I; [destruct I|]. cbn [List.app] in S. destruct I as [<-|I].
  - apply (strict_head _ _ _ S). apply in_or_app. right. left. reflexivity.
  - exact (IH (strict_tail _ _ S) b I).
Qed.

Lemma chord_left q1 q2 : chord q1 q2 (fst q1) = snd q1.
Proof. unfold chord. ring. Qed.
Lemma chord_right q1 q2 : fst q1 < fst q2 -> chord q1 q2 (fst q2) = snd q2.
Proof. intros L. unfold chord. field. lra. Qed.

(** at most one value: the interpolator takes the one of the polygon *)
Lemma segment_polygon p x y : strict p -> polygon p x y -> segment p x = y.
Proof.
  intros S (l1 & q1 & q2 & l2 & -> & A & B & ->). revert S A. induction l1 as [|q l1 IH]; intros S A.
  - cbn [List.app]. rewrite segment_two. destruct l2 as [|q3 l2]; [reflexivity|].
    destruct B as [B|B]; [discriminate|]. replace (Rltb (fst q2) x) with false by (symmetry; apply Rltb_false; exact B). reflexivity.
  - destruct A as [A|A]; [discriminate|]. pose proof (strict_tail _ _ S) as S'. destruct l1 as [|r l1].
    + cbn [List.app] in *. rewrite segment_two. cbn [negb].
      destruct (Rltb (fst q1) x) eqn:E; cbn [negb].
      * apply IH; [exact S'|left; reflexivity].
      * apply Rltb_false in E. assert (x = fst q1) as -> by lra.
        rewrite chord_left. apply chord_right. apply (strict_head _ _ _ S). left; reflexivity.
    + cbn [List.app] in *. rewrite segment_two.
      assert (L : fst r < fst q1) by (apply (strict_app (r :: l1) q1 (q2 :: l2) S'); left; reflexivity).
      replace (Rltb (fst r) x) with true by (symmetry; apply Rltb_true; lra). cbn [negb].
      destruct (l1 ++ q1 :: q2 :: l2) eqn:E; [destruct l1; discriminate|]. rewrite <- E in *. apply IH; [exact S'|right; exact A].
Qed.
Lemma polygon_total p x : (2 <= length p)%nat -> polygon p x (segment p x).
Proof.
  induction p as [|q1 p IH]; cbn [length]; intros L; [lia|]. destruct p as [|q2 rest]; cbn [length] in L; [lia|].
  rewrite segment_two. destruct rest as [|q3 rest].
  - exists [], q1, q2, []. split; [reflexivity|]. split; [left; reflexivity|]. split; [left; reflexivity|reflexivity].
  - destruct (Rltb (fst q2) x) eqn:E; cbn [negb].
    + apply Rltb_true in E. destruct IH as (l1 & u1 & u2 & l2 & P & A & B & V); [cbn [length]; lia|].
      exists (q1 :: l1), u1, u2, l2. split; [cbn [List.app]; now rewrite <- P|]. split; [|split; [exact B|exact V]].
      right. destruct A as [-> |A]; [|exact A]. cbn [List.app] in P. injection P as <- _. lra.
    + apply Rltb_false in E. exists [], q1, q2, (q3 :: rest). split; [reflexivity|]. split; [left; reflexivity|]. split; [right; exact E|reflexivity].
Qed.

Lemma strict_repeated p : strict p -> repeated p = false.
Proof.
  induction p as [|q1 p IH]; intros S; [reflexivity|]. destruct p as [|q2 p]; [reflexivity|]. cbn [repeated].
  rewrite (proj2 (Reqb_false _ _)).
  - cbn [orb]. exact (IH (strict_tail _ _ S)).
  - intros E. pose proof (strict_head _ _ q2 S (or_introl eq_refl)). lra.
Qed.
Lemma repeated_strict p : StronglySorted le_x p -> repeated p = false -> strict p.
Proof.
  induction p as [|q1 p IH]; intros S N; constructor.
  - apply IH; [now inversion S|]. destruct p as [|q2 p]; [reflexivity|]. cbn [repeated] in N. apply orb_false_iff in N. exact (proj2 N).
  - inversion S as [|? ? S' F]; subst. rewrite Forall_forall in F. destruct p as [|q2 p]; [constructor|].
    cbn [repeated] in N. apply orb_false_iff in N as [N _]. apply Reqb_false in N.
    pose proof (F q2 (or_introl eq_refl)) as F2. unfold le_x in F2.
    inversion S' as [|? ? _ F']; subst. rewrite Forall_forall in F'. apply Forall_forall. intros b [<-|I]; [lra|].
    pose proof (F' b I) as G. unfold le_x in G. lra.
Qed.
Lemma nodup_strict p : StronglySorted le_x p -> NoDup (map fst p) -> strict p.
Proof.
  induction p as [|q p IH]; intros S N; constructor; inversion S as [|? ? S' F]; inversion N as [|? ? NI N']; subst.
  - exact (IH S' N').
  - rewrite Forall_forall in *. intros b I. pose proof (F b I) as L. unfold le_x in L.
    destruct (Req_dec (fst q) (fst b)) as [E|]; [|lra]. destruct NI. rewrite E. apply in_map. exact I.
Qed.
Lemma isort_strict p : NoDup (map fst p) -> strict (isort p).
Proof.
  intros N. apply nodup_strict; [apply isort_sorted|]. apply (Permutation_NoDup (l := map fst p)); [|exact N].
  apply Permutation_map. apply isort_perm.
Qed.
Lemma linear_nodup p : p <> [] -> NoDup (map fst p) -> linear p = Ok (segment (isort p)).
Proof.
  intros E N. destruct p as [|q p]; [contradiction|]. unfold linear. rewrite (strict_repeated _ (isort_strict _ N)). reflexivity.
Qed.
Lemma strict_sorted p : strict p -> isort p = p.
Proof.
  intros S. apply isort_sorted_id. induction S as [|a p S IH F]; constructor; [exact IH|].
  rewrite Forall_forall in *. intros b I. unfold le_x. pose proof (F b I). lra.
Qed.
Lemma linear_strict p : p <> [] -> strict p -> linear p = Ok (segment p).
Proof.
  intros E S. destruct p as [|q p]; [contradiction|]. unfold linear. rewrite (strict_sorted _ S), (strict_repeated _ S). reflexivity.
Qed.
Lemma linear_inv p g : linear p = Ok g -> p <> [] /\ repeated (isort p) = false /\ g = segment (isort p).
Proof.
  unfold linear. destruct p as [|q p]; [discriminate|]. destruct (repeated (isort (q :: p))); [discriminate|].
  intros H. split; [discriminate|]. split; [reflexivity|]. congruence.
Qed.

Lemma segment_node p q : strict p -> In q p -> segment p (fst q) = snd q.
Proof.
  intros S I. apply in_split in I as (l1 & l2 & ->). destruct l2 as [|q2 l2].
  - destruct l1 as [|r l1] using rev_ind; [reflexivity|]. clear IHl1. rewrite <- app_assoc in *. cbn [List.app] in *.
    apply segment_polygon; [exact S|]. exists l1, r, q, []. split; [reflexivity|].
    assert (L : fst r < fst q) by (apply (strict_app (l1 ++ [r]) q []); [rewrite <- app_assoc; exact S|apply in_or_app; right; left; reflexivity]).
    split; [right; lra|]. split; [left; reflexivity|]. symmetry. apply chord_right. exact L.
  - apply segment_polygon; [exact S|]. exists l1, q, q2, l2. split; [reflexivity|]. split; [right; lra|].
    assert (L : fst q < fst q2).
    { clear - S. induction l1 as [|a l1 IH]; [apply (strict_head _ _ _ S); left; reflexivity|]. apply IH. exact (strict_tail _ _ S). }
    split; [right; lra|]. symmetry. apply chord_left.
Qed.

Lemma linear_exact : exact_at_nodes linear.
Proof.
  intros p g x y N E I. apply linear_inv in E as (_ & _ & ->). apply (segment_node (isort p) (x, y)); [apply isort_strict; exact N|].
  apply isort_In. exact I.
Qed.
Lemma linear_accepts n : (0 < n)%nat -> accepts linear n.
Proof. intros P p L N. eexists. apply linear_nodup; [|exact N]. intros ->. cbn in L. lia. Qed.

(** sorting looks only at the abscissas *)
Lemma insert_lincomb a b u w : forall p q, map fst p = map fst q -> fst u = fst w ->
  insert (fst u, a * snd u + b * snd w) (lincomb a b p q) = lincomb a b (insert u p) (insert w q) /\ map fst (insert u p) = map fst (insert w q).
Proof.
  induction p as [|c p IH]; intros [|e q] E F; try discriminate E.
  - cbn. now rewrite F.
  - cbn [map] in E. injection E as E0 E. change (lincomb a b (c :: p) (e :: q)) with ((fst c, a * snd c + b * snd e) :: lincomb a b p q).
    cbn [insert fst]. rewrite F, E0.
    match goal with |- context [if ?t then _ else _] => destruct t end.
    + split; [|cbn [map]; now rewrite E0, E, F]. unfold lincomb. cbn [combine map fst snd]. now rewrite F, E0.
    + destruct (IH q E F) as [I1 I2]. split; [|cbn [map]; now rewrite E0, I2]. rewrite F in I1.
      change (lincomb a b (c :: insert u p) (e :: insert w q)) with ((fst c, a * snd c + b * snd e) :: lincomb a b (insert u p) (insert w q)).
      rewrite E0. now rewrite <- I1.
Qed.
Lemma isort_lincomb a b : forall p q, map fst p = map fst q ->
  isort (lincomb a b p q) = lincomb a b (isort p) (isort q) /\ map fst (isort p) = map fst (isort q).
Proof.
  induction p as [|c p IH]; intros [|e q] E; try discriminate E; [split; reflexivity|]. cbn [map] in E. injection E as E0 E.
  destruct (IH q E) as [I1 I2]. change (lincomb a b (c :: p) (e :: q)) with ((fst c, a * snd c + b * snd e) :: lincomb a b p q).
  cbn [isort]. rewrite I1. apply insert_lincomb; assumption.
Qed.
Lemma segment_lincomb a b x : forall p q, map fst p = map fst q ->
  segment (lincomb a b p q) x = a * segment p x + b * segment q x.
Proof.
  induction p as [|c p IH]; intros [|e q] E; try discriminate E; [cbn; ring|]. cbn [map] in E. injection E as E0 E.
  change (lincomb a b (c :: p) (e :: q)) with ((fst c, a * snd c + b * snd e) :: lincomb a b p q).
  destruct p as [|c2 p]; destruct q as [|e2 q]; try discriminate E; [reflexivity|].
  change (lincomb a b (c2 :: p) (e2 :: q)) with ((fst c2, a * snd c2 + b * snd e2) :: lincomb a b p q).
  rewrite !segment_two. cbn [fst snd].
  change ((fst c2, a * snd c2 + b * snd e2) :: lincomb a b p q) with (lincomb a b (c2 :: p) (e2 :: q)).
  rewrite (IH (e2 :: q) E). cbn [map] in E. injection E as E2 E.
  assert (T : match lincomb a b p q with [] => true | _ => negb (Rltb (fst c2) x) end = match p with [] => true | _ => negb (Rltb (fst c2) x) end)
    by (destruct p, q; try discriminate E; reflexivity).
  assert (U : match q with [] => true | _ => negb (Rltb (fst e2) x) end = match p with [] => true | _ => negb (Rltb (fst c2) x) end)
    by (rewrite E2; destruct p, q; try discriminate E; reflexivity).
  rewrite T, U. destruct (match p with [] => true | _ => _ end); [|reflexivity].
  unfold chord. cbn [fst snd]. rewrite E0, E2. unfold Rdiv. ring.
Qed.
Lemma repeated_fst : forall p q, map fst p = map fst q -> repeated p = repeated q.
Proof.
  induction p as [|c p IH]; intros [|e q] E; try discriminate E; [reflexivity|]. cbn [map] in E. injection E as E0 E.
  pose proof (IH q E) as I. destruct p as [|c2 p]; destruct q as [|e2 q]; try discriminate E; [reflexivity|].
  cbn [repeated]. cbn [repeated] in I. rewrite I. cbn [map] in E. injection E as E2 _. now rewrite E0, E2.
Qed.
Lemma lincomb_fst a b : forall p q, map fst p = map fst q -> map fst (lincomb a b p q) = map fst p.
Proof.
  induction p as [|c p IH]; intros [|e q] E; try discriminate E; [reflexivity|]. cbn [map] in E. injection E as E0 E.
  change (lincomb a b (c :: p) (e :: q)) with ((fst c, a * snd c + b * snd e) :: lincomb a b p q). cbn [map fst]. now rewrite IH.
Qed.
Lemma linear_linear : linear_interp linear.
Proof.
  intros a b p q g h E G H. apply linear_inv in G as (NE & R & ->). apply linear_inv in H as (_ & _ & ->).
  destruct (isort_lincomb a b p q E) as [I J].
  exists (segment (isort (lincomb a b p q))). split.
  - unfold linear. rewrite I. rewrite (repeated_fst _ (isort p)) by (apply lincomb_fst; exact J). rewrite R.
    destruct p as [|c p]; [contradiction|]. destruct q as [|e q]; [discriminate E|]. reflexivity.
  - intros x. rewrite I. apply segment_lincomb. exact J.
Qed.
Lemma linear_by_angles : by_angles linear.
Proof.
  intros p q E [g G]. apply linear_inv in G as (NE & R & _). eexists. unfold linear.
  rewrite <- (repeated_fst (isort p) (isort q)), R by (exact (proj2 (isort_lincomb 1 1 p q E))).
  destruct q as [|e q]; [destruct p; [contradiction|discriminate E]|]. reflexivity.
Qed.
Lemma segment_const c x : forall p, p <> [] -> (forall q, In q p -> snd q = c) -> segment p x = c.
Proof.
  induction p as [|q1 p IH]; intros NE A; [contradiction|]. destruct p as [|q2 p]; [apply A; left; reflexivity|].
  rewrite segment_two. destruct (match p with [] => true | _ => _ end).
  - unfold chord. rewrite (A q1), (A q2) by (cbn [In]; tauto). unfold Rdiv. ring.
  - apply IH; [discriminate|]. intros q I. apply A. right. exact I.
Qed.
Lemma linear_constants : keeps_constants linear.
Proof.
  intros p c g x NE A G. apply linear_inv in G as (_ & _ & ->). apply segment_const.
  - intros E. apply NE. apply length_zero_iff_nil. rewrite <- (isort_length p), E. reflexivity.
  - intros q I. apply A. apply isort_In. exact I.
Qed.
