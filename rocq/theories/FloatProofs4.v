(** Particular numbers, and directions given in degrees. *)
From Coq Require Import Reals ZArith List Lia Lra Permutation Sorted.
From Flocq Require Import Core.
From Verif Require Import PyBase RMod PiBounds SpecFloat FloatModel FloatProofs FloatProofs2 FloatProofs3.
Import ListNotations.
Local Open Scope R_scope.

Ltac powers :=
  change (bpow radix2 (-58)) with (/ IZR 288230376151711744) in *;
  change (bpow radix2 (-59)) with (/ IZR 576460752303423488) in *;
  change (bpow radix2 (-57)) with (/ IZR 144115188075855872) in *;
  change (bpow radix2 (-56)) with (/ IZR 72057594037927936) in *;
  change (bpow radix2 (-55)) with (/ IZR 36028797018963968) in *;
  change (bpow radix2 (-54)) with (/ IZR 18014398509481984) in *;
  change (bpow radix2 (-51)) with (/ IZR 2251799813685248) in *;
  change (bpow radix2 (-50)) with (/ IZR 1125899906842624) in *.
(** [rnd x] is the double [m * 2 ^ e]. *)
Ltac rounds m e := rewrite (rnd_eq _ m e); [powers|split; reflexivity|discriminate|
  unfold cdeg; match goal with |- context [bpow radix2 (?a - ?b)] => let c := eval vm_compute in (a - b)%Z in change (a - b)%Z with c end;
  powers; apply Rabs_def1; lra].

Lemma deg_15 : deg2rad64 15 = 4716158501352293 / 18014398509481984.
Proof. unfold deg2rad64. rewrite cdeg_eq. rounds 4716158501352293%Z (-54)%Z. lra. Qed.
Lemma deg_5 : deg2rad64 5 = 6288211335136391 / 72057594037927936.
Proof. unfold deg2rad64. rewrite cdeg_eq. rounds 6288211335136391%Z (-56)%Z. lra. Qed.
Lemma deg_10 : deg2rad64 10 = 6288211335136391 / 36028797018963968.
Proof. unfold deg2rad64. rewrite cdeg_eq. rounds 6288211335136391%Z (-55)%Z. lra. Qed.
Lemma deg_opp d : deg2rad64 (- d) = - deg2rad64 d.
Proof. unfold deg2rad64. rewrite <- rnd_opp. f_equal. ring. Qed.
Lemma deg_0 : deg2rad64 0 = 0.
Proof. unfold deg2rad64. rewrite Rmult_0_l. apply rnd_id, is64_0. Qed.
Lemma deg_360 : deg2rad64 360 = two_pi64.
Proof. unfold deg2rad64. rewrite cdeg_eq, two_pi64_F. rounds 7074237752028440%Z (-50)%Z. reflexivity. Qed.
Lemma deg_1 : deg2rad64 1 = cdeg.
Proof.
  unfold deg2rad64. rewrite cdeg_eq, Rmult_1_l. apply rnd_id. unfold cdeg.
  replace (5030569068109113 / 288230376151711744) with (IZR 5030569068109113 * bpow radix2 (-58)) by (powers; lra).
  apply is64_F2R; [reflexivity|discriminate].
Qed.
Lemma deg_361 : deg2rad64 361 = 7093888412450741 / 1125899906842624.
Proof. unfold deg2rad64. rewrite cdeg_eq. rounds 7093888412450741%Z (-50)%Z. lra. Qed.

(** One point at 15 degrees, turned back by 10 and by 5 degrees. *)
Lemma one_step a x y z : 0 < rnd (x + a) < two_pi64 -> rnd (x + a) = z -> phase_shift64 a [(x, y)] = [(z, y)].
Proof. intros H <-. unfold phase_shift64. cbn [map isort insert fst snd]. rewrite mod64_small by lra. reflexivity. Qed.
Lemma load_one x y : double x -> 0 <= x < two_pi64 -> load64 [(x, y)] = Ok [(x, y)].
Proof.
  intros D H. unfold load64. cbn [remove_dups64 mem existsb map isort insert fst snd]. rewrite mod64_small by lra. reflexivity.
Qed.
Lemma fmod_small x y : 0 < y -> Rabs x < y -> fmod x y = x.
Proof.
  intros P H. unfold fmod. replace (Ztrunc (x / y)) with 0%Z; [ring|]. symmetry.
  assert (E : x = y * (x / y)) by (field; lra). apply Rabs_def2 in H.
  destruct (Rle_lt_dec 0 x) as [X|X].
  - assert (Q : 0 <= x / y) by (apply Rmult_le_pos; [lra|left; apply Rinv_0_lt_compat; lra]).
    rewrite Ztrunc_floor by exact Q. apply Zfloor_imp. cbn [Z.add IZR]. split; [exact Q|]. nra.
  - assert (Q : x / y < 0) by nra. rewrite Ztrunc_ceil by lra. apply Zceil_imp. split; [|lra].
    replace (IZR (0 - 1)) with (-1) by reflexivity. nra.
Qed.
Lemma tiny_negative x : - (1 / 10 ^ 16) < x < 0 -> is64 x -> mod64 x two_pi64 = two_pi64.
Proof.
  intros H X. pose proof two_pi64_range as T. unfold mod64. cbv zeta.
  rewrite fmod_small; [|lra|rewrite Rabs_left; lra]. unfold Rltb. destruct (Rlt_dec x 0); [|lra].
  rewrite two_pi64_F at 1. rounds 7074237752028440%Z (-50)%Z. rewrite two_pi64_num. lra.
Qed.
Lemma back_to_zero y :
  load_degrees64 [(15, y)] = Ok [(deg2rad64 15, y)] /\
  phase_shift_degrees64 (-5) (phase_shift_degrees64 (-10) [(deg2rad64 15, y)]) = [(two_pi64, y)] /\
  phase_shift64 0 [(two_pi64, y)] = [(0, y)].
Proof.
  pose proof two_pi64_range as T. split; [|split].
  - unfold load_degrees64, radians64. cbn [map fst snd]. apply load_one; [apply double_iff, rnd_is64|rewrite deg_15; lra].
  - assert (E5 : deg2rad64 (-5) = - (6288211335136391 / 72057594037927936)).
    { replace (-5) with (- (5)) by ring. rewrite deg_opp, deg_5. reflexivity. }
    assert (E10 : deg2rad64 (-10) = - (6288211335136391 / 36028797018963968)).
    { replace (-10) with (- (10)) by ring. rewrite deg_opp, deg_10. reflexivity. }
    assert (S : rnd (deg2rad64 15 + deg2rad64 (-10)) = 6288211335136390 / 72057594037927936).
    { rewrite deg_15, E10. rounds 6288211335136390%Z (-56)%Z. lra. }
    unfold phase_shift_degrees64. rewrite (one_step (deg2rad64 (-10)) _ y _ ltac:(rewrite S; lra) S).
    assert (D : rnd (6288211335136390 / 72057594037927936 + deg2rad64 (-5)) = - bpow radix2 (-56)).
    { rewrite E5. replace (6288211335136390 / 72057594037927936 + - (6288211335136391 / 72057594037927936)) with (- bpow radix2 (-56)) by (powers; lra).
      apply rnd_id, is64_opp. replace (bpow radix2 (-56)) with (IZR 1 * bpow radix2 (-56)) by ring. apply is64_F2R; [reflexivity|discriminate]. }
    unfold phase_shift64. cbn [map isort insert fst snd]. rewrite D, tiny_negative; [reflexivity|powers; lra|rewrite <- D; apply rnd_is64].
  - unfold phase_shift64. cbn [map isort insert fst snd]. rewrite Rplus_0_r, (rnd_id two_pi64 is64_two_pi), mod64_self by lra. reflexivity.
Qed.

(** 1 and 361 degrees *)
Lemma repeated_degree y z :
  exists x x', load_degrees64 [(1, y); (361, z)] = Ok [(x', z); (x, y)] /\ x' < x /\ x - x' < / 10 ^ 15.
Proof.
  pose proof two_pi64_range as T. exists cdeg, (19650660422301 / 1125899906842624).
  assert (A : mod64 cdeg two_pi64 = cdeg) by (apply mod64_small; unfold cdeg; lra).
  assert (B : mod64 (7093888412450741 / 1125899906842624) two_pi64 = 19650660422301 / 1125899906842624).
  { destruct (mod64_pos (7093888412450741 / 1125899906842624) two_pi64 ltac:(lra) ltac:(lra)) as [-> _].
    apply (pymod_unique _ _ _ 1); [lra|lra|]. rewrite two_pi64_num. lra. }
  split; [|unfold cdeg; lra].
  unfold load_degrees64, radians64. cbn [map fst snd]. rewrite deg_1, deg_361.
  unfold load64. cbn [remove_dups64 mem existsb app]. rewrite B.
  assert (N : Reqb (19650660422301 / 1125899906842624) cdeg = false) by (apply Reqb_false; unfold cdeg; lra).
  rewrite N. cbn [orb map fst snd]. rewrite A, B. cbn [isort insert fst].
  match goal with |- context [if ?b then _ else _] => destruct b as [L|L] end; [|reflexivity].
  exfalso. revert L. unfold cdeg. cbn [fst]. lra.
Qed.

(** Directions that are apart are not confused. *)
Lemma apart_kept (p q : R * R) : Rabs (fst p) <= 100000 -> Rabs (fst q) <= 100000 -> apart (/ 10 ^ 10) (fst q) (fst p) ->
  mod64 (deg2rad64 (fst q)) two_pi64 <> deg2rad64 (fst p).
Proof.
  intros P Q A E. destruct (stored_direction (fst q)) as (k & D). rewrite E in D. pose proof (deg2rad_error (fst p)) as D'.
  specialize (A k). pose proof pi_bounds as B.
  assert (S : (fst q - fst p - 360 * IZR k) * (PI / 180) = - (deg2rad64 (fst p) - (fst q * (PI / 180) - 2 * PI * IZR k)) + (deg2rad64 (fst p) - fst p * (PI / 180))) by field.
  apply (f_equal Rabs) in S. rewrite Rabs_mult, (Rabs_pos_eq (PI / 180)) in S by lra.
  pose proof (Rabs_triang (- (deg2rad64 (fst p) - (fst q * (PI / 180) - 2 * PI * IZR k))) (deg2rad64 (fst p) - fst p * (PI / 180))) as Tr.
  rewrite <- S, Rabs_Ropp in Tr.
  assert (/ 10 ^ 10 * (PI / 180) <= Rabs (fst q - fst p - 360 * IZR k) * (PI / 180)) by (apply Rmult_le_compat_r; lra).
  lra.
Qed.

Lemma ForallOrdPairs_split {A} (P : A -> A -> Prop) l : ForallOrdPairs P l ->
  forall l1 p l2 q l3, l = l1 ++ p :: l2 ++ q :: l3 -> P p q.
Proof.
  induction 1 as [|a l F O IH]; intros l1 p l2 q l3 E; [destruct l1; discriminate|].
  destruct l1 as [|b l1]; injection E as E1 E2.
  - subst. rewrite Forall_forall in F. apply F. apply in_or_app. right. left. reflexivity.
  - eapply IH. exact E2.
Qed.
Lemma separated_kept l : separated l -> remove_dups64 [] (radians64 l) = radians64 l.
Proof.
  intros [F O]. apply dups_kept; [intros x _ []|]. intros l1 p l2 q l3 E.
  unfold radians64 in E.
  assert (G : forall (f : R * R -> R * R) m (a b c : list (R * R)) p q, map f m = a ++ p :: b ++ q :: c -> exists a' p' b' q' c', m = a' ++ p' :: b' ++ q' :: c' /\ f p' = p /\ f q' = q).
  { intros f m a b c u v H. apply map_eq_app in H. destruct H as (a' & r & -> & _ & H).
    destruct r as [|p' r]; [discriminate|]. injection H as H1 H2. apply map_eq_app in H2. destruct H2 as (b' & r' & -> & _ & H2).
    destruct r' as [|q' r']; [discriminate|]. injection H2 as H3 _. exists a', p', b', q', r'. auto. }
  destruct (G _ _ _ _ _ _ _ E) as (a & p' & b & q' & c & -> & <- & <-). cbn [fst].
  rewrite Forall_forall in F. apply apart_kept.
  - apply F. apply in_or_app. right. left. reflexivity.
  - apply F. apply in_or_app. right. right. apply in_or_app. right. left. reflexivity.
  - eapply (ForallOrdPairs_split _ _ O). reflexivity.
Qed.
Lemma separated_load l : l <> [] -> separated l ->
  exists l', load_degrees64 l = Ok l' /\ Permutation l' (map (fun p => (mod64 (deg2rad64 (fst p)) two_pi64, snd p)) l).
Proof.
  intros N S. exists (isort (map reduce (radians64 l))). unfold load_degrees64. split.
  - rewrite load64_Ok; rewrite separated_kept by exact S; [reflexivity|]. destruct l; [congruence|discriminate].
  - eapply perm_trans; [apply Permutation_sym, isort_perm|]. unfold radians64. rewrite map_map. apply Permutation_refl.
Qed.
Lemma circle l y0 y : separated l -> In (0, y0) l -> load_degrees64 (l ++ [(360, y)]) = load_degrees64 l.
Proof.
  intros S I. unfold load_degrees64, load64, radians64. rewrite map_app, remove_dups_app.
  fold (radians64 l). rewrite (separated_kept l S). cbn [map fst snd remove_dups64].
  rewrite deg_360, mod64_self by apply two_pi64_pos.
  assert (M : mem Reqb 0 ([] ++ map fst (radians64 l)) = true).
  { apply mem_Reqb. cbn [app]. rewrite <- deg_0. unfold radians64. rewrite map_map. apply in_map_iff. exists (0, y0). split; [reflexivity|exact I]. }
  rewrite M, app_nil_r. reflexivity.
Qed.
