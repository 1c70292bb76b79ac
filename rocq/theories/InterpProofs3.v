(** Witnesses for C106: one measurement of four differs from zero. *)
From Coq Require Import String List Arith ZArith Reals Lra Lia Bool Sorted.
From Coquelicot Require Import Complex.
From Verif Require Import PyBase RMod CBase DataModel SpecData DataProofs DataProofs2 FDataModel SpecFData FDataProofs FDataProofs2
  LsqProofs FitModel SpecFit SpecLsq SpecLin InterpModel SpecInterp InterpProofs InterpProofs2.
Import ListNotations.
Open Scope R_scope.

Definition bump (x : R) : R := if Reqb x 0 then 1 else 0.
Definition spike_row : list (R * R) := sampled 4 bump.
Definition spike : dat := mkdat [("PP"%string, spike_row)] 1 0 0 "radians" false.

Lemma spike_reach : reachable spike.
Proof.
  exists (input DFloat [("PP"%string, spike_row)]), "radians"%string, false. eexists _, []. split.
  - rewrite construct_input; [reflexivity|repeat constructor; simpl; tauto|].
    constructor; [|constructor]. unfold spike_row, sampled, grid; discriminate.
  - unfold run. simpl. unfold spike, spike_row. now rewrite finish_sampled.
Qed.
Lemma spike_pcs k p : get_pc spike k "radians" = Ok p -> p = spike_row.
Proof. intros E. apply (get_pc_In _ _ _ (reachable_wf _ spike_reach)) in E. destruct E as [E|[]]. congruence. Qed.
Lemma spike_length : length spike_row = 4%nat.
Proof. reflexivity. Qed.
Lemma spike_spaced : equally_spaced spike_row.
Proof. exact (sampled_fst 4 bump). Qed.
Lemma node4 j : node 4 j = INR j * (PI / 2).
Proof. unfold node. change (INR 4) with (2 + 1 + 1). field. Qed.
Lemma bump_0 : bump (node 4 0) = 1.
Proof. unfold bump. rewrite (proj2 (Reqb_true _ _)); [reflexivity|]. rewrite node4. cbn [INR]. ring. Qed.
Lemma bump_S j : bump (node 4 (S j)) = 0.
Proof.
  unfold bump. rewrite (proj2 (Reqb_false _ _)); [reflexivity|]. rewrite node4, S_INR. pose proof (pos_INR j). pose proof PI_RGT_0.
  apply Rgt_not_eq. apply Rmult_lt_0_compat; lra.
Qed.
Lemma spike_is : spike_row = [(0, 1); (PI / 2, 0); (PI, 0); (3 * (PI / 2), 0)].
Proof.
  unfold spike_row, sampled, grid. cbn [seq map]. rewrite bump_0, !bump_S, !node4. cbn [INR].
  repeat match goal with |- _ :: _ = _ :: _ => f_equal end; try (f_equal; field).
Qed.

Lemma spike_nodup : NoDup (map fst spike_row).
Proof. unfold spike_row. rewrite (sampled_fst 4 bump). apply grid_NoDup. Qed.
Lemma spike_strict : strict spike_row.
Proof.
  apply nodup_strict; [|exact spike_nodup].
  pose proof (reachable_normal _ spike_reach) as N. inversion N as [|? ? (_ & _ & So) _]; subst. cbn [snd] in So. revert So.
  generalize spike_row. clear. induction l as [|q p IH]; intros So; constructor; inversion So as [|? ? S' F]; subst.
  { exact (IH S'). }
  apply Forall_forall. intros b I. unfold le_x. rewrite Forall_forall in F. apply F. apply in_map. exact I.
Qed.
Lemma strict_distinct p : strict p -> Forall in_turn (map fst p) -> distinct_angles p.
Proof.
  unfold distinct_angles. induction p as [|q p IH]; intros S T; constructor; inversion T as [|? ? T0 T']; subst.
  - apply Forall_forall. intros b I E. pose proof (strict_head _ _ b S I) as L.
    assert (fst q = fst b); [|lra]. apply in_turn_same; [exact T0| |exact E]. rewrite Forall_forall in T'. apply T'. apply in_map. exact I.
  - apply IH; [exact (strict_tail _ _ S)|exact T'].
Qed.

Lemma spike_step : 0 <= PI / 4 < 2 * PI / INR (length spike_row).
Proof. rewrite spike_length. change (INR 4) with (2 + 1 + 1). pose proof PI_RGT_0. lra. Qed.

Lemma spike_mean interp g : exact_at_nodes interp -> interp spike_row = Ok g -> sample_coef g 4 0 = RtoC (1/4).
Proof.
  intros X E. rewrite sample_zero. f_equal. cbn [seq]. unfold rsum. cbn [fold_right].
  pose proof spike_nodup as N.
  assert (G : forall j, (j < 4)%nat -> g (2 * PI * INR j / INR 4) = bump (node 4 j)).
  { intros j J. apply (X spike_row g _ _ N E). unfold spike_row, sampled, grid. rewrite map_map. apply in_map_iff. exists j.
    split; [reflexivity|apply in_seq; lia]. }
  rewrite !G by lia. rewrite bump_0, !bump_S. change (INR 4) with (2 + 1 + 1). field.
Qed.

Lemma mean_changes M : exists d a f f' v v', reachable d /\
  (forall k p, get_pc d k "radians" = Ok p -> length p = 4%nat /\ equally_spaced p) /\
  dat_to_fdat linear d M = Ok f /\ dat_to_fdat linear (fst (phase_shift_data d a "radians")) M = Ok f' /\
  fget_pc f "PP" = Ok v /\ fget_pc f' "PP" = Ok v' /\ coef M v 0 = RtoC (1/4) /\ coef M v' 0 = RtoC (1/2).
Proof.
  pose proof spike_strict as St.
  assert (G : get_pc spike "PP" "radians" = Ok spike_row) by reflexivity.
  destruct (seam spike (PI / 4) M spike_reach) as (f & f' & E & E' & S).
  { intros k p H. rewrite (spike_pcs k p H). split; [rewrite spike_length; lia|]. split; [exact spike_spaced|exact spike_step]. }
  destruct (S "PP"%string spike_row G) as (v & v' & V & V' & C).
  exists spike, (PI / 4), f, f', v, v'. split; [exact spike_reach|].
  split; [intros k p H; rewrite (spike_pcs k p H); split; [exact spike_length|exact spike_spaced]|].
  split; [exact E|]. split; [exact E'|]. split; [exact V|]. split; [exact V'|].
  assert (Z : coef M v 0 = RtoC (1/4)).
  { destruct (resampled_coefs linear spike M spike_reach) as (f0 & E0 & _ & _ & F).
    { intros k p H. rewrite (spike_pcs k p H). split; [rewrite spike_length; lia|]. eexists. apply linear_strict; [discriminate|exact St]. }
    destruct (F "PP"%string spike_row (segment spike_row) G) as (v0 & V0 & _ & C0); [apply linear_strict; [discriminate|exact St]|].
    assert (f0 = f) by congruence. subst f0. assert (v0 = v) by congruence. subst v0. rewrite C0 by lia.
    apply (spike_mean linear); [exact linear_exact|apply linear_strict; [discriminate|exact St]]. }
  split; [exact Z|]. rewrite C, Z, <- RtoC_plus. f_equal. rewrite spike_is. cbn [nth length Nat.sub snd]. pose proof PI_RGT_0. field. lra.
Qed.

Lemma cubic_mean_changes interp M : exact_at_nodes interp -> accepts interp 4 -> cubic_on_four interp ->
  exists d a f f' v v', reachable d /\
  (forall k p, get_pc d k "radians" = Ok p -> length p = 4%nat /\ equally_spaced p) /\
  dat_to_fdat interp d M = Ok f /\ dat_to_fdat interp (fst (phase_shift_data d a "radians")) M = Ok f' /\
  fget_pc f "PP" = Ok v /\ fget_pc f' "PP" = Ok v' /\ coef M v 0 = RtoC (1/4) /\ coef M v' 0 = RtoC (5/8).
Proof.
  intros X Ac Cu. pose proof spike_nodup as N.
  pose proof spike_strict as St.
  assert (G : get_pc spike "PP" "radians" = Ok spike_row) by reflexivity.
  pose proof (reachable_wf _ spike_reach) as W.
  set (row' := moved (PI / 4) spike_row). pose proof (shift_small (PI / 4) spike_row spike_spaced spike_step St) as Sh. fold row' in Sh.
  assert (N' : NoDup (map fst row')).
  { unfold row', moved. rewrite map_map. cbn [fst]. rewrite <- (map_map fst (fun x => x + PI / 4)). apply FinFun.Injective_map_NoDup; [intros x y; lra|exact N]. }
  destruct (Ac spike_row spike_length N) as [g Eg]. destruct (Ac row' ltac:(unfold row', moved; rewrite map_length; exact spike_length) N') as [h Eh].
  destruct (resampled_coefs interp spike M spike_reach) as (f & E & _ & _ & F).
  { intros k p H. rewrite (spike_pcs k p H). split; [rewrite spike_length; lia|]. eexists. exact Eg. }
  destruct (resampled_coefs interp (fst (phase_shift_data spike (PI / 4) "radians")) M (shifted_reachable _ _ spike_reach)) as (f' & E' & _ & _ & F').
  { intros k p' H. apply shifted_get in H as (p & H & ->); [|exact W]. rewrite (spike_pcs k p H), Sh.
    split; [unfold row', moved; rewrite map_length, spike_length; lia|]. eexists. exact Eh. }
  destruct (F "PP"%string spike_row g G Eg) as (v & V & _ & C).
  pose proof (shifted_get_conv spike (PI / 4) "PP" spike_row W G) as G'. rewrite Sh in G'.
  destruct (F' "PP"%string row' h G' Eh) as (v' & V' & _ & C').
  exists spike, (PI / 4), f, f', v, v'. split; [exact spike_reach|].
  split; [intros k p H; rewrite (spike_pcs k p H); split; [exact spike_length|exact spike_spaced]|].
  split; [exact E|]. split; [exact E'|]. split; [exact V|]. split; [exact V'|].
  split; [rewrite C by lia; exact (spike_mean interp g X Eg)|]. rewrite C' by lia.
  replace (length row') with 4%nat by (unfold row', moved; now rewrite map_length). rewrite sample_zero. f_equal.
  destruct (Cu row' h ltac:(unfold row', moved; rewrite map_length; exact spike_length) N' Eh) as (a & b & c & e & P).
  assert (H : forall x y, In (x, y) row' -> h x = y) by (intros x y I; exact (X row' h x y N' Eh I)).
  unfold row' in H. rewrite spike_is in H. cbn [moved map fst snd] in H.
  pose proof (H _ _ (or_introl eq_refl)) as H0. pose proof (H _ _ (or_intror (or_introl eq_refl))) as H1.
  pose proof (H _ _ (or_intror (or_intror (or_introl eq_refl)))) as H2. pose proof (H _ _ (or_intror (or_intror (or_intror (or_introl eq_refl))))) as H3.
  rewrite P in H0, H1, H2, H3. cbn [seq]. unfold rsum. cbn [fold_right]. rewrite !P. cbn [INR].
  set (B := b * (PI / 4)). set (D := c * (PI / 4) ^ 2). set (K := e * (PI / 4) ^ 3).
  assert (Q : forall t, a + b * (t * (PI / 4)) + c * (t * (PI / 4)) ^ 2 + e * (t * (PI / 4)) ^ 3 = a + t * B + t ^ 2 * D + t ^ 3 * K)
    by (intros t; unfold B, D, K; ring).
  replace (0 + PI / 4) with (1 * (PI / 4)) in H0 by field. replace (PI / 2 + PI / 4) with (3 * (PI / 4)) in H1 by field.
  replace (PI + PI / 4) with (5 * (PI / 4)) in H2 by field. replace (3 * (PI / 2) + PI / 4) with (7 * (PI / 4)) in H3 by field.
  rewrite Q in H0, H1, H2, H3.
  replace (2 * PI * 0 / (1 + 1 + 1 + 1)) with (0 * (PI / 4)) by field. replace (2 * PI * 1 / (1 + 1 + 1 + 1)) with (2 * (PI / 4)) by field.
  replace (2 * PI * (1 + 1) / (1 + 1 + 1 + 1)) with (4 * (PI / 4)) by field. replace (2 * PI * (1 + 1 + 1) / (1 + 1 + 1 + 1)) with (6 * (PI / 4)) by field.
  rewrite !Q. lra.
Qed.

(** An interpolator that puts a cubic through four points. *)
Definition lagrange (q0 q1 q2 q3 : R * R) (x : R) : R :=
  let term (q a b c : R * R) := snd q * ((x - fst a) * (x - fst b) * (x - fst c)) / ((fst q - fst a) * (fst q - fst b) * (fst q - fst c)) in
  term q0 q1 q2 q3 + term q1 q0 q2 q3 + term q2 q0 q1 q3 + term q3 q0 q1 q2.
Definition cubic4 (p : list (R * R)) : res (R -> R) :=
  match p with [q0; q1; q2; q3] => Ok (lagrange q0 q1 q2 q3) | _ => linear p end.

Lemma interp_case : exact_at_nodes cubic4 /\ accepts cubic4 4 /\ cubic_on_four cubic4 /\
  reachable spike /\ all_distinct spike /\
  (forall k p, get_pc spike k "radians" = Ok p -> (2 <= length p)%nat /\ equally_spaced p /\ 0 <= PI / 4 < 2 * PI / INR (length p)).
Proof.
  split; [|split; [|split; [|split; [exact spike_reach|split]]]].
  - intros p g x y N E I.
    destruct p as [|q0 [|q1 [|q2 [|q3 [|q4 p]]]]]; try exact (linear_exact _ g x y N E I).
    cbn [cubic4] in E. assert (g = lagrange q0 q1 q2 q3) by congruence. subst g. clear E.
    destruct q0 as [x0 y0], q1 as [x1 y1], q2 as [x2 y2], q3 as [x3 y3]. cbn [map fst] in N.
    inversion N as [|? ? A0 N1]; subst. inversion N1 as [|? ? A1 N2]; subst. inversion N2 as [|? ? A2 _]; subst. cbn [In] in A0, A1, A2.
    assert (x0 - x1 <> 0 /\ x0 - x2 <> 0 /\ x0 - x3 <> 0 /\ x1 - x2 <> 0 /\ x1 - x3 <> 0 /\ x2 - x3 <> 0)
      as (B1 & B2 & B3 & B4 & B5 & B6) by (repeat split; intros Z; apply Rminus_diag_uniq in Z; subst; tauto).
    unfold lagrange. cbn [fst snd In] in *.
    destruct I as [I|[I|[I|[I|[]]]]]; injection I as <- <-; field; repeat split; lra.
  - intros p L N. destruct p as [|q0 [|q1 [|q2 [|q3 [|q4 p]]]]]; try discriminate L. eexists. reflexivity.
  - intros p g L N E. destruct p as [|q0 [|q1 [|q2 [|q3 [|q4 p]]]]]; try discriminate L.
    cbn [cubic4] in E. assert (g = lagrange q0 q1 q2 q3) by congruence. subst g.
    assert (T : forall k u w z, exists a b c e, forall x, k * ((x - u) * (x - w) * (x - z)) = a + b * x + c * x ^ 2 + e * x ^ 3).
    { intros k u w z. exists (- k * u * w * z), (k * (u * w + u * z + w * z)), (- k * (u + w + z)), k. intros x. ring. }
    destruct q0 as [x0 y0], q1 as [x1 y1], q2 as [x2 y2], q3 as [x3 y3]. unfold lagrange. cbn [fst snd].
    destruct (T (y0 / ((x0 - x1) * (x0 - x2) * (x0 - x3))) x1 x2 x3) as (a0 & b0 & c0 & e0 & T0).
    destruct (T (y1 / ((x1 - x0) * (x1 - x2) * (x1 - x3))) x0 x2 x3) as (a1 & b1 & c1 & e1 & T1).
    destruct (T (y2 / ((x2 - x0) * (x2 - x1) * (x2 - x3))) x0 x1 x3) as (a2 & b2 & c2 & e2 & T2).
    destruct (T (y3 / ((x3 - x0) * (x3 - x1) * (x3 - x2))) x0 x1 x2) as (a3 & b3 & c3 & e3 & T3).
    exists (a0 + a1 + a2 + a3), (b0 + b1 + b2 + b3), (c0 + c1 + c2 + c3), (e0 + e1 + e2 + e3). intros x.
    specialize (T0 x). specialize (T1 x). specialize (T2 x). specialize (T3 x). unfold Rdiv in *. lra.
  - intros k p H. rewrite (spike_pcs k p H). apply strict_distinct; [exact spike_strict|].
    pose proof (reachable_normal _ spike_reach) as N. inversion N as [|? ? (_ & T & _) _]; subst. exact T.
  - intros k p H. rewrite (spike_pcs k p H). split; [rewrite spike_length; lia|]. split; [exact spike_spaced|exact spike_step].
Qed.
