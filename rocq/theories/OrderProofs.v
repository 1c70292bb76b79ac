(** The order of a Fourier transform: a higher order adds coefficients. *)
From Coq Require Import String List Arith ZArith Reals Lra Lia QArith.
From Coquelicot Require Import Complex.
From Verif Require Import PyBase CBase Expr DataModel SpecData DataProofs DataProofs2 FDataModel SpecFData FDataProofs FDataProofs2
  FormModel SpecForm FormProofs FormProofs2 FormProofs3 FitModel SpecFit FitProofs NoiseProofs.
Import ListNotations.
Local Open Scope nat_scope.

Lemma mapM_freqs {A} (f : Z -> res A) M v : mapM f (freqs M) = Ok v ->
  length v = 2 * M + 1 /\ forall m d, (Z.abs m <= Z.of_nat M)%Z -> f m = Ok (nth (Z.to_nat (m + Z.of_nat M)) v d).
Proof.
  intros E. assert (L : length v = 2 * M + 1) by (rewrite (mapM_length _ _ _ E), length_freqs; reflexivity). split; [exact L|].
  intros m d H. apply mapM_Ok in E.
  assert (G : forall l v, Forall2 (fun a b => f a = Ok b) l v -> forall i, i < length l -> forall a0, f (nth i l a0) = Ok (nth i v d)).
  { induction 1 as [|a b l' v' Eab _ IH]; intros i I a0; [inversion I|]. destruct i as [|i]; [exact Eab|]. apply IH. cbn in I. lia. }
  specialize (G _ _ E (Z.to_nat (m + Z.of_nat M)) ltac:(rewrite length_freqs; lia) ((fun i => (- Z.of_nat M + Z.of_nat i)%Z) 0)).
  rewrite <- G. f_equal. unfold freqs, zrange. rewrite (map_nth (fun i => (- Z.of_nat M + Z.of_nat i)%Z)), seq_nth by lia. lia.
Qed.
Lemma mapM_lower {A} (f : Z -> res A) M M' v' d : M <= M' -> mapM f (freqs M') = Ok v' ->
  exists v, mapM f (freqs M) = Ok v /\ length v = 2 * M + 1 /\ length v' = 2 * M' + 1 /\
    forall m, (Z.abs m <= Z.of_nat M)%Z -> nth (Z.to_nat (m + Z.of_nat M)) v d = nth (Z.to_nat (m + Z.of_nat M')) v' d.
Proof.
  intros L E. destruct (mapM_freqs f M' v' E) as (L' & V').
  destruct (mapM_all_ok f (freqs M)) as (v & Ev).
  { intros m I. apply In_freqs in I. eexists. apply (V' m d). lia. }
  destruct (mapM_freqs f M v Ev) as (Lv & V). exists v. split; [exact Ev|]. split; [exact Lv|]. split; [exact L'|].
  intros m Hm. specialize (V m d Hm). specialize (V' m d ltac:(lia)). congruence.
Qed.

Theorem data_orders interp d M M' f' : reachable d -> M <= M' -> dat_to_fdat interp d M' = Ok f' ->
  exists f, dat_to_fdat interp d M = Ok f /\ fget_keys f = fget_keys f' /\ fget_M f = M /\
    forall k v', fget_pc f' k = Ok v' -> exists v, fget_pc f k = Ok v /\ length v = 2 * M + 1 /\
      forall m, (Z.abs m <= Z.of_nat M)%Z -> coef M v m = coef M' v' m.
Proof.
  intros R L E. pose proof (reachable_wf d R) as W. unfold dat_to_fdat in *.
  destruct (dmapM (fun p => mapM (fourier_entry interp p) (freqs M')) (dc_data d)) as [rows'|] eqn:E'; [|discriminate]. cbn [bind] in E.
  destruct (dmapM_all_ok (fun p => mapM (fourier_entry interp p) (freqs M)) (dc_data d)) as [rows Er].
  { intros k p I. destruct (dget_dmapM _ _ _ _ _ E' (In_dget _ _ _ W I)) as (w & Ew & _).
    destruct (mapM_lower _ M M' w (RtoC 0) L Ew) as (v & Ev & _). exists v. exact Ev. }
  assert (FW : forall N rs, dmapM (fun p => mapM (fourier_entry interp p) (freqs N)) (dc_data d) = Ok rs -> fconstruct (fitems rs) N = Ok (mkfdat rs 1 (PNum 0) N)).
  { intros N rs Ers. apply fconstruct_items. split; [unfold wf_dict; rewrite (dmapM_keys _ _ _ Ers); exact W|].
    apply Forall_forall. intros [k v] I. cbn [snd].
    assert (Wrs : wf_dict rs) by (unfold wf_dict; rewrite (dmapM_keys _ _ _ Ers); exact W).
    assert (Ik : In k (dkeys (dc_data d))) by (rewrite <- (dmapM_keys _ _ _ Ers); apply in_map_iff; exists (k, v); split; [reflexivity|exact I]).
    apply in_map_iff in Ik as ([k' p] & Ek & Ip). cbn [fst] in Ek. subst k'.
    destruct (dget_dmapM _ _ _ _ _ Ers (In_dget _ _ _ W Ip)) as (w & Ew & Gw). rewrite (In_dget _ _ _ Wrs I) in Gw.
    assert (v = w) by congruence. subst w. exact (proj1 (mapM_freqs _ _ _ Ew)). }
  rewrite (FW M' rows' E') in E. assert (f' = mkfdat rows' 1 (PNum 0) M') by congruence. subst f'.
  rewrite Er. cbn [bind]. rewrite (FW M rows Er). eexists. split; [reflexivity|]. split; [|split; [reflexivity|]].
  - change (dkeys rows = dkeys rows'). rewrite (dmapM_keys _ _ _ Er), (dmapM_keys _ _ _ E'). reflexivity.
  - intros k v' G. unfold fget_pc, dgetr in *. cbn [fd_data] in *. destruct (dget k rows') as [w|] eqn:G'; [|discriminate]. assert (w = v') by congruence. subst w.
    assert (Ik : In k (dkeys (dc_data d))) by (rewrite <- (dmapM_keys _ _ _ E'); apply dget_In in G'; apply in_map_iff; exists (k, v'); split; [reflexivity|exact G']).
    apply in_map_iff in Ik as ([k' p] & Ek & Ip). cbn [fst] in Ek. subst k'. pose proof (In_dget _ _ _ W Ip) as Gp.
    destruct (dget_dmapM _ _ _ _ _ E' Gp) as (w' & Ew' & Gw'). assert (w' = v') by congruence. subst w'.
    destruct (dget_dmapM _ _ _ _ _ Er Gp) as (v & Ev & Gv). exists v. rewrite Gv. split; [reflexivity|].
    destruct (mapM_lower _ M M' v' (RtoC 0) L Ew') as (v0 & Ev0 & Lv & _ & Co). assert (v0 = v) by congruence. subst v0. split; [exact Lv|].
    intros m Hm. exact (Co m Hm).
Qed.

(** Formulas *)
Lemma transform_not_junk ev e n r : fourier_transform ev e n = Ok r -> r <> Junk.
Proof.
  unfold fourier_transform. destruct (negb (has_phi e)).
  - destruct (n =? 0)%Z; intros E; intros ->; discriminate.
  - intros E ->. revert E.
    assert (T : forall x, bind x (fun ft : Q * Q => if negb (Qeq_bool (fst ft) 0 && Qeq_bool (snd ft) 0)
      then Ok (SymE (ev (EMul ((match e with EMul l => filter (fun a => negb (has_phi a)) l | _ => [] end) ++ [ENum (fst ft) (snd ft)]))))
      else Ok (PyNum 0 0)) <> Ok Junk).
    { intros [ft|x]; cbn [bind]; [|discriminate]. destruct (negb _); discriminate. }
    destruct e; try (destruct (get_keyterms _) as [|c [|? ?]]; [discriminate| |discriminate]; destruct (dgetr (get_code c) _) as [row|x]; cbn [bind]; [apply T|discriminate]).
    destruct (relevant_codes n) as [m|x]; cbn [bind]. 2:{ discriminate. } destruct (mapM (transform_summand m) _) as [l'|x]; cbn [bind]; discriminate.
Qed.
Theorem form_orders ev f M M' F' : (exists it, form_construct it = Ok f) -> M <= M' -> form_to_fform ev f M' = Ok F' ->
  exists F, form_to_fform ev f M = Ok F /\ ff_get_keys F = ff_get_keys F' /\ ff_M F = M /\
    forall k c', ff_get_pc F' k = Ok c' -> exists c, ff_get_pc F k = Ok c /\ length c = 2 * M + 1 /\
      forall m, (Z.abs m <= Z.of_nat M)%Z -> nth (Z.to_nat (m + Z.of_nat M)) c (num 0) = nth (Z.to_nat (m + Z.of_nat M')) c' (num 0).
Proof.
  intros (it & Ef) L E. assert (W : wf_dict f) by exact (form_construct_inv it f Ef). unfold form_to_fform in *.
  destruct (dmapM (fun e => mapM (fourier_transform ev e) (freqs M')) f) as [rows'|] eqn:E'; [|discriminate]. cbn [bind] in E.
  destruct (dmapM_all_ok (fun e => mapM (fourier_transform ev e) (freqs M)) f) as [rows Er].
  { intros k p I. destruct (dget_dmapM _ _ _ _ _ E' (In_dget _ _ _ W I)) as (w & Ew & _).
    destruct (mapM_lower _ M M' w Junk L Ew) as (v & Ev & _). exists v. exact Ev. }
  assert (FW : forall N rs, dmapM (fun e => mapM (fourier_transform ev e) (freqs N)) f = Ok rs ->
    ff_construct (map (fun kr => (KStr (fst kr), OArr true 1 (snd kr))) rs) N = Ok (mkff (dmap entry_row rs) N)).
  { intros N rs Ers. assert (Wrs : wf_dict rs) by (unfold wf_dict; rewrite (dmapM_keys _ _ _ Ers); exact W).
    apply ff_construct_rows; [exact Wrs|]. intros k v I.
    assert (Ik : In k (dkeys f)) by (rewrite <- (dmapM_keys _ _ _ Ers); apply in_map_iff; exists (k, v); split; [reflexivity|exact I]).
    apply in_map_iff in Ik as ([k' p] & Ek & Ip). cbn [fst] in Ek. subst k'.
    destruct (dget_dmapM _ _ _ _ _ Ers (In_dget _ _ _ W Ip)) as (w & Ew & Gw). rewrite (In_dget _ _ _ Wrs I) in Gw.
    assert (v = w) by congruence. subst w. split; [exact (proj1 (mapM_freqs _ _ _ Ew))|].
    apply Forall_forall. intros x Ix. destruct (mapM_In _ _ _ _ Ew Ix) as (n & _ & En). exact (transform_not_junk ev p n x En). }
  rewrite (FW M' rows' E') in E. assert (F' = mkff (dmap entry_row rows') M') by congruence. subst F'.
  rewrite Er. cbn [bind]. rewrite (FW M rows Er). eexists. split; [reflexivity|]. split; [|split; [reflexivity|]].
  - unfold ff_get_keys. cbn [ff_rows]. rewrite !dkeys_dmap, (dmapM_keys _ _ _ Er), (dmapM_keys _ _ _ E'). reflexivity.
  - intros k c' G. unfold ff_get_pc, dgetr in *. cbn [ff_rows] in *. rewrite dget_dmap in G |- *.
    destruct (dget k rows') as [w|] eqn:G'; [|discriminate]. cbn [option_map bind entry_row r_cells] in G. assert (c' = map as_expr w) by congruence. subst c'.
    assert (Ik : In k (dkeys f)) by (rewrite <- (dmapM_keys _ _ _ E'); apply dget_In in G'; apply in_map_iff; exists (k, w); split; [reflexivity|exact G']).
    apply in_map_iff in Ik as ([k' p] & Ek & Ip). cbn [fst] in Ek. subst k'. pose proof (In_dget _ _ _ W Ip) as Gp.
    destruct (dget_dmapM _ _ _ _ _ E' Gp) as (w' & Ew' & Gw'). assert (w' = w) by congruence. subst w'.
    destruct (dget_dmapM _ _ _ _ _ Er Gp) as (v & Ev & Gv). rewrite Gv. cbn [option_map bind entry_row r_cells]. eexists. split; [reflexivity|].
    destruct (mapM_lower _ M M' w Junk L Ew') as (v0 & Ev0 & Lv & _ & Co). assert (v0 = v) by congruence. subst v0. split; [rewrite map_length; exact Lv|].
    intros m Hm. change (num 0) with (as_expr Junk). rewrite !map_nth. f_equal. exact (Co m Hm).
Qed.

(** Costs *)
Lemma freqs_middle M M' : M <= M' -> exists l1 l2, freqs M' = (l1 ++ freqs M ++ l2)%list.
Proof.
  intros L. unfold freqs, zrange. pose (N := 2 * M + 1).
  replace (Z.to_nat (Z.of_nat M' + 1 - - Z.of_nat M')) with ((M' - M) + (N + (M' - M))) by lia.
  replace (Z.to_nat (Z.of_nat M + 1 - - Z.of_nat M)) with N by lia. clearbody N.
  rewrite !seq_app, !map_app. eexists _, _. f_equal. f_equal.
  replace (0 + (M' - M)) with ((M' - M) + 0) by lia.
  assert (S : forall a n, seq (a + 0) n = map (fun i => a + i) (seq 0 n)).
  { intros a n. rewrite Nat.add_0_r. revert a. induction n as [|n IH]; intros a; [reflexivity|]. cbn [seq map]. rewrite Nat.add_0_r. f_equal.
    rewrite IH, <- seq_shift, map_map. apply map_ext. intros i. lia. }
  rewrite S, map_map. apply map_ext. intros i. lia.
Qed.
Lemma rsum_middle M M' (g g' : Z -> R) : M <= M' -> (forall m, In m (freqs M) -> g m = g' m) -> (forall m, 0 <= g' m)%R ->
  (rsum g (freqs M) <= rsum g' (freqs M'))%R.
Proof.
  intros L E P. destruct (freqs_middle M M' L) as (l1 & l2 & ->). rewrite !LsqProofs2.rsum_app.
  pose proof (rsum_nonneg g' l1 (fun a _ => P a)). pose proof (rsum_nonneg g' l2 (fun a _ => P a)). rewrite (rsum_ext g g') by exact E. lra.
Qed.
Lemma rsum_rows {A} (T T' : string * A -> R) (l l' : list (string * A)) : map fst l = map fst l' -> NoDup (map fst l) ->
  (forall k r r', In (k, r) l -> In (k, r') l' -> (T (k, r) <= T' (k, r'))%R) -> (rsum T l <= rsum T' l')%R.
Proof.
  revert l'. induction l as [|[k r] l IH]; intros [|[k' r'] l'] K N H; try discriminate; [apply Rle_refl|].
  injection K as Ek K. subst k'. inversion N as [|? ? N1 N2]; subst. specialize (IH l' K N2 (fun k0 a b I J => H k0 a b (or_intror I) (or_intror J))).
  specialize (H k r r' (or_introl eq_refl) (or_introl eq_refl)). unfold rsum in *. cbn [fold_right]. lra.
Qed.
Theorem misfit_orders ev interp f d M M' F' D' : (exists it, form_construct it = Ok f) -> reachable d -> M <= M' ->
  form_to_fform ev f M' = Ok F' -> dat_to_fdat interp d M' = Ok D' ->
  exists F D, form_to_fform ev f M = Ok F /\ dat_to_fdat interp d M = Ok D /\ forall rho, (misfit F D rho <= misfit F' D' rho)%R.
Proof.
  intros Hf R L EF ED. destruct (form_orders ev f M M' F' Hf L EF) as (F & E1 & K1 & M1 & C1).
  destruct (data_orders interp d M M' D' R L ED) as (D & E2 & K2 & M2 & C2).
  exists F, D. split; [exact E1|]. split; [exact E2|]. intros rho.
  assert (M1' : ff_M F' = M' /\ rows_wf M' (ff_rows F')).
  { unfold form_to_fform in EF. destruct (dmapM _ f) as [rows|]; [|discriminate]. cbn [bind] in EF. exact (ff_construct_inv _ _ _ EF). }
  assert (R1 : rows_wf M (ff_rows F)).
  { unfold form_to_fform in E1. destruct (dmapM _ f) as [rows|]; [|discriminate]. cbn [bind] in E1. exact (proj2 (ff_construct_inv _ _ _ E1)). }
  assert (M2' : fget_M D' = M').
  { destruct (data_orders interp d M' M' D' R (Nat.le_refl _) ED) as (D0 & E0 & _ & M0 & _). congruence. }
  destruct M1' as (M1' & W' & _). destruct R1 as (W & _). unfold misfit. apply rsum_rows; [exact K1|exact W|].
  intros k r r' I I'. cbn [fst snd]. rewrite M1, M1'. apply rsum_middle; [exact L| |intros m; apply pow2_ge_0].
  intros m Im. apply In_freqs in Im. do 2 f_equal. unfold Cminus. f_equal.
  - destruct (C1 k (r_cells r')) as (c & Gc & _ & Ec).
    { unfold ff_get_pc, dgetr. rewrite (In_dget k r' _ W' I'). reflexivity. }
    unfold ff_get_pc, dgetr in Gc. rewrite (In_dget k r _ W I) in Gc. cbn [bind] in Gc. assert (c = r_cells r) by congruence. subst c.
    unfold fcell. rewrite Ec by lia. reflexivity.
  - f_equal. unfold dvalue. fold (fget_M D). fold (fget_M D'). rewrite M2, M2'.
    destruct (dget k (fd_data D')) as [v'|] eqn:G'.
    + destruct (C2 k v') as (v & Gv & _ & Ev); [unfold fget_pc, dgetr; rewrite G'; reflexivity|].
      unfold fget_pc, dgetr in Gv. destruct (dget k (fd_data D)) as [u|]; [|discriminate]. assert (u = v) by congruence. subst u. apply Ev. lia.
    + apply dget_None in G'. replace (dget k (fd_data D)) with (@None (list C)); [reflexivity|]. symmetry. apply dget_None. change (~ In k (fget_keys D)). rewrite K2. exact G'.
Qed.
Theorem data_any_order interp d M M' : reachable d -> is_ok (dat_to_fdat interp d M) -> is_ok (dat_to_fdat interp d M').
Proof.
  intros R [f E]. pose proof (reachable_wf d R) as W. unfold dat_to_fdat in *.
  destruct (dmapM (fun p => mapM (fourier_entry interp p) (freqs M)) (dc_data d)) as [rows|] eqn:Er; [|discriminate].
  destruct (dmapM_all_ok (fun p => mapM (fourier_entry interp p) (freqs M')) (dc_data d)) as [rows' Er'].
  { intros k p I. destruct (dget_dmapM _ _ _ _ _ Er (In_dget _ _ _ W I)) as (w & Ew & _). destruct (mapM_freqs _ _ _ Ew) as (_ & V).
    specialize (V 0%Z (RtoC 0) ltac:(lia)). apply mapM_all_ok. intros m _. unfold fourier_entry in *.
    destruct (interp p) as [g|]; [|discriminate]. cbn [bind] in *. destruct (py_nth _ 1) as [x1|]; [|discriminate]. cbn [bind] in *.
    destruct (py_nth _ 0) as [x0|]; [|discriminate]. cbn [bind] in *. eexists. reflexivity. }
  rewrite Er'. cbn [bind]. eexists. apply fconstruct_items. assert (Wr : wf_dict rows') by (unfold wf_dict; rewrite (dmapM_keys _ _ _ Er'); exact W).
  split; [exact Wr|]. apply Forall_forall. intros [k v] I. cbn [snd].
  assert (Ik : In k (dkeys (dc_data d))) by (rewrite <- (dmapM_keys _ _ _ Er'); apply in_map_iff; exists (k, v); split; [reflexivity|exact I]).
  apply in_map_iff in Ik as ([k' p] & Ek & Ip). cbn [fst] in Ek. subst k'.
  destruct (dget_dmapM _ _ _ _ _ Er' (In_dget _ _ _ W Ip)) as (w & Ew & Gw). rewrite (In_dget _ _ _ Wr I) in Gw.
  assert (v = w) by congruence. subst w. exact (proj1 (mapM_freqs _ _ _ Ew)).
Qed.
