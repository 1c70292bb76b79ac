(** Noise in measured data and in their Fourier coefficients. *)
From Coq Require Import String List Arith ZArith Reals Lra Lia Sorted.
From Coquelicot Require Import Complex.
From Verif Require Import PyBase RMod CBase Expr DataModel SpecData DataProofs DataProofs2 FDataModel SpecFData FDataProofs FDataProofs2
  FormModel FitModel SpecFit FitProofs SpecLsq LsqProofs LsqProofs2 SpecLin InterpModel SpecInterp InterpProofs InterpProofs2 InterpProofs3 FloatProofs6 SpecNoise.
Import ListNotations.
Open Scope R_scope.

Lemma sample_dcoef g n m : sample_coef g n m = dcoef n (fun j => g (2 * PI * INR j / INR n)) m.
Proof. reflexivity. Qed.
Lemma dcoef_minus n y y' m : Cminus (dcoef n y m) (dcoef n y' m) = dcoef n (fun j => y j - y' j) m.
Proof.
  unfold dcoef. transitivity (Cmult (RtoC (/ INR n)) (Csum (fun j => Cplus (Cmult (RtoC (y j)) (cis (- IZR m * (2 * PI * INR j / INR n))))
    (Cmult (Copp (RtoC 1)) (Cmult (RtoC (y' j)) (cis (- IZR m * (2 * PI * INR j / INR n)))))) (seq 0 n))).
  - rewrite Csum_plus, Csum_mult_l. ring.
  - f_equal. apply Csum_ext. intros j. rewrite RtoC_minus. ring.
Qed.
Lemma dcoef_bound n y m eps : (0 < n)%nat -> (forall j, (j < n)%nat -> Rabs (y j) <= eps) -> Cmod (dcoef n y m) <= eps.
Proof.
  intros N H. unfold dcoef. assert (P : 0 < INR n) by (apply lt_0_INR; exact N).
  rewrite Cmod_mult, Cmod_R, Rabs_pos_eq by (left; apply Rinv_0_lt_compat; exact P).
  apply (Rmult_le_reg_l (INR n)); [exact P|]. rewrite <- Rmult_assoc, Rinv_r, Rmult_1_l by lra.
  replace (INR n * eps) with (INR (length (seq 0 n)) * eps) by (rewrite seq_length; reflexivity).
  apply Csum_Cmod. intros j I. apply in_seq in I. rewrite Cmod_mult, Cmod_R, Cmod_cis, Rmult_1_r. apply H. lia.
Qed.
Lemma dcoef_power M n y : (2 * M < n)%nat ->
  rsum (fun m => Cmod (dcoef n y m) ^ 2) (freqs M) <= / INR n * rsum (fun j => y j ^ 2) (seq 0 n).
Proof.
  intros L. pose proof (pythagoras M (dcoef n y) n y L) as P.
  assert (Z : rsum (fun m => Cmod (Cminus (dcoef n y m) (dcoef n y m)) ^ 2) (freqs M) = 0).
  { rewrite (rsum_ext _ (fun m => 0 * 0)); [rewrite rsum_scal; ring|].
    intros m _. replace (Cminus (dcoef n y m) (dcoef n y m)) with (RtoC 0) by ring. rewrite Cmod_0. ring. }
  rewrite Z in P.
  assert (Q : 0 <= / INR n * rsum (fun j => Cmod (Cminus (wave_at M (dcoef n y) (2 * PI * INR j / INR n)) (RtoC (y j))) ^ 2) (seq 0 n)).
  { apply Rmult_le_pos; [left; apply Rinv_0_lt_compat, lt_0_INR; lia|]. apply rsum_nonneg. intros j _. apply pow2_ge_0. }
  rewrite (rsum_ext (fun j => Cmod (RtoC (y j)) ^ 2) (fun j => y j ^ 2)) in P; [lra|].
  intros j _. rewrite Cmod_R. apply pow2_abs.
Qed.

Lemma spaced_nodup p : equally_spaced p -> NoDup (map fst p).
Proof. intros S. unfold equally_spaced in S. rewrite S. apply (grid_NoDup (length p)). Qed.
Lemma at_nodes interp p g : exact_at_nodes interp -> interp p = Ok g -> equally_spaced p ->
  forall j, (j < length p)%nat -> g (2 * PI * INR j / INR (length p)) = snd (nth j p (0, 0)).
Proof.
  intros X E S j L. apply (X p g _ _ (spaced_nodup p S) E).
  assert (F : 2 * PI * INR j / INR (length p) = fst (nth j p (0, 0))).
  { change (fst (nth j p (0, 0))) with ((fun a : R * R => fst a) (nth j p (0, 0))). rewrite <- (map_nth fst). cbn [fst]. unfold equally_spaced in S. rewrite S.
    rewrite nth_indep with (d' := (fun j => 2 * PI * INR j / INR (length p)) 0%nat) by (rewrite map_length, seq_length; exact L).
    rewrite (map_nth (fun j => 2 * PI * INR j / INR (length p))), seq_nth by exact L. reflexivity. }
  rewrite F, <- surjective_pairing. apply nth_In, L.
Qed.
Lemma noisy_facts eps p q : noisy eps p q -> length p = length q /\ map fst p = map fst q /\
  forall j, (j < length p)%nat -> Rabs (snd (nth j p (0, 0)) - snd (nth j q (0, 0))) <= eps.
Proof.
  intros H. induction H as [|a b p q (A & B) _ (L & M & N)]; [repeat split; intros j J; inversion J|].
  split; [cbn; now f_equal|]. split; [cbn; congruence|]. intros [|j] J; [exact B|]. cbn [nth]. apply N. cbn in J. lia.
Qed.
Lemma noisy_spaced eps p q : noisy eps p q -> equally_spaced p -> equally_spaced q.
Proof. intros N S. apply noisy_facts in N as (L & M & _). unfold equally_spaced in *. rewrite <- M, <- L. exact S. Qed.
Lemma power_sum (p q : list (R * R)) : length p = length q ->
  rsum (fun ab => (snd (fst ab) - snd (snd ab)) ^ 2) (combine p q) = rsum (fun j => (snd (nth j p (0, 0)) - snd (nth j q (0, 0))) ^ 2) (seq 0 (length p)).
Proof.
  revert q. induction p as [|a p IH]; intros [|b q] L; try discriminate; [reflexivity|]. cbn [combine length seq].
  unfold rsum at 1 2. cbn [map fold_right]. cbn [fst snd nth]. f_equal. rewrite <- seq_shift. fold (rsum (fun ab : R * R * (R * R) => (snd (fst ab) - snd (snd ab)) ^ 2) (combine p q)).
  rewrite IH by (cbn in L; lia). symmetry. exact (rsum_map _ S (seq 0 (length p))).
Qed.
Lemma power_bound eps p q : noisy eps p q -> (0 < length p)%nat -> noise_power p q <= eps ^ 2.
Proof.
  intros N L. apply noisy_facts in N as (E & _ & B). unfold noise_power. rewrite power_sum by exact E.
  assert (P : 0 < INR (length p)) by (apply lt_0_INR; exact L).
  apply (Rmult_le_reg_l (INR (length p))); [exact P|]. rewrite <- Rmult_assoc, Rinv_r, Rmult_1_l by lra.
  assert (G : forall l, (forall j, In j l -> (j < length p)%nat) ->
    rsum (fun j => (snd (nth j p (0, 0)) - snd (nth j q (0, 0))) ^ 2) l <= INR (length l) * eps ^ 2).
  { induction l as [|j l IH]; intros H; [unfold rsum; cbn; lra|]. specialize (IH (fun i I => H i (or_intror I))).
    specialize (B j (H j (or_introl eq_refl))). cbn [length]. rewrite S_INR. unfold rsum in *. cbn [fold_right].
    set (t := fold_right _ _ l) in *. set (x := snd (nth j p (0, 0)) - snd (nth j q (0, 0))) in *.
    pose proof (Rabs_pos x). pose proof (pow2_abs x). assert (Rabs x ^ 2 <= eps ^ 2) by (apply pow_incr; lra). lra. }
  specialize (G (seq 0 (length p))). rewrite seq_length in G. apply G. intros j J. apply in_seq in J. lia.
Qed.
Lemma row_noise interp p q g h M eps : exact_at_nodes interp -> interp p = Ok g -> interp q = Ok h -> equally_spaced p -> (2 <= length p)%nat -> noisy eps p q ->
  (forall m, Cmod (Cminus (sample_coef g (length p) m) (sample_coef h (length q) m)) <= eps) /\
  ((2 * M < length p)%nat ->
    rsum (fun m => Cmod (Cminus (sample_coef g (length p) m) (sample_coef h (length q) m)) ^ 2) (freqs M) <= noise_power p q).
Proof.
  intros X Eg Eh S L N. pose proof (noisy_spaced eps p q N S) as S'. destruct (noisy_facts eps p q N) as (E & _ & B). rewrite <- E.
  assert (Y : forall j, (j < length p)%nat -> g (2 * PI * INR j / INR (length p)) - h (2 * PI * INR j / INR (length p)) = snd (nth j p (0, 0)) - snd (nth j q (0, 0))).
  { intros j J. rewrite (at_nodes interp p g X Eg S j J). f_equal. f_equal. rewrite E. apply (at_nodes interp q h X Eh S'). now rewrite <- E. }
  split.
  - intros m. rewrite !sample_dcoef, dcoef_minus. apply dcoef_bound; [lia|]. intros j J. rewrite (Y j J). exact (B j J).
  - intros K. rewrite (rsum_ext _ (fun m => Cmod (dcoef (length p) (fun j => g (2 * PI * INR j / INR (length p)) - h (2 * PI * INR j / INR (length p))) m) ^ 2))
      by (intros m _; rewrite !sample_dcoef, dcoef_minus; reflexivity).
    eapply Rle_trans; [apply dcoef_power; exact K|]. right. unfold noise_power. f_equal. rewrite power_sum by exact E.
    apply rsum_ext. intros j J. apply in_seq in J. rewrite Y by lia. reflexivity.
Qed.
Theorem noise_bound interp d1 d2 M eps : exact_at_nodes interp -> reachable d1 -> reachable d2 -> get_keys d1 = get_keys d2 ->
  (forall k p q, get_pc d1 k "radians" = Ok p -> get_pc d2 k "radians" = Ok q ->
    (2 <= length p)%nat /\ accepts interp (length p) /\ equally_spaced p /\ noisy eps p q) ->
  exists f1 f2, dat_to_fdat interp d1 M = Ok f1 /\ dat_to_fdat interp d2 M = Ok f2 /\
    fget_keys f1 = get_keys d1 /\ fget_keys f2 = get_keys d1 /\ fget_M f1 = M /\ fget_M f2 = M /\
    forall k p q, get_pc d1 k "radians" = Ok p -> get_pc d2 k "radians" = Ok q ->
      exists v w, fget_pc f1 k = Ok v /\ fget_pc f2 k = Ok w /\
        (forall m, (Z.abs m <= Z.of_nat M)%Z -> Cmod (Cminus (coef M v m) (coef M w m)) <= eps) /\
        ((2 * M < length p)%nat -> rsum (fun m => Cmod (Cminus (coef M v m) (coef M w m)) ^ 2) (freqs M) <= noise_power p q).
Proof.
  intros X R1 R2 K H. pose proof (reachable_wf d1 R1) as W1. pose proof (reachable_wf d2 R2) as W2.
  assert (P12 : forall k p, get_pc d1 k "radians" = Ok p -> exists q, get_pc d2 k "radians" = Ok q).
  { intros k p G. apply (get_pc_In d1 k p W1) in G. assert (I : In k (get_keys d2)) by (rewrite <- K; apply in_map_iff; exists (k, p); split; [reflexivity|exact G]).
    apply in_map_iff in I as ([k' q] & Ek & I). cbn [fst] in Ek. subst k'. exists q. apply (get_pc_In d2 k q W2), I. }
  assert (P21 : forall k q, get_pc d2 k "radians" = Ok q -> exists p, get_pc d1 k "radians" = Ok p).
  { intros k p G. apply (get_pc_In d2 k p W2) in G. assert (I : In k (get_keys d1)) by (rewrite K; apply in_map_iff; exists (k, p); split; [reflexivity|exact G]).
    apply in_map_iff in I as ([k' q] & Ek & I). cbn [fst] in Ek. subst k'. exists q. apply (get_pc_In d1 k q W1), I. }
  assert (O1 : forall k p, get_pc d1 k "radians" = Ok p -> (2 <= length p)%nat /\ is_ok (interp p)).
  { intros k p G. destruct (P12 k p G) as (q & G2). destruct (H k p q G G2) as (L & A & S & _). split; [exact L|]. apply A; [reflexivity|apply spaced_nodup, S]. }
  assert (O2 : forall k q, get_pc d2 k "radians" = Ok q -> (2 <= length q)%nat /\ is_ok (interp q)).
  { intros k q G2. destruct (P21 k q G2) as (p & G). destruct (H k p q G G2) as (L & A & S & N). pose proof (noisy_facts eps p q N) as (E & _).
    rewrite <- E. split; [exact L|]. apply A; [now symmetry|apply spaced_nodup, (noisy_spaced eps p q N S)]. }
  destruct (resampled_coefs interp d1 M R1 O1) as (f1 & E1 & K1 & M1 & F1).
  destruct (resampled_coefs interp d2 M R2 O2) as (f2 & E2 & K2 & M2 & F2).
  exists f1, f2. split; [exact E1|]. split; [exact E2|]. split; [exact K1|]. split; [congruence|]. split; [exact M1|]. split; [exact M2|]. intros k p q G1 G2.
  destruct (O1 k p G1) as (_ & g & Eg). destruct (O2 k q G2) as (_ & h & Eh).
  destruct (F1 k p g G1 Eg) as (v & V & _ & C1). destruct (F2 k q h G2 Eh) as (w & Wv & _ & C2).
  exists v, w. split; [exact V|]. split; [exact Wv|]. destruct (H k p q G1 G2) as (L & _ & S & N).
  destruct (row_noise interp p q g h M eps X Eg Eh S L N) as (B1 & B2). split.
  - intros m Lm. rewrite C1, C2 by exact Lm. apply B1.
  - intros LM. rewrite (rsum_ext _ (fun m => Cmod (Cminus (sample_coef g (length p) m) (sample_coef h (length q) m)) ^ 2)); [apply B2, LM|].
    intros m Im. apply In_freqs in Im. rewrite C1, C2 by lia. reflexivity.
Qed.

Lemma dvalue_coef f k v m : fget_pc f k = Ok v -> dvalue f k m = coef (fget_M f) v m.
Proof. unfold fget_pc, dvalue, dgetr. unfold fget_M. destruct (dget k (fd_data f)) as [u|]; intros E; [|discriminate]. assert (u = v) by congruence. subst u. reflexivity. Qed.
Lemma rsum_le {A} (f g : A -> R) l : (forall a, In a l -> f a <= g a) -> rsum f l <= rsum g l.
Proof.
  induction l as [|a l IH]; intros H; [apply Rle_refl|]. specialize (IH (fun b I => H b (or_intror I))). specialize (H a (or_introl eq_refl)).
  unfold rsum in *. cbn [fold_right]. lra.
Qed.
Lemma rsum_const {A} c (l : list A) : rsum (fun _ => c) l = INR (length l) * c.
Proof. induction l as [|a l IH]; [unfold rsum; cbn; ring|]. cbn [length]. rewrite S_INR. unfold rsum in *. cbn [fold_right]. rewrite IH. ring. Qed.
Lemma fdat_matching F f : formula_ok F -> (exists interp d, reachable d /\ dat_to_fdat interp d (ff_M F) = Ok f) -> fget_M f = ff_M F ->
  (forall k, In k (map fst (ff_rows F)) -> In k (fget_keys f)) -> matching F f.
Proof.
  intros Fo (interp & d & R & E) M K. split; [exact Fo|]. split; [|split; [exact M|exact K]].
  assert (W : fwf f).
  { unfold dat_to_fdat in E. destruct (dmapM _ (dc_data d)) as [a|] eqn:Ea; [|discriminate]. cbn [bind] in E.
    apply freachable_wf. exists (fitems a), (ff_M F), f, []. split; [exact E|reflexivity]. }
  destruct W as (W1 & W2). split.
  - exact W1.
  - intros k v I. exact (proj1 (Forall_forall _ _) W2 (k, v) I).
Qed.
Theorem noise_misfit interp d1 d2 F eps : exact_at_nodes interp -> reachable d1 -> reachable d2 -> get_keys d1 = get_keys d2 ->
  (forall k p q, get_pc d1 k "radians" = Ok p -> get_pc d2 k "radians" = Ok q ->
    (2 <= length p)%nat /\ (2 * ff_M F < length p)%nat /\ accepts interp (length p) /\ equally_spaced p /\ noisy eps p q) ->
  (forall k, In k (map fst (ff_rows F)) -> In k (get_keys d1)) ->
  exists f1 f2, dat_to_fdat interp d1 (ff_M F) = Ok f1 /\ dat_to_fdat interp d2 (ff_M F) = Ok f2 /\
    (formula_ok F -> matching F f1 /\ matching F f2) /\
    forall rho, reproduces F f2 rho -> misfit F f1 rho <= INR (length (ff_rows F)) * eps ^ 2.
Proof.
  intros X R1 R2 K H I.
  destruct (noise_bound interp d1 d2 (ff_M F) eps X R1 R2 K) as (f1 & f2 & E1 & E2 & K1 & K2 & M1 & M2 & B).
  { intros k p q G1 G2. destruct (H k p q G1 G2) as (L & _ & A & S & N). repeat split; assumption. }
  exists f1, f2. split; [exact E1|]. split; [exact E2|]. split.
  - intros Fo. split; apply fdat_matching; try assumption.
    + exists interp, d1. split; [exact R1|exact E1].
    + intros k J. rewrite K1. apply I, J.
    + exists interp, d2. split; [exact R2|exact E2].
    + intros k J. rewrite K2. apply I, J.
  - intros rho Re. unfold misfit. rewrite <- (rsum_const (eps ^ 2) (ff_rows F)). apply rsum_le. intros [k r] J. cbn [fst snd].
    assert (Ik : In k (get_keys d1)) by (apply I, in_map_iff; exists (k, r); split; [reflexivity|exact J]).
    assert (Ik2 : In k (get_keys d2)) by (rewrite <- K; exact Ik).
    apply in_map_iff in Ik as ([k' p] & Ek & Ip). cbn [fst] in Ek. subst k'.
    apply in_map_iff in Ik2 as ([k' q] & Ek & Iq). cbn [fst] in Ek. subst k'.
    apply (get_pc_In d1 k p (reachable_wf d1 R1)) in Ip. apply (get_pc_In d2 k q (reachable_wf d2 R2)) in Iq.
    destruct (H k p q Ip Iq) as (L & LM & _ & _ & N). destruct (B k p q Ip Iq) as (v & w & V & Wv & _ & P).
    eapply Rle_trans; [|apply (power_bound eps p q N); lia]. eapply Rle_trans; [|apply P; exact LM]. right.
    apply rsum_ext. intros m Im. rewrite (Re k r m J Im), (dvalue_coef f1 k v m V), (dvalue_coef f2 k w m Wv), M1, M2.
    rewrite <- Cmod_opp. f_equal. f_equal. ring.
Qed.

(** Two measurements close to each other *)
Definition pair_row (dl y : R) : list (R * R) := [(0, 0); (dl, y)].
Definition pair_dat (dl y : R) : dat := mkdat [("PP"%string, pair_row dl y)] 1 0 0 "radians" false.
Section Pair.
Variables (dl y : R).
Hypothesis D0 : 0 < dl.
Hypothesis D1 : dl < 2 * PI.
Lemma pair_reach : reachable (pair_dat dl y).
Proof.
  exists (input DFloat [("PP"%string, pair_row dl y)]), "radians"%string, false. eexists _, []. split.
  - rewrite construct_input; [reflexivity|repeat constructor; simpl; tauto|]. constructor; [|constructor]. discriminate.
  - unfold run. simpl. unfold pair_dat. rewrite finish_id; [reflexivity| |].
    + repeat constructor; cbn [fst]; pose proof PI_RGT_0; lra.
    + repeat constructor; cbn [fst]; exact D0.
Qed.
Lemma pair_pcs k p : get_pc (pair_dat dl y) k "radians" = Ok p -> p = pair_row dl y.
Proof. intros E. apply (get_pc_In _ _ _ (reachable_wf _ pair_reach)) in E. destruct E as [E|[]]. congruence. Qed.
Lemma pair_strict : strict (pair_row dl y).
Proof. unfold pair_row. repeat constructor; cbn [fst]; exact D0. Qed.
Lemma pair_linear : linear (pair_row dl y) = Ok (segment (pair_row dl y)).
Proof. apply linear_strict; [discriminate|exact pair_strict]. Qed.
Lemma pair_coefs M : exists f v, dat_to_fdat linear (pair_dat dl y) M = Ok f /\ fget_pc f "PP" = Ok v /\ coef M v 0 = RtoC (y * PI / (2 * dl)).
Proof.
  destruct (resampled_coefs linear (pair_dat dl y) M pair_reach) as (f & E & _ & _ & F).
  { intros k p G. rewrite (pair_pcs k p G). split; [cbn; lia|]. eexists. exact pair_linear. }
  destruct (F "PP"%string (pair_row dl y) (segment (pair_row dl y)) eq_refl pair_linear) as (v & V & _ & Co).
  exists f, v. split; [exact E|]. split; [exact V|]. rewrite Co by lia. unfold sample_coef. cbn [length pair_row seq].
  unfold Csum. cbn [fold_right]. rewrite Ropp_0, !Rmult_0_l, cis_0. cbn [segment fst snd INR].
  unfold pair_row. cbn [segment fst snd]. apply C_ext; unfold Re, Im; simpl; field; lra.
Qed.
End Pair.
Theorem noise_grows M K : exists d1 d2 f1 f2 v w, reachable d1 /\ reachable d2 /\ get_keys d1 = get_keys d2 /\
  (forall k p q, get_pc d1 k "radians" = Ok p -> get_pc d2 k "radians" = Ok q -> length p = 2%nat /\ noisy 1 p q) /\
  dat_to_fdat linear d1 M = Ok f1 /\ dat_to_fdat linear d2 M = Ok f2 /\ fget_pc f1 "PP" = Ok v /\ fget_pc f2 "PP" = Ok w /\
  K <= Cmod (Cminus (coef M v 0) (coef M w 0)).
Proof.
  set (K' := Rmax K 1). assert (K1 : 1 <= K') by apply Rmax_r. assert (KK : K <= K') by apply Rmax_l. clearbody K'.
  set (dl := PI / (2 * K')). pose proof PI_RGT_0 as P.
  assert (D0 : 0 < dl) by (apply Rdiv_lt_0_compat; lra).
  assert (E : PI = dl * (2 * K')) by (unfold dl; field; lra).
  assert (D1 : dl < 2 * PI) by nra. clearbody dl.
  destruct (pair_coefs dl 1 D0 D1 M) as (f1 & v & E1 & V & C1). destruct (pair_coefs dl 0 D0 D1 M) as (f2 & w & E2 & Wv & C2).
  exists (pair_dat dl 1), (pair_dat dl 0), f1, f2, v, w. split; [apply pair_reach; assumption|]. split; [apply pair_reach; assumption|]. split; [reflexivity|]. split.
  { intros k p q G1 G2. rewrite (pair_pcs dl 1 D0 D1 k p G1), (pair_pcs dl 0 D0 D1 k q G2). split; [reflexivity|].
    repeat constructor; cbn [fst snd]; rewrite ?Rminus_0_r, ?Rabs_R1, ?Rabs_R0; lra. }
  split; [exact E1|]. split; [exact E2|]. split; [exact V|]. split; [exact Wv|]. rewrite C1, C2, <- RtoC_minus, Cmod_R.
  replace (1 * PI / (2 * dl) - 0 * PI / (2 * dl)) with K'; [|rewrite E; field; lra]. rewrite Rabs_pos_eq; lra.
Qed.
