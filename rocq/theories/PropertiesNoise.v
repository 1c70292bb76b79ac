(** Property C115: noise in the measurements and in their Fourier coefficients. *)
From Coq Require Import String List Arith ZArith Reals Lra Lia Bool Sorted QArith Qreals.
From Coquelicot Require Import Complex.
From Verif Require Import PyBase RMod CBase Expr DataModel SpecData DataProofs DataProofs2 FDataModel SpecFData FDataProofs FDataProofs2
  FormModel FitModel SpecFit FitProofs SpecLin InterpModel SpecInterp InterpProofs InterpProofs2 InterpProofs3 SpecNoise NoiseProofs.
Import ListNotations.
Local Open Scope nat_scope.
Open Scope R_scope.

(** With angles that are not equally spaced the coefficients amplify noise without bound. *)
Theorem C115_refuted : forall M K, exists d1 d2 f1 f2 v w, reachable d1 /\ reachable d2 /\ get_keys d1 = get_keys d2 /\
  (forall k p q, get_pc d1 k "radians" = Ok p -> get_pc d2 k "radians" = Ok q -> length p = 2%nat /\ noisy 1 p q) /\
  dat_to_fdat linear d1 M = Ok f1 /\ dat_to_fdat linear d2 M = Ok f2 /\ fget_pc f1 "PP" = Ok v /\ fget_pc f2 "PP" = Ok w /\
  K <= Cmod (Cminus (coef M v 0) (coef M w 0)).
Proof. exact noise_grows. Qed.
Print Assumptions C115_refuted.

(** With equally spaced angles no coefficient is off by more than the noise, and all
    of them together by no more than its mean square. *)
Theorem C115_noise_partial : forall interp d1 d2 M eps, exact_at_nodes interp -> reachable d1 -> reachable d2 -> get_keys d1 = get_keys d2 ->
  (forall k p q, get_pc d1 k "radians" = Ok p -> get_pc d2 k "radians" = Ok q ->
    (2 <= length p)%nat /\ accepts interp (length p) /\ equally_spaced p /\ noisy eps p q) ->
  exists f1 f2, dat_to_fdat interp d1 M = Ok f1 /\ dat_to_fdat interp d2 M = Ok f2 /\
    fget_keys f1 = get_keys d1 /\ fget_keys f2 = get_keys d1 /\ fget_M f1 = M /\ fget_M f2 = M /\
    forall k p q, get_pc d1 k "radians" = Ok p -> get_pc d2 k "radians" = Ok q ->
      exists v w, fget_pc f1 k = Ok v /\ fget_pc f2 k = Ok w /\
        (forall m, (Z.abs m <= Z.of_nat M)%Z -> Cmod (Cminus (coef M v m) (coef M w m)) <= eps) /\
        ((2 * M < length p)%nat -> rsum (fun m => Cmod (Cminus (coef M v m) (coef M w m)) ^ 2) (freqs M) <= noise_power p q).
Proof. exact noise_bound. Qed.
Print Assumptions C115_noise_partial.

(** The cost of the true parameters is at most the square of the noise per polarization. *)
Theorem C115_misfit_partial : forall interp d1 d2 F eps, exact_at_nodes interp -> reachable d1 -> reachable d2 -> get_keys d1 = get_keys d2 ->
  (forall k p q, get_pc d1 k "radians" = Ok p -> get_pc d2 k "radians" = Ok q ->
    (2 <= length p)%nat /\ (2 * ff_M F < length p)%nat /\ accepts interp (length p) /\ equally_spaced p /\ noisy eps p q) ->
  (forall k, In k (map fst (ff_rows F)) -> In k (get_keys d1)) ->
  exists f1 f2, dat_to_fdat interp d1 (ff_M F) = Ok f1 /\ dat_to_fdat interp d2 (ff_M F) = Ok f2 /\
    (formula_ok F -> matching F f1 /\ matching F f2) /\
    forall rho, reproduces F f2 rho -> misfit F f1 rho <= INR (length (ff_rows F)) * eps ^ 2.
Proof. exact noise_misfit. Qed.
Print Assumptions C115_misfit_partial.

(** One measurement of four is wrong by one. *)
Definition calm_row : list (R * R) := sampled 4 (fun _ => 0).
Definition calm : dat := mkdat [("PP"%string, calm_row)] 1 0 0 "radians" false.
Definition signal : fform := mkff [("PP"%string, mkrow true [num 0%Q; ESym (mksym "a" (Some true)); num 0%Q])] 1.
Lemma calm_reach : reachable calm.
Proof.
  exists (input DFloat [("PP"%string, calm_row)]), "radians"%string, false. eexists _, []. split.
  - rewrite construct_input; [reflexivity|repeat constructor; simpl; tauto|]. constructor; [|constructor]. discriminate.
  - unfold run. simpl. unfold calm, calm_row. now rewrite finish_sampled.
Qed.
Lemma calm_pcs k p : get_pc calm k "radians" = Ok p -> p = calm_row.
Proof. intros E. apply (get_pc_In _ _ _ (reachable_wf _ calm_reach)) in E. destruct E as [E|[]]. congruence. Qed.
Lemma spike_noise : noisy 1 spike_row calm_row.
Proof.
  assert (E : calm_row = [(0, 0); (PI / 2, 0); (PI, 0); (3 * (PI / 2), 0)]).
  { unfold calm_row, sampled, grid. cbn [seq map]. rewrite !node4. cbn [INR].
    repeat match goal with |- _ :: _ = _ :: _ => f_equal end; try (f_equal; field). }
  rewrite spike_is, E. repeat constructor; cbn [fst snd]; rewrite Rminus_0_r, ?Rabs_R1, ?Rabs_R0; lra.
Qed.
Example C115_case : exact_at_nodes linear /\ reachable spike /\ reachable calm /\ get_keys spike = get_keys calm /\
  (forall k p q, get_pc spike k "radians" = Ok p -> get_pc calm k "radians" = Ok q ->
    (2 <= length p)%nat /\ (2 * ff_M signal < length p)%nat /\ accepts linear (length p) /\ equally_spaced p /\ noisy 1 p q) /\
  formula_ok signal /\ (forall k, In k (map fst (ff_rows signal)) -> In k (get_keys spike)) /\
  noise_power spike_row calm_row = 1 / 4.
Proof.
  split; [exact linear_exact|]. split; [exact spike_reach|]. split; [exact calm_reach|]. split; [reflexivity|]. split.
  { intros k p q G1 G2. rewrite (spike_pcs k p G1), (calm_pcs k q G2), spike_length. split; [lia|]. split; [cbn; lia|].
    split; [apply linear_accepts; lia|]. split; [exact spike_spaced|exact spike_noise]. }
  split; [split; [repeat constructor; simpl; tauto|]|].
  { intros k r [E|[]]. injection E as <- <-. reflexivity. }
  split; [intros k I; exact I|].
  unfold noise_power. rewrite spike_length, spike_is. unfold calm_row, sampled, grid. cbn [seq map combine]. unfold rsum. cbn [fold_right fst snd INR]. field.
Qed.
