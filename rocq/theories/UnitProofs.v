(** Proofs for C136: data and tensors in another unit. *)
From Coq Require Import String List Arith ZArith Bool Lia Reals Lra.
From Coquelicot Require Import Complex.
Import ListNotations.
From Verif Require Import PyBase CBase Expr ExprProofs SpecForm SpecFData DataModel DataProofs2 FDataModel FDataProofs FormModel FitModel SpecFit FitProofs FitProofs2 LsqProofs LsqProofs2 RMod
  SymProofs2 SpecUnit.
Local Open Scope nat_scope.

Lemma scaled_facts D x : (0 <= x)%R -> snd (scale_fdata D x) = Ok tt /\
  fd_data (fst (scale_fdata D x)) = dmap (map (Cmult (RtoC x))) (fd_data D) /\ fd_M (fst (scale_fdata D x)) = fd_M D.
Proof. intros P. unfold scale_fdata. destruct (Rltb x 0) eqn:N; [|repeat split]. rewrite (proj2 (Rltb_false x 0)) in N by exact P. discriminate. Qed.

(** Data with the values of [D] times [x], whatever their history. *)
Definition rescaled (x : R) (D D' : fdat) : Prop := fd_data D' = dmap (map (Cmult (RtoC x))) (fd_data D) /\ fd_M D' = fd_M D.

Lemma rescaled_matching F D D' x : rescaled x D D' -> matching F D -> matching F D'.
Proof.
  intros (Ed & Em) (FO & (Nd & Ld) & EM & K). split; [exact FO|]. split; [split|split].
  - rewrite Ed. change (NoDup (dkeys (dmap (map (Cmult (RtoC x))) (fd_data D)))). rewrite dkeys_dmap. exact Nd.
  - intros k v I. rewrite Ed in I. apply In_dmap in I as (w & I & ->). rewrite Em, map_length. apply (Ld k w I).
  - rewrite Em, EM. reflexivity.
  - intros k I. rewrite Ed. change (In k (dkeys (dmap (map (Cmult (RtoC x))) (fd_data D)))). rewrite dkeys_dmap. apply K, I.
Qed.

Lemma rescaled_dvalue F D D' x k m : rescaled x D D' -> matching F D -> In m (freqs (ff_M F)) -> dvalue D' k m = (RtoC x * dvalue D k m)%C.
Proof.
  intros (Ed & Em) (FO & (Nd & Ld) & EM & K) J. apply In_freqs in J.
  unfold dvalue. rewrite Ed, Em, dget_dmap. destruct (dget k (fd_data D)) as [v|] eqn:G; cbn [option_map].
  - rewrite coef_scale; [reflexivity|apply (Ld k v), dget_In, G|rewrite EM; lia].
  - ring.
Qed.

Lemma misfit_units F D D' x rho rho' : matching F D -> rescaled x D D' ->
  (forall k r m, In (k, r) (ff_rows F) -> In m (freqs (ff_M F)) -> eval rho' (fcell (ff_M F) r m) = (RtoC x * eval rho (fcell (ff_M F) r m))%C) ->
  misfit F D' rho' = (x ^ 2 * misfit F D rho)%R.
Proof.
  intros Ma Sc H. unfold misfit. rewrite <- rsum_scal. apply rsum_ext. intros [k r] I. cbn [fst snd]. rewrite <- rsum_scal. apply rsum_ext. intros m J.
  rewrite (H k r m I J), (rescaled_dvalue F D D' x k m Sc Ma J), <- (pow2_abs x), <- Cmod_R, <- Rpow_mult_distr, <- Cmod_mult. f_equal. f_equal. ring.
Qed.

Lemma reading_times c free xs s : reading free (times c xs) s = (RtoC c * reading free xs s)%C.
Proof.
  revert xs. unfold times. induction free as [|f free IH]; intros [|x xs]; cbn [reading map]; try (apply C_ext; unfold Re, Im; simpl; ring).
  destruct (sym_eqb s f); [apply RtoC_mult|apply IH].
Qed.

Lemma unit_cost kev F D D' u free chunk chunk' save save' lfs lfs' : sound_kev kev -> ff_M F = 16 -> matching F D -> ff_rows F <> [] -> rescaled u D D' -> (0 <= u)%R ->
  (forall (c : R) rho rho', respects rho -> (forall s, rho' s = (RtoC c * rho s)%C) -> forall k r m, In (k, r) (ff_rows F) -> In m (freqs 16) ->
      eval rho' (fcell 16 r m) = (RtoC (c ^ 2) * eval rho (fcell 16 r m))%C) ->
  argument_list F free ->
  exists lib lib', gen_cost_func kev F D (Some free) chunk save lfs = (save_lib save lib lfs, Ok lib) /\
    gen_cost_func kev F D' (Some free) chunk' save' lfs' = (save_lib save' lib' lfs', Ok lib') /\
    forall xs, length xs = length free -> exists c, call lib xs = Some c /\ call lib' (times (sqrt u) xs) = Some (u ^ 2 * c)%R.
Proof.
  intros KEV M Ma NE Sc P H A. pose proof (rescaled_matching F D D' u Sc Ma) as Ma'.
  destruct (cost_ok kev KEV F D free chunk save lfs Ma A (fun _ => NE)) as (lib & G & Cp).
  destruct (cost_ok kev KEV F D' free chunk' save' lfs' Ma' A (fun _ => NE)) as (lib' & G' & Cp').
  exists lib, lib'. split; [exact G|]. split; [exact G'|]. intros xs L. exists (misfit F D (reading free xs)).
  assert (L1 : length free <= length xs) by lia. assert (L2 : length free <= length (times (sqrt u) xs)) by (unfold times; rewrite map_length; lia).
  split.
  - apply Cp; [exact L1|]. apply reading_assigns; [apply A|exact L1].
  - rewrite (Cp' _ (reading free (times (sqrt u) xs)) L2); [|apply reading_assigns; [apply A|exact L2]]. f_equal.
    apply (misfit_units F D D' u _ _ Ma Sc). intros k r m I J. rewrite M in *.
    rewrite (H (sqrt u) (reading free xs) _ (reading_respects free xs) (fun s => reading_times (sqrt u) free xs s) k r m I J).
    rewrite pow2_sqrt by exact P. reflexivity.
Qed.

(** Costs proportional to each other along a change of unit have the same minima. *)
Lemma unit_minimises (lib lib' : list code) n k p : (0 < k)%R -> (0 < p)%R ->
  (forall xs, length xs = n -> exists c, call lib xs = Some c /\ call lib' (times k xs) = Some (p * c)%R) ->
  forall xs, minimises lib n xs <-> minimises lib' n (times k xs).
Proof.
  intros Hk Hp H xs.
  assert (Len : forall c ys, length (times c ys) = length ys) by (intros; apply map_length).
  assert (Back : forall ys, times k (times (/ k) ys) = ys).
  { intros ys. unfold times. rewrite map_map. transitivity (map (fun y => y) ys); [apply map_ext|apply map_id]. intros y. field. lra. }
  split.
  - intros (L & c & C & B). split; [rewrite Len; exact L|]. destruct (H xs L) as (c1 & C1 & C2). assert (c1 = c) by congruence. subst c1.
    exists (p * c)%R. split; [exact C2|]. intros ys Ly. destruct (B (times (/ k) ys)) as (c' & C' & Le); [rewrite Len; exact Ly|].
    destruct (H (times (/ k) ys)) as (c2 & D1 & D2); [rewrite Len; exact Ly|]. assert (c2 = c') by congruence. subst c2. rewrite Back in D2.
    exists (p * c')%R. split; [exact D2|]. apply Rmult_le_compat_l; lra.
  - intros (L & c & C & B). rewrite Len in L. split; [exact L|]. destruct (H xs L) as (c1 & C1 & C2). assert (E : c = (p * c1)%R) by congruence.
    exists c1. split; [exact C1|]. intros ys Ly. destruct (B (times k ys)) as (c' & C' & Le); [rewrite Len; exact Ly|].
    destruct (H ys Ly) as (c2 & D1 & D2). assert (E' : c' = (p * c2)%R) by congruence. exists c2. split; [exact D1|]. subst c c'.
    apply (Rmult_le_reg_l p); assumption.
Qed.

(** Scaling and normalizing: the recorded scale tells the factor. *)
Lemma units_step D o : (exists x, o = FScale x \/ o = FNormalize x) -> snd (fstep D o) = Ok tt ->
  exists u, (0 <= u)%R /\ fget_scale (fst (fstep D o)) = (fget_scale D * u)%R /\ rescaled u D (fst (fstep D o)).
Proof.
  assert (S : forall u, snd (scale_fdata D u) = Ok tt -> (0 <= u)%R /\ fget_scale (fst (scale_fdata D u)) = (fget_scale D * u)%R /\ rescaled u D (fst (scale_fdata D u))).
  { intros u. unfold scale_fdata. destruct (Rltb u 0) eqn:N; [discriminate|]. intros _. split; [apply Rltb_false; exact N|]. split; [reflexivity|split; reflexivity]. }
  intros (x & [-> | ->]) E; cbn [fstep] in *.
  - exists x. exact (S x E).
  - unfold normalize_fdata in *. destruct (fget_maxval D) as [[[k m]|]|e].
    + destruct (Reqb m 0); [destruct (Rltb x 0); discriminate E|]. exists (x / m)%R. exact (S _ E).
    + exists 0%R. exact (S _ E).
    + discriminate E.
Qed.
