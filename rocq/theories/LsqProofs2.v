(** The misfit of shifted, scaled and merged containers. *)
From Coq Require Import String List Arith ZArith QArith Reals Lra Lia Permutation.
From Coquelicot Require Import Complex.
From Verif Require Import PyBase RMod CBase Expr ExprProofs DataModel SpecData DataProofs DataProofs2 FDataModel SpecFData FDataProofs FDataProofs2 FormModel SpecForm
  FormProofs FormProofs2 FormProofs3 FitModel SpecFit FitProofs SpecLsq LsqProofs.
Import ListNotations.
Local Open Scope nat_scope.

Lemma Forall2_weaken {A B} (P Q : A -> B -> Prop) l l' : (forall a b, P a b -> Q a b) -> Forall2 P l l' -> Forall2 Q l l'.
Proof. intros H X. induction X; constructor; auto. Qed.
Lemma fcell_map_rows M f b cells m : length cells = 2 * M + 1 -> In m (freqs M) ->
  fcell M (mkrow b (map (fun mc => f (fst mc) (snd mc)) (combine (freqs M) cells))) m = f m (fcell M (mkrow b cells) m).
Proof.
  intros L I. apply In_freqs in I. unfold fcell. cbn [r_cells]. set (i := Z.to_nat (m + Z.of_nat M)).
  assert (Li : i < 2 * M + 1) by (unfold i; lia).
  assert (Lc : length (combine (freqs M) cells) = 2 * M + 1) by (rewrite combine_length, length_freqs; lia).
  rewrite (nth_indep _ _ ((fun mc => f (fst mc) (snd mc)) (0%Z, num 0))) by (rewrite map_length, Lc; exact Li).
  rewrite (map_nth (fun mc => f (fst mc) (snd mc))), combine_nth by (rewrite length_freqs; lia). cbn [fst snd].
  rewrite (freqs_nth M i 0%Z) by exact Li. f_equal. unfold i. lia.
Qed.

(** both sides multiplied by factors of the same modulus *)
Lemma misfit_factor F F' D D' rho c (u : Z -> C) :
  ff_M F' = ff_M F -> Forall2 (fun a b => fst a = fst b /\ forall m, In m (freqs (ff_M F)) ->
     eval rho (fcell (ff_M F) (snd b) m) = Cmult (u m) (eval rho (fcell (ff_M F) (snd a) m))) (ff_rows F) (ff_rows F') ->
  (forall k m, In k (map fst (ff_rows F)) -> In m (freqs (ff_M F)) -> dvalue D' k m = Cmult (u m) (dvalue D k m)) ->
  (forall m, In m (freqs (ff_M F)) -> (Cmod (u m) ^ 2 = c)%R) -> misfit F' D' rho = (c * misfit F D rho)%R.
Proof.
  intros EM A B U. unfold misfit. rewrite EM. rewrite <- rsum_scal. revert B. induction A as [|[k r] [k' r'] l l' [E X] A IH]; intros B; [reflexivity|].
  cbn [fst snd] in E, X. subst k'. unfold rsum at 1 3. cbn [fold_right fst snd].
  specialize (IH (fun k m Ik Im => B k m (or_intror Ik) Im)). unfold rsum at 1 3 in IH. cbn [fst snd] in IH. rewrite IH. f_equal.
  rewrite <- rsum_scal. apply rsum_ext. intros m Im. rewrite (X m Im), (B k m (or_introl eq_refl) Im).
  replace (Cminus (Cmult (u m) (eval rho (fcell (ff_M F) r m))) (Cmult (u m) (dvalue D k m))) with (Cmult (u m) (Cminus (eval rho (fcell (ff_M F) r m)) (dvalue D k m))) by ring.
  rewrite Cmod_mult, Rpow_mult_distr, (U m Im). reflexivity.
Qed.

Lemma map_rows_related f F : formula_ok F -> Forall2 (fun a b => fst a = fst b /\ forall m, In m (freqs (ff_M F)) -> fcell (ff_M F) (snd b) m = f m (fcell (ff_M F) (snd a) m))
  (ff_rows F) (ff_rows (map_rows f F)).
Proof.
  intros [_ L]. cbn [map_rows ff_rows]. unfold dmap. induction (ff_rows F) as [|[k r] l IH]; cbn [map]; constructor.
  - cbn [fst snd]. split; [reflexivity|]. intros m I. rewrite fcell_map_rows; [reflexivity|apply (L k r); left; reflexivity|exact I].
  - apply IH. intros k' r' I. apply (L k' r'). right; exact I.
Qed.
Lemma map_rows_ok f F : formula_ok F -> formula_ok (map_rows f F).
Proof.
  intros [N L]. split.
  - change (NoDup (dkeys (ff_rows (map_rows f F)))). cbn [map_rows ff_rows]. rewrite dkeys_dmap. exact N.
  - intros k r I. cbn [map_rows ff_rows ff_M] in *. apply In_dmap in I as (r0 & I & ->). cbn [r_cells].
    rewrite map_length, combine_length, length_freqs, (L k r0 I). lia.
Qed.
Lemma fcoef_get D k m v : dget k (fd_data D) = Some v -> dvalue D k m = coef (fd_M D) v m.
Proof. intros E. unfold dvalue. now rewrite E. Qed.

Section Shift.
Variable ev : expr -> expr.
Hypothesis EV : sound_ev ev.

Lemma misfit_shift F D a x np rho : matching F D -> respects rho -> eval rho a = RtoC x ->
  matching (ff_phase_shift ev F a) (fst (phase_shift_fdata D x np "radians")) /\
  misfit (ff_phase_shift ev F a) (fst (phase_shift_fdata D x np "radians")) rho = misfit F D rho.
Proof.
  intros (FO & DO & EM & K) Hr Ea.
  assert (Ed : fd_data (fst (phase_shift_fdata D x np "radians")) = dmap (shift_row (fd_M D) x) (fd_data D) /\ fd_M (fst (phase_shift_fdata D x np "radians")) = fd_M D).
  { unfold phase_shift_fdata. cbn. destruct (phase_add _ _ _); split; reflexivity. }
  destruct Ed as [Ed Em]. set (D' := fst (phase_shift_fdata D x np "radians")) in *. clearbody D'. destruct DO as [Nd Ld].
  split.
  - split; [apply map_rows_ok; exact FO|]. split; [split|split].
    + rewrite Ed. change (NoDup (dkeys (dmap (shift_row (fd_M D) x) (fd_data D)))). rewrite dkeys_dmap. exact Nd.
    + intros k v I. rewrite Ed in I. apply In_dmap in I as (w & I & ->). rewrite Em. apply shift_row_length. apply (Ld k w I).
    + rewrite Em, EM. reflexivity.
    + intros k I. rewrite Ed. change (In k (dkeys (dmap (shift_row (fd_M D) x) (fd_data D)))). rewrite dkeys_dmap. apply K.
      change (In k (dkeys (ff_rows F))). change (In k (dkeys (dmap (fun r => mkrow true (map (fun mc => ev (EMul [snd mc; cis_expr (fst mc) a])) (combine (freqs (ff_M F)) (r_cells r)))) (ff_rows F)))) in I.
      rewrite dkeys_dmap in I. exact I.
  - rewrite (misfit_factor F _ D D' rho 1 (fun m => cis (IZR m * x))); [ring|reflexivity| | |].
    + eapply Forall2_weaken; [|apply map_rows_related; exact FO]. intros [k r] [k' r'] [E X]. split; [exact E|]. intros m I. rewrite (X m I).
      rewrite (proj1 EV) by exact Hr. rewrite eval_mul. cbn [map fold_right]. rewrite eval_cis_expr, Ea, <- RtoC_mult, Cexpi_R. ring.
    + intros k m I J. apply In_freqs in J. assert (Jm : (Z.abs m <= Z.of_nat (fd_M D))%Z) by lia.
      apply K in I. unfold dvalue. rewrite Ed, Em, dget_dmap. destruct (dget k (fd_data D)) as [v|] eqn:G.
      * cbn [option_map]. rewrite shift_row_coef; [ring|apply (Ld k v), dget_In, G|exact Jm].
      * cbn [option_map]. ring.
    + intros m _. rewrite Cmod_cis. ring.
Qed.

Lemma misfit_scale F D s x rho : matching F D -> respects rho -> eval rho s = RtoC x -> (0 <= x)%R ->
  snd (scale_fdata D x) = Ok tt /\ matching (ff_scale ev F s) (fst (scale_fdata D x)) /\
  misfit (ff_scale ev F s) (fst (scale_fdata D x)) rho = (x ^ 2 * misfit F D rho)%R.
Proof.
  intros (FO & DO & EM & K) Hr Ea P.
  assert (Ed : snd (scale_fdata D x) = Ok tt /\ fd_data (fst (scale_fdata D x)) = dmap (map (Cmult (RtoC x))) (fd_data D) /\ fd_M (fst (scale_fdata D x)) = fd_M D).
  { unfold scale_fdata. destruct (Rltb x 0) eqn:N; [|repeat split]. rewrite (proj2 (Rltb_false x 0)) in N by exact P. discriminate. }
  destruct Ed as (Eo & Ed & Em). split; [exact Eo|]. set (D' := fst (scale_fdata D x)) in *. clearbody D'. destruct DO as [Nd Ld].
  split.
  - split; [apply map_rows_ok; exact FO|]. split; [split|split].
    + rewrite Ed. change (NoDup (dkeys (dmap (map (Cmult (RtoC x))) (fd_data D)))). rewrite dkeys_dmap. exact Nd.
    + intros k v I. rewrite Ed in I. apply In_dmap in I as (w & I & ->). rewrite Em, map_length. apply (Ld k w I).
    + rewrite Em, EM. reflexivity.
    + intros k I. rewrite Ed. change (In k (dkeys (dmap (map (Cmult (RtoC x))) (fd_data D)))). rewrite dkeys_dmap. apply K.
      change (In k (dkeys (ff_rows F))). change (In k (dkeys (dmap (fun r => mkrow true (map (fun mc => ev (EMul [s; snd mc])) (combine (freqs (ff_M F)) (r_cells r)))) (ff_rows F)))) in I.
      rewrite dkeys_dmap in I. exact I.
  - rewrite (misfit_factor F _ D D' rho (x ^ 2) (fun m => RtoC x)); [ring|reflexivity| | |].
    + eapply Forall2_weaken; [|apply map_rows_related; exact FO]. intros [k r] [k' r'] [E X]. split; [exact E|]. intros m I. rewrite (X m I).
      rewrite (proj1 EV) by exact Hr. rewrite eval_mul. cbn [map fold_right]. rewrite Ea. ring.
    + intros k m I J. apply In_freqs in J. assert (Jm : (Z.abs m <= Z.of_nat (fd_M D))%Z) by lia.
      unfold dvalue. rewrite Ed, Em, dget_dmap. destruct (dget k (fd_data D)) as [v|] eqn:G.
      * cbn [option_map]. rewrite coef_scale; [reflexivity|apply (Ld k v), dget_In, G|exact Jm].
      * cbn [option_map]. ring.
    + intros m _. rewrite Cmod_R, pow2_abs. reflexivity.
Qed.
End Shift.

(** ** Merged containers *)

Fixpoint renamed {V} (g : string -> nat -> string) (i : nat) (ls : list (list (string * V))) : list (string * V) :=
  match ls with
  | [] => []
  | l :: ls' => (map (fun kv => (g (fst kv) i, snd kv)) l ++ renamed g (S i) ls')%list
  end.
Lemma In_renamed {V} g (ls : list (list (string * V))) : forall i k v,
  In (k, v) (renamed g i ls) <-> exists j l k0, nth_error ls j = Some l /\ In (k0, v) l /\ k = g k0 (i + j).
Proof.
  induction ls as [|l ls IH]; intros i k v; cbn [renamed].
  - split; [intros []|]. intros ([|j] & l & k0 & E & _); discriminate E.
  - rewrite in_app_iff, IH, in_map_iff. split.
    + intros [([k0 v0] & E & I)|(j & l0 & k0 & E & I & ->)].
      * cbn [fst snd] in E. injection E as <- <-. exists 0, l, k0. split; [reflexivity|]. split; [exact I|]. now rewrite Nat.add_0_r.
      * exists (S j), l0, k0. split; [exact E|]. split; [exact I|]. f_equal. lia.
    + intros ([|j] & l0 & k0 & E & I & ->).
      * injection E as <-. left. exists (k0, v). split; [now rewrite Nat.add_0_r|exact I].
      * right. exists j, l0, k0. split; [exact E|]. split; [exact I|]. f_equal. lia.
Qed.
Definition separate {V} (g : string -> nat -> string) (ls : list (list (string * V))) : Prop :=
  forall j j' l l' k k', nth_error ls j = Some l -> nth_error ls j' = Some l' -> In k (map fst l) -> In k' (map fst l') -> g k j = g k' j' -> j = j' /\ k = k'.
Lemma NoDup_renamed {V} g (ls : list (list (string * V))) : forall i, Forall (fun l => NoDup (map fst l)) ls -> separate (fun k j => g k (i + j)) ls ->
  NoDup (map fst (renamed g i ls)).
Proof.
  induction ls as [|l ls IH]; intros i N S; cbn [renamed]; [constructor|]. inversion N as [|? ? N0 N1]; subst. rewrite map_app. apply NoDup_app'.
  - rewrite map_map. cbn [fst]. rewrite <- (map_map fst (fun k => g k i)).
    assert (Inj : forall k k', In k (map fst l) -> In k' (map fst l) -> g k i = g k' i -> k = k').
    { intros k k' I I' E. destruct (S 0 0 l l k k' eq_refl eq_refl I I') as [_ E']; [now rewrite Nat.add_0_r|exact E']. }
    clear - N0 Inj. induction N0 as [|k ks X N0 IH]; cbn [map]; constructor.
    + intros I. apply in_map_iff in I as (k' & E & I). apply X. rewrite (Inj k k'); [exact I|left; reflexivity|right; exact I|symmetry; exact E].
    + apply IH. intros a b Ia Ib. apply Inj; right; assumption.
  - apply IH; [exact N1|]. intros j j' l0 l0' k k' E E' I I' G.
    destruct (S (Datatypes.S j) (Datatypes.S j') l0 l0' k k' E E' I I') as [A B].
    + replace (i + Datatypes.S j) with (Datatypes.S i + j) by lia. replace (i + Datatypes.S j') with (Datatypes.S i + j') by lia. exact G.
    + split; [congruence|exact B].
  - intros k I J. apply in_map_iff in I as ([k0 v] & E & I). cbn [fst] in E. subst k0. apply in_map_iff in I as ([k0 v0] & E & I). cbn [fst snd] in E. injection E as <- <-.
    apply in_map_iff in J as ([k1 v1] & E & J). cbn [fst] in E. subst k1. apply In_renamed in J as (j & l0 & k1 & E & J & G).
    destruct (S 0 (Datatypes.S j) l l0 k0 k1 eq_refl E) as [A _]; [apply in_map_iff; exists (k0, v0); split; [reflexivity|exact I]|apply in_map_iff; exists (k1, v1); split; [reflexivity|exact J]| |discriminate A].
    rewrite Nat.add_0_r, G. f_equal. lia.
Qed.
Lemma NoDup_fst {A B} (l : list (A * B)) : NoDup (map fst l) -> NoDup l.
Proof. induction l as [|[a b] l IH]; intros N; constructor; inversion N; subst; auto. intros I. apply H1. apply in_map_iff. exists (a, b). auto. Qed.
Lemma fst_functional {A B} (l : list (A * B)) a b b' : NoDup (map fst l) -> In (a, b) l -> In (a, b') l -> b = b'.
Proof.
  induction l as [|[x y] l IH]; cbn; [tauto|]. intros N I J. inversion N as [|? ? X N']; subst.
  assert (Y : forall c, In (x, c) l -> False) by (intros c Ic; apply X, in_map_iff; exists (x, c); auto).
  destruct I as [I|I], J as [J|J].
  - congruence.
  - injection I as <- <-. destruct (Y _ J).
  - injection J as <- <-. destruct (Y _ I).
  - exact (IH N' I J).
Qed.

(** what is stored when no key is stored twice *)
Lemma last_separate {V} (items : container -> list (string * V)) (cs : list container) g : Forall (fun c => NoDup (map fst (items c))) cs -> separate g (map items cs) ->
  forall k v, last_stored items cs (fun k i => KStr (g k i)) (KStr k) v <-> In (k, v) (renamed g 0 (map items cs)).
Proof.
  intros N S k v. rewrite In_renamed. cbn [Nat.add]. split.
  - intros (i & j & (c & k0 & E & E' & G) & _). injection G as <-. exists i, (items c), k0. split; [rewrite nth_error_map, E; reflexivity|]. split; [|reflexivity].
    apply (nth_error_In _ _ E').
  - intros (i & l & k0 & E & I & ->). rewrite nth_error_map in E. destruct (nth_error cs i) as [c|] eqn:Ec; [|discriminate]. injection E as <-.
    destruct (In_nth_error _ _ I) as (j & Ej). exists i, j. split; [exists c, k0; auto|]. intros i' j' v' (c' & k0' & E' & Ej' & G). injection G as G.
    destruct (S i' i (items c') (items c) k0' k0) as [A B]; [rewrite nth_error_map, E'; reflexivity|rewrite nth_error_map, Ec; reflexivity| | |exact G|].
    + apply in_map_iff. exists (k0', v'). split; [reflexivity|apply (nth_error_In _ _ Ej')].
    + apply in_map_iff. exists (k0, v). split; [reflexivity|exact I].
    + subst i' k0'. rewrite Ec in E'. injection E' as <-. right. split; [reflexivity|]. apply Nat.eq_le_incl.
      rewrite Forall_forall in N. specialize (N c (nth_error_In _ _ Ec)). rewrite NoDup_nth_error in N. apply N.
      * apply nth_error_Some. rewrite nth_error_map, Ej'. discriminate.
      * rewrite !nth_error_map, Ej, Ej'. reflexivity.
Qed.

Lemma rsum_perm {A} (f : A -> R) l l' : Permutation l l' -> rsum f l = rsum f l'.
Proof. induction 1 as [|x l l' P IH|x y l|l l' l'' P IH P' IH']; cbn; [reflexivity| |ring|]; unfold rsum in *; [rewrite IH; reflexivity|congruence]. Qed.
Lemma rsum_app {A} (f : A -> R) l l' : (rsum f (l ++ l')%list = rsum f l + rsum f l')%R.
Proof. unfold rsum. induction l as [|a l IH]; cbn [app fold_right]; [ring|]. rewrite IH. ring. Qed.

Lemma misfit_renamed G E g rho Fs Ds : Permutation (ff_rows G) (renamed g 0 (map ff_rows Fs)) -> ff_M G = 16 ->
  Forall2 (fun F D => matching F D /\ ff_M F = 16) Fs Ds -> fd_M E = 16 ->
  (forall i D k v, nth_error Ds i = Some D -> In (k, v) (fd_data D) -> dget (g k i) (fd_data E) = Some v) ->
  misfit G E rho = rsum (fun FD => misfit (fst FD) (snd FD) rho) (combine Fs Ds).
Proof.
  intros P MG H ME V. unfold misfit at 1. rewrite MG, (rsum_perm _ _ _ P). clear P G MG.
  assert (Gen : forall i, (forall j D k v, nth_error Ds j = Some D -> In (k, v) (fd_data D) -> dget (g k (i + j)) (fd_data E) = Some v) ->
    rsum (fun kr : string * row => rsum (fun m => (Cmod (Cminus (eval rho (fcell 16 (snd kr) m)) (dvalue E (fst kr) m)) ^ 2)%R) (freqs 16)) (renamed g i (map ff_rows Fs))
    = rsum (fun FD => misfit (fst FD) (snd FD) rho) (combine Fs Ds)).
  2:{ exact (Gen 0 V). }
  clear V. induction H as [|F D Fs Ds [(FO & DO & EM & K) M16] H IH]; intros i V; [reflexivity|]. cbn [map renamed combine].
  rewrite rsum_app, (IH (S i)).
  2:{ intros j D' k v E' I. replace (S i + j) with (i + S j) by lia. apply (V (S j) D' k v E' I). }
  unfold rsum at 4. cbn [fold_right fst snd]. f_equal. unfold misfit. rewrite rsum_map, M16. cbn [fst snd]. apply rsum_ext. intros [k r] I. cbn [fst snd].
  assert (Ik : In k (map fst (fd_data D))) by (apply K, in_map_iff; exists (k, r); split; [reflexivity|exact I]).
  apply in_map_iff in Ik as ([k' v] & X & Iv). cbn [fst] in X. subst k'.
  pose proof (V 0 D k v eq_refl Iv) as X. rewrite Nat.add_0_r in X. apply rsum_ext. intros m _. unfold dvalue. rewrite X, ME.
  rewrite (In_dget k v (fd_data D) (proj1 DO) Iv), EM, M16. reflexivity.
Qed.
