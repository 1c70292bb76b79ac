(** Proofs for property C145. *)
From Coq Require Import String List ZArith QArith Qreals Reals Lra Lia Bool.
From Coquelicot Require Import Complex.
From Verif Require Import PyBase CBase FourierBase TrigPoly DataModel SpecData FDataModel SpecFData SpecBand FDataProofs Expr ExprProofs FormModel LookupTable SpecForm
  TableProofs FormProofs FormProofs2 FormProofs3 FormProofs4 PipeProofs PropertiesFData.
Import ListNotations.
Local Open Scope nat_scope.

Lemma herm_zero M v m : coef M v m = RtoC 0 -> coef M v (- m) = RtoC 0 -> herm_part M v m = RtoC 0.
Proof. intros A B. unfold herm_part. rewrite A, B. apply injective_projections; cbn; field. Qed.

Lemma no_alias_band B M v n m : B <= M -> M + B < n -> hermitian M v -> up_to B M v -> (Z.abs m <= Z.of_nat M)%Z ->
  dft (sampled n (fun x => Re (series M v x))) m = coef M v m.
Proof.
  intros LB L H U I. rewrite dft_sampled by lia.
  rewrite (Csum_single_Z _ m).
  - rewrite Z.sub_diag, Z.mod_0_l by lia. simpl. apply herm_part_hermitian; auto.
  - apply NoDup_zrange.
  - apply In_freqs; lia.
  - intros b J N. apply In_freqs in J. destruct (Z.eqb_spec ((b - m) mod Z.of_nat n) 0) as [E|]; auto.
    destruct (Z.le_gt_cases (Z.abs b) (Z.of_nat B)) as [Q|Q].
    + exfalso. apply Z.mod_divide in E; [|lia]. destruct E as [q E].
      assert (q = 0 \/ q <= -1 \/ 1 <= q)%Z as [->|[Y|Y]] by lia; nia.
    + apply herm_zero; apply U; lia.
Qed.

Lemma band_back interp f n B : exact_at_nodes interp -> accepts interp n -> freachable f -> 2 <= n -> B <= fget_M f -> fget_M f + B < n ->
  (forall k v, fget_pc f k = Ok v -> hermitian (fget_M f) v /\ up_to B (fget_M f) v) ->
  exists d f', fdat_to_dat f n = Ok d /\ dat_to_fdat interp d (fget_M f) = Ok f' /\ fget_items f' = fget_items f.
Proof.
  intros X Ac Rf L2 LB L H. pose proof (freachable_wf f Rf) as W. pose proof W as [Wd F].
  eexists _, _. split; [apply fdat_to_dat_spec; auto; lia|]. split.
  - apply dat_to_fdat_spec; auto; [apply wf_dmap; auto|]. intros k p I. apply In_dmap in I as (v & _ & ->).
    assert (Lp : length (sampled n (fun x => Re (series (fd_M f) v x))) = n) by (unfold sampled; rewrite map_length, grid_length; auto).
    rewrite Lp. split; [apply sampled_fst|]. split; auto. apply Ac; auto. rewrite sampled_fst. apply grid_NoDup.
  - unfold fget_items, fget_M in *. simpl. rewrite dmap_dmap. apply dmap_id. intros k v I.
    assert (Lv : length v = (2 * fd_M f + 1)%nat) by (rewrite Forall_forall in F; apply (F _ I)).
    transitivity (map (coef (fd_M f) v) (freqs (fd_M f))); [|symmetry; apply list_by_coef; auto]. apply map_ext_in. intros m J. apply In_freqs in J.
    destruct (H k v) as [Hh U]; [unfold fget_pc, dgetr; rewrite (In_dget _ _ _ Wd I); reflexivity|].
    apply (no_alias_band B); auto; lia.
Qed.

(** Coefficients of covered formulas end at 8. *)
Lemma covered_trigpoly ev (EV : sound_ev ev) rho e : covered e -> respects rho -> trigpoly 8 (fun x => eval (at_phi rho x) e).
Proof.
  intros Hc Hr. exists (map (fun m => (m, fourier_coefficient (fun y => eval (at_phi rho y) e) m)) (freqs 8)). split.
  - apply Forall_forall. intros [k c] I. apply in_map_iff in I as (m & E & J). injection E as <- <-. apply In_freqs in J. cbn [fst]. lia.
  - intros x. rewrite <- (covered_series ev EV rho e 8 Hc Hr (le_n _) x). unfold mono. rewrite Csum_map. reflexivity.
Qed.
Lemma covered_up_to ev (EV : sound_ev ev) rho e : covered e -> respects rho -> up_to 8 16 (coefficients rho e).
Proof.
  intros Hc Hr m [A B]. rewrite coef_coefficients by exact B. apply (tp_beyond 8); [apply (covered_trigpoly ev EV); assumption|exact A].
Qed.

Lemma simulate_back_24 ev (EV : sound_ev ev) interp f d rho n x1 x2 : exact_at_nodes interp -> accepts interp n -> wf_dict f -> (forall k e, In (k, e) f -> covered e) -> 24 < n ->
  (forall x, form_occurs f x -> x <> phi -> In x (dkeys d)) -> ~ In phi (dkeys d) -> respects rho -> agrees rho d ->
  (exists k e, In (k, e) f /\ eval (at_phi rho x1) e <> eval (at_phi rho x2) e) ->
  (forall k e x, In (k, e) f -> Im (eval (at_phi rho x) e) = 0%R) ->
  exists dt fd, form_to_dat ev f d n = Ok dt /\ form_to_fdat ev f d 16 = Ok fd /\ dat_to_fdat interp dt 16 = Ok fd.
Proof.
  intros X Ac W H L O Np Hr Ha V R. eexists _, _.
  split; [apply (form_to_dat_accepts ev EV f d n rho x1 x2 W); auto; lia|].
  split; [apply (form_to_fdat_value ev EV f d rho); auto|].
  assert (Ls : forall h, length (sampled n h) = n) by (intros h; unfold sampled; rewrite map_length, grid_length; auto).
  rewrite dat_to_fdat_spec; [|exact X|cbn [dc_data]; apply wf_dmap; exact W|].
  - cbn [dc_data]. rewrite dmap_dmap. do 2 f_equal. apply dmap_ext. intros k e I.
    pose proof (coefficients_hermitian ev EV rho e (H k e I) Hr (fun x => R k e x I)) as Hh.
    pose proof (covered_up_to ev EV rho e (H k e I) Hr) as U.
    transitivity (map (coef 16 (coefficients rho e)) (freqs 16)).
    + apply map_ext_in. intros m J. apply In_freqs in J.
      rewrite <- (no_alias_band 8 16 (coefficients rho e) n m) by (auto; simpl in *; lia).
      f_equal. unfold sampled. apply map_ext. intros x. do 2 f_equal. symmetry. apply (series_coefficients ev EV); eauto.
    + symmetry. apply list_by_coef. apply coefficients_length.
  - cbn [dc_data]. intros k p I. apply In_dmap in I as (e & _ & ->). rewrite Ls, sampled_fst. split; [reflexivity|]. split; [lia|].
    apply Ac; [apply Ls|]. rewrite sampled_fst. apply grid_NoDup.
Qed.

(** One wave of order B. *)
Definition wave_row (B M : nat) : list C := map (fun m => if (Z.abs m =? Z.of_nat B)%Z then RtoC 1 else RtoC 0) (freqs M).
Definition wave_fdat (B M : nat) : fdat := mkfdat [("PP"%string, wave_row B M)] 1 (PNum 0) M.

Lemma wave_coef B M m : (Z.abs m <= Z.of_nat M)%Z -> coef M (wave_row B M) m = if (Z.abs m =? Z.of_nat B)%Z then RtoC 1 else RtoC 0.
Proof. intros L. unfold wave_row. rewrite coef_map_freqs by exact L. reflexivity. Qed.
Lemma wave_hermitian B M : hermitian M (wave_row B M).
Proof.
  intros m L. rewrite !wave_coef by lia. rewrite Z.abs_opp. destruct (_ =? _)%Z; apply injective_projections; cbn; ring.
Qed.
Lemma wave_up_to B M : up_to B M (wave_row B M).
Proof. intros m [L U]. rewrite wave_coef by exact U. destruct (Z.eqb_spec (Z.abs m) (Z.of_nat B)); [lia|reflexivity]. Qed.
Lemma wave_reach B M : freachable (wave_fdat B M).
Proof.
  exists (fitems [("PP"%string, wave_row B M)]), M. eexists _, []. split; [|reflexivity].
  apply fconstruct_items. split; cbn; [repeat constructor; cbn; tauto|]. constructor; [|constructor].
  cbn. unfold wave_row. rewrite map_length, length_freqs. reflexivity.
Qed.

(** A sum of non-negative terms. *)
Lemma sum_part (h : Z -> C) l a : In a l -> (forall b, In b l -> (0 <= Re (h b))%R) -> (Re (h a) <= Re (Csum h l))%R.
Proof.
  intros I P. rewrite Re_Csum. induction l as [|b l IH]; [destruct I|]. cbn [fold_right].
  assert (N : (0 <= fold_right (fun a s => Re (h a) + s) 0 l)%R).
  { clear IH I. induction l as [|c l IH]; cbn; [lra|]. pose proof (P c (or_intror (or_introl eq_refl))).
    assert (0 <= fold_right (fun a s => Re (h a) + s) 0 l)%R by (apply IH; intros x [J|J]; apply P; [left|right; right]; assumption). lra. }
  destruct I as [->|I]; [lra|]. pose proof (P b (or_introl eq_refl)).
  specialize (IH I (fun x J => P x (or_intror J))). lra.
Qed.
Lemma sum_two (h : Z -> C) l a a' : NoDup l -> In a l -> In a' l -> a <> a' -> (forall b, In b l -> (0 <= Re (h b))%R) ->
  (Re (h a) + Re (h a') <= Re (Csum h l))%R.
Proof.
  intros ND. induction ND as [|b l Nb ND IH]; intros I I' N P; [destruct I|].
  rewrite Csum_cons. change (Re (Cplus (h b) (Csum h l))) with (Re (h b) + Re (Csum h l))%R.
  pose proof (P b (or_introl eq_refl)). assert (P' : forall x, In x l -> (0 <= Re (h x))%R) by (intros x J; apply P; right; exact J).
  destruct I as [->|I], I' as [->|I'].
  - congruence.
  - pose proof (sum_part h l a' I' P'). lra.
  - pose proof (sum_part h l a I P'). lra.
  - pose proof (IH I I' N P'). lra.
Qed.

Lemma wave_lost interp B M n : exact_at_nodes interp -> accepts interp n -> 2 <= n -> B <= M -> n <= M + B ->
  exists d f', fdat_to_dat (wave_fdat B M) n = Ok d /\ dat_to_fdat interp d M = Ok f' /\ fget_items f' <> fget_items (wave_fdat B M).
Proof.
  intros X Ac L2 LB L. destruct (C19_aliasing interp (wave_fdat B M) n M X Ac (wave_reach B M) L2) as (d & f' & E & E' & K & G).
  exists d, f'. split; [exact E|]. split; [exact E'|]. intros Q.
  destruct (G "PP"%string (wave_row B M) eq_refl) as (v' & Ev & Lv & C).
  assert (v' = wave_row B M).
  { unfold fget_items in Q. unfold fget_pc in Ev. rewrite Q in Ev. cbn in Ev. injection Ev as <-. reflexivity. }
  subst v'. set (m := (Z.of_nat B - Z.of_nat n)%Z). specialize (C m). assert (Lm : (Z.abs m <= Z.of_nat M)%Z) by (unfold m; lia).
  specialize (C Lm). cbn [wave_fdat fget_M fd_M] in C.
  set (h := fun m' => if ((m' - m) mod Z.of_nat n =? 0)%Z then herm_part M (wave_row B M) m' else RtoC 0) in C.
  assert (P : forall b, In b (freqs M) -> (0 <= Re (h b))%R).
  { intros b J. apply In_freqs in J. unfold h. destruct (_ =? 0)%Z; [|cbn; lra].
    rewrite herm_part_hermitian by (first [apply wave_hermitian|lia]). rewrite wave_coef by lia. destruct (_ =? _)%Z; cbn; lra. }
  assert (V : forall b, Z.abs b = Z.of_nat B -> ((b - m) mod Z.of_nat n = 0)%Z -> Re (h b) = 1%R).
  { intros b A D. unfold h. rewrite D. cbn [Z.eqb]. rewrite herm_part_hermitian by (first [apply wave_hermitian|lia]).
    rewrite wave_coef by lia. rewrite A, Z.eqb_refl. reflexivity. }
  assert (VB : Re (h (Z.of_nat B)) = 1%R).
  { apply V; [lia|]. unfold m. replace (Z.of_nat B - (Z.of_nat B - Z.of_nat n))%Z with (1 * Z.of_nat n)%Z by lia. apply Z.mod_mul. lia. }
  apply (f_equal Re) in C. rewrite wave_coef in C by exact Lm.
  destruct (Z.eqb_spec (Z.abs m) (Z.of_nat B)) as [A|A].
  - assert (Em : m = (- Z.of_nat B)%Z) by lia.
    assert (VM : Re (h m) = 1%R) by (apply V; [lia|]; rewrite Z.sub_diag; apply Z.mod_0_l; lia).
    pose proof (sum_two h (freqs M) (Z.of_nat B) m (NoDup_zrange _ _) ltac:(apply In_freqs; lia) ltac:(apply In_freqs; lia) ltac:(lia) P) as T.
    change (Re (RtoC 1)) with 1%R in C. lra.
  - pose proof (sum_part h (freqs M) (Z.of_nat B) ltac:(apply In_freqs; lia) P) as T. change (Re (RtoC 0)) with 0%R in C. lra.
Qed.
