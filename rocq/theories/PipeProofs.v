(** From a formula to sampled data and back to Fourier coefficients. *)
From Coq Require Import String List ZArith QArith Qreals Reals Lra Lia Bool.
From Coquelicot Require Import Complex.
From Verif Require Import PyBase CBase FourierBase DataModel SpecData FDataModel SpecFData FDataProofs Expr ExprProofs FormModel LookupTable SpecForm
  TableProofs FormProofs FormProofs2 FormProofs3 FormProofs4.
Import ListNotations.
Local Open Scope nat_scope.

(** Coefficients of a real trigonometric polynomial. *)
Lemma Cconj_cis x : Cconj (cis x) = cis (- x).
Proof. unfold Cconj, cis. cbn [fst snd]. rewrite cos_neg, sin_neg. reflexivity. Qed.

Lemma Cconj_mult (z w : C) : Cconj (Cmult z w) = Cmult (Cconj z) (Cconj w).
Proof. unfold Cconj, Cmult. cbn [fst snd]. f_equal; ring. Qed.

Lemma fourier_real f (g : Z -> C) M m : (forall x, f x = Csum (fun m => Cmult (g m) (cis (IZR m * x))) (freqs M)) ->
  (forall x, Im (f x) = 0%R) -> (Z.abs m <= Z.of_nat M)%Z ->
  fourier_coefficient f (- m) = Cconj (fourier_coefficient f m).
Proof.
  intros H R B.
  assert (H' : forall x, f x = Csum (fun m => Cmult (Cconj (g (- m)%Z)) (cis (IZR m * x))) (map Z.opp (freqs M))).
  { intros x. transitivity (Cconj (f x)).
    - specialize (R x). destruct (f x) as [a b]. cbn in R. unfold Cconj. cbn [fst snd]. subst b. f_equal. ring.
    - rewrite H, Csum_conj, Csum_map. apply Csum_ext. intros k. rewrite Z.opp_involutive, Cconj_mult, Cconj_cis, opp_IZR.
      do 2 f_equal. ring. }
  assert (A : forall k, (Z.abs k <= Z.of_nat M)%Z -> fourier_coefficient f k = g k).
  { intros k Bk. rewrite (fourier_coefficient_ext _ _ k H), coefficient_trig by apply NoDup_zrange.
    destruct (in_dec Z.eq_dec k (freqs M)) as [I|N]; auto. exfalso. apply N, In_freqs. lia. }
  assert (A' : fourier_coefficient f m = Cconj (g (- m)%Z)).
  { rewrite (fourier_coefficient_ext _ _ m H'), coefficient_trig.
    - destruct (in_dec Z.eq_dec m (map Z.opp (freqs M))) as [I|N]; auto. exfalso. apply N. apply in_map_iff. exists (- m)%Z.
      split; [lia|]. apply In_freqs. lia.
    - apply FinFun.Injective_map_NoDup; [intros a b E; lia|apply NoDup_zrange]. }
  rewrite A' , A by lia. destruct (g (- m)%Z) as [a b]. unfold Cconj. cbn [fst snd]. f_equal. ring.
Qed.

Section Pipe.
Variable ev : expr -> expr.
Hypothesis EV : sound_ev ev.

(** Symbols of a transform. *)
Lemma args_syms e a s : In a (args e) -> In s (syms a) -> In s (syms e).
Proof.
  destruct e; cbn [args syms]; intros Ia Is; try contradiction;
    try (destruct Ia as [<-|[]]; exact Is); try (apply in_flat_map; exists a; auto).
  destruct Ia as [<-|[<-|[]]]; [exact Is|destruct Is].
Qed.
Lemma indep_syms l n q s : In s (syms (EMul (filter (fun a => negb (has_phi a)) l ++ [ENum n q]))) ->
  exists a, In a l /\ In s (syms a).
Proof.
  cbn [syms]. intros I. apply in_flat_map in I as (a & Ia & Is). apply in_app_iff in Ia as [Ia|[<-|[]]]; [|destruct Is].
  apply filter_In in Ia as [Ia _]. eauto.
Qed.
Lemma transform_syms e n r s : fourier_transform ev e n = Ok r -> In s (syms (as_expr r)) -> In s (syms e).
Proof.
  unfold fourier_transform. destruct (negb (has_phi e)).
  { destruct (n =? 0)%Z; intros E; injection E as <-; cbn; [auto|intros []]. }
  assert (Single : forall l, (forall a, In a l -> forall s, In s (syms a) -> In s (syms e)) ->
    match get_keyterms e with
    | [keyterm] =>
        do row <- dgetr (get_code keyterm) lookup_table;
        do ft <- py_nth row (n + 16)%Z;
        if negb (Qeq_bool (fst ft) 0 && Qeq_bool (snd ft) 0) then
          Ok (SymE (ev (EMul (filter (fun a => negb (has_phi a)) l ++ [ENum (fst ft) (snd ft)]))))
        else Ok (PyNum 0 0)
    | _ => Raise AssertionError
    end = Ok r -> In s (syms (as_expr r)) -> In s (syms e)).
  { intros l Hl. destruct (get_keyterms e) as [|k [|? ?]]; try discriminate. unfold dgetr.
    destruct (dget (get_code k) lookup_table) as [row|]; [|discriminate]. cbn [bind]. destruct (py_nth row (n + 16)%Z) as [ft|]; [|discriminate].
    cbn [bind]. destruct (negb _).
    - intros E. injection E as <-. cbn [as_expr]. intros I. apply (proj2 EV) in I. apply indep_syms in I as (a & Ia & Is). exact (Hl a Ia s Is).
    - intros E. injection E as <-. intros []. }
  destruct e as [| |l|l| | | | | |].
  3: { clear Single. destruct (relevant_codes n) as [m|]; [|discriminate]. cbn [bind]. destruct (mapM (transform_summand m) l) as [l'|] eqn:E; [|discriminate].
    cbn [bind]. intros X. injection X as <-. cbn [as_expr]. intros I. apply (proj2 EV) in I. cbn [syms] in I.
    apply in_flat_map in I as (y & Iy & Is). destruct (mapM_In _ _ _ _ E Iy) as (a & Ia & Ea). unfold transform_summand in Ea.
    destruct (mapping_get (smul (filter has_phi (args a))) m) as [ft|]; [|discriminate]. cbn [bind] in Ea. injection Ea as <-.
    apply indep_syms in Is as (b & Ib & Is). cbn [syms]. apply in_flat_map. exists a. split; [exact Ia|]. exact (args_syms a b s Ib Is). }
  3: { apply Single. intros a Ia s' Is. cbn [syms]. apply in_flat_map. eauto. }
  all: apply (Single []); intros a [].
Qed.

(** Some component of a covered expression is a sympy expression. *)
Definition nonzero_entry (l : list (Q * Q)) : bool :=
  existsb (fun i => let q := nth i l (0, 0)%Q in negb (Qeq_bool (fst q) 0 && Qeq_bool (snd q) 0)) (seq 0 33).
Lemma table_nonzero : forallb (fun row => nonzero_entry (snd row)) lookup_table = true.
Proof. vm_compute. reflexivity. Qed.

Lemma ft_nonzero e c s : has_phi e = true -> (forall l, e <> EAdd l) ->
  (exists k, get_keyterms e = [k] /\ get_code k = (c, s)) -> c + s <= 8 ->
  exists n x, (-16 <= n <= 16)%Z /\ fourier_transform ev e n = Ok (SymE x).
Proof.
  intros Hp NA (k & Ek & Ec) L. destruct (table_has c s L) as [l El].
  assert (Len : length l = 33) by (apply (table_only _ _ _ El)).
  pose proof table_nonzero as T. rewrite forallb_forall in T. specialize (T _ (dget_In _ _ _ El)). cbn [snd] in T.
  unfold nonzero_entry in T. apply existsb_exists in T as (i & Ii & Ni). apply in_seq in Ii.
  exists (Z.of_nat i - 16)%Z. enough (X : exists x, fourier_transform ev e (Z.of_nat i - 16) = Ok (SymE x)) by (destruct X as [x X]; exists x; split; [lia|exact X]).
  unfold fourier_transform. rewrite Hp. cbn [negb].
  destruct e; try (exfalso; eapply NA; reflexivity);
    rewrite Ek, Ec; unfold dgetr; rewrite El; cbn [bind]; rewrite row_nth by (auto; lia); cbn [bind];
    replace (Z.to_nat (Z.of_nat i - 16 + 16)) with i by lia; cbv zeta in Ni; rewrite Ni; eexists; reflexivity.
Qed.
Lemma covered_symbolic e : covered e -> exists n x, (-16 <= n <= 16)%Z /\ fourier_transform ev e n = Ok (SymE x).
Proof.
  assert (Free : forall e, has_phi e = false -> exists n x, (-16 <= n <= 16)%Z /\ fourier_transform ev e n = Ok (SymE x)).
  { intros e0 N. exists 0%Z, e0. split; [lia|]. unfold fourier_transform. rewrite N. reflexivity. }
  intros [e0 N|l H|fs c s M L|f c s n0 b Ef T L].
  - apply Free. apply has_phi_false. exact N.
  - destruct (has_phi (EAdd l)) eqn:Hp; [|apply Free; exact Hp].
    destruct (relevant_ok 0) as (m0 & R & _); [lia|]. destruct (sum_value 0 m0 l ltac:(lia) R H) as (rs & Es & _).
    exists 0%Z. eexists. split; [lia|]. unfold fourier_transform. rewrite Hp. cbn [negb]. rewrite R. cbn [bind]. rewrite Es. reflexivity.
  - destruct (has_phi (EMul fs)) eqn:Hp; [|apply Free; exact Hp].
    apply (ft_nonzero (EMul fs) c s Hp); [discriminate| |lia].
    exists (smul (keyterm_factors (EMul fs))). split; [reflexivity|]. apply shape_code; [|lia]. apply shape_keyterm; auto.
  - apply (ft_nonzero f c s (trig_has_phi _ _ _ T)); [intros l; subst f; discriminate| |lia].
    exists f. subst f. split; [reflexivity|]. inversion T; subst; reflexivity.
Qed.

Lemma In_dmap {K V W} (f : V -> W) (l : dict K V) k w : In (k, w) (dmap f l) -> exists v, In (k, v) l /\ w = f v.
Proof. unfold dmap. intros I. apply in_map_iff in I as ([k' v] & E & I). injection E as -> <-. exists v. auto. Qed.

Lemma dmapM_in {K V W} (f : V -> res W) (l : dict K V) l' k w : dmapM f l = Ok l' -> In (k, w) l' -> exists v, In (k, v) l /\ f v = Ok w.
Proof.
  intros E I. apply dmapM_Ok in E. revert I. induction E as [|[a v] [b r] l l' [H1 H2] F IH]; simpl; [tauto|]. simpl in H1, H2.
  intros [X|I]; [injection X as -> ->; subst a; exists v; auto|]. destruct (IH I) as (v' & I' & E'). exists v'; auto.
Qed.

Lemma form_to_fform_facts f F : wf_dict f -> (forall k e, In (k, e) f -> covered e) -> form_to_fform ev f 16 = Ok F ->
  symbolic F /\ (forall s, ff_occurs F s -> form_occurs f s).
Proof.
  intros W H EF. destruct (form_to_fform_ok ev EV f 16 W H (le_n _)) as (rows & E & EF'). rewrite EF' in EF. injection EF as <-. split.
  - intros k r I. cbn [ff_rows] in I. apply In_dmap in I as (es & I & ->). destruct (dmapM_in _ _ _ _ _ E I) as (e & Ie & Ee).
    cbn [entry_row r_obj]. destruct (covered_symbolic e (H k e Ie)) as (n & x & B & X).
    apply negb_true_iff. apply not_true_is_false. intros Al. rewrite forallb_forall in Al.
    assert (Iy : In (SymE x) es).
    { assert (In' : In n (freqs 16)) by (apply In_freqs; simpl; lia). revert Ee In' X. clear. revert es.
      induction (freqs 16) as [|m l IH]; intros es; [intros _ []|]. cbn [mapM]. destruct (fourier_transform ev e m) as [r|] eqn:Er; [|discriminate].
      cbn [bind]. destruct (mapM (fourier_transform ev e) l) as [rs|]; [|discriminate]. cbn [bind]. intros Y. injection Y as <-.
      intros [->|I] X; [left; congruence|right; apply (IH rs eq_refl I X)]. }
    specialize (Al _ Iy). discriminate.
  - intros s (k & r & e' & I & Ie & Is). cbn [ff_rows] in I. apply In_dmap in I as (es & I & ->). destruct (dmapM_in _ _ _ _ _ E I) as (e & Iv & Ee).
    cbn [entry_row r_cells] in Ie. apply in_map_iff in Ie as (x & <- & Ix). destruct (mapM_In _ _ _ _ Ee Ix) as (n & _ & En).
    exists k, e. split; [exact Iv|]. exact (transform_syms e n x s En Is).
Qed.

(** The coefficients that a formula stands for. *)
Definition coefficients (rho : sym -> C) (e : expr) : list C :=
  map (fourier_coefficient (fun x => eval (at_phi rho x) e)) (freqs 16).

Lemma form_to_fdat_value f d rho : wf_dict f -> (forall k e, In (k, e) f -> covered e) ->
  (forall x, form_occurs f x -> x <> phi -> In x (dkeys d)) -> respects rho -> agrees rho d ->
  form_to_fdat ev f d 16 = Ok (mkfdat (dmap (coefficients rho) f) 1 (PNum 0) 16).
Proof.
  intros W H O Hr Ha. destruct (form_to_fform_get ev EV f 16 W H (le_n _)) as (F & EF & WF & M16 & K & V).
  destruct (form_to_fform_facts f F W H EF) as [Sy Oc]. unfold form_to_fdat. rewrite EF. cbn [bind].
  assert (Np : forall k r e, In (k, r) (ff_rows F) -> In e (r_cells r) -> ~ In phi (syms e)).
  { intros k r e I Ie. assert (Ik : In k (dkeys f)) by (rewrite <- K; unfold dkeys; apply in_map_iff; exists (k, r); auto).
    unfold dkeys in Ik. apply in_map_iff in Ik as ([k' x] & X & Ix). cbn in X. subst k'. destruct (V k x Ix) as (cells & G & _ & P & _).
    unfold ff_get_pc, dgetr in G. rewrite (In_dget _ _ _ (proj1 WF) I) in G. injection G as <-. apply P. exact Ie. }
  destruct (fform_to_fdat_ok ev EV F d WF Sy M16) as (sa & Isa & -> & Val).
  { intros s Os. apply O; [apply Oc; exact Os|]. destruct Os as (k & r & e & I & Ie & Is). intros ->. exact (Np k r e I Ie Is). }
  do 2 f_equal.
  assert (X : forall k r e, In (k, r) (ff_rows F) -> In (k, e) f -> map (values ev sa) (r_cells r) = coefficients rho e).
  { intros k r e I Ie. destruct (V k e Ie) as (cells & G & _ & _ & Vc). unfold ff_get_pc, dgetr in G.
    rewrite (In_dget _ _ _ (proj1 WF) I) in G. injection G as <-. unfold coefficients. rewrite <- (Vc rho Hr).
    apply map_ext_in. intros c Ic. apply (Val rho k r c I Ic Hr). intros s q Is. apply Ha. apply Isa. exact Is. }
  clear V Val Oc EF Sy. destruct WF as [WF _]. revert X K WF W. clear. intros X K WF W.
  assert (Y : forall (l : dict string row) (m : dict string expr), dkeys l = dkeys m ->
    (forall k r e, In (k, r) l -> In (k, e) m -> NoDup (dkeys l) -> NoDup (dkeys m) -> map (values ev sa) (r_cells r) = coefficients rho e) ->
    NoDup (dkeys l) -> NoDup (dkeys m) ->
    dmap (fun r => map (values ev sa) (r_cells r)) l = dmap (coefficients rho) m).
  { clear. induction l as [|[k r] l IH]; intros [|[k' e] m]; cbn; try discriminate; [reflexivity|]. intros E X N N'. injection E as -> E.
    f_equal.
    - f_equal. apply (X k' r e); auto.
    - apply IH; auto; [|inversion N; auto|inversion N'; auto]. intros k r' e' I I' _ _. apply (X k r' e'); auto. }
  apply Y; [exact K| |exact WF|exact W]. intros k r e I I' _ _. apply (X k r e I I').
Qed.

Lemma coef_coefficients rho e m : (Z.abs m <= 16)%Z -> coef 16 (coefficients rho e) m = fourier_coefficient (fun x => eval (at_phi rho x) e) m.
Proof. intros B. unfold coefficients. rewrite coef_map_freqs; auto. Qed.
Lemma series_coefficients rho e x : covered e -> respects rho -> series 16 (coefficients rho e) x = eval (at_phi rho x) e.
Proof.
  intros Hc Hr. rewrite <- (covered_series ev EV rho e 16 Hc Hr) by lia. unfold series. apply Csum_ext_in. intros m I.
  rewrite coef_coefficients by (apply In_freqs in I; simpl in I; lia). reflexivity.
Qed.
Lemma coefficients_length rho e : length (coefficients rho e) = 33.
Proof. unfold coefficients. rewrite map_length, length_freqs. reflexivity. Qed.
Lemma coefficients_fwf rho f : wf_dict f -> fwf (mkfdat (dmap (coefficients rho) f) 1 (PNum 0) 16).
Proof.
  intros W. split; cbn [fd_data fd_M]; [apply wf_dmap; exact W|]. apply Forall_forall. intros [k v] I. apply In_dmap in I as (e & _ & ->).
  apply coefficients_length.
Qed.
Lemma coefficients_hermitian rho e : covered e -> respects rho -> (forall x, Im (eval (at_phi rho x) e) = 0%R) -> hermitian 16 (coefficients rho e).
Proof.
  intros Hc Hr R m B. simpl in B. rewrite !coef_coefficients by lia.
  apply (fourier_real _ (fourier_coefficient (fun x => eval (at_phi rho x) e)) 16); [|exact R|simpl; lia].
  intros x. symmetry. apply (covered_series ev EV rho e 16 Hc Hr). lia.
Qed.

Lemma simulate_routes f d rho n x1 x2 : wf_dict f -> (forall k e, In (k, e) f -> covered e) -> 0 < n ->
  (forall x, form_occurs f x -> x <> phi -> In x (dkeys d)) -> ~ In phi (dkeys d) -> respects rho -> agrees rho d ->
  (exists k e, In (k, e) f /\ eval (at_phi rho x1) e <> eval (at_phi rho x2) e) ->
  exists fd dt, form_to_fdat ev f d 16 = Ok fd /\ fdat_to_dat fd n = Ok dt /\ form_to_dat ev f d n = Ok dt.
Proof.
  intros W H P O Np Hr Ha V. eexists _, _. split; [apply (form_to_fdat_value f d rho); auto|]. split.
  - apply fdat_to_dat_spec; [apply coefficients_fwf; exact W|exact P].
  - rewrite (form_to_dat_accepts ev EV f d n rho x1 x2 W P O Np Hr Ha V). cbn [fd_M fd_data]. rewrite dmap_dmap. do 2 f_equal.
    apply dmap_ext. intros k e I. unfold sampled. apply map_ext. intros x. do 2 f_equal. symmetry. apply series_coefficients; eauto.
Qed.

Lemma simulate_back interp f d rho n x1 x2 : exact_at_nodes interp -> accepts interp n -> wf_dict f -> (forall k e, In (k, e) f -> covered e) -> 32 < n ->
  (forall x, form_occurs f x -> x <> phi -> In x (dkeys d)) -> ~ In phi (dkeys d) -> respects rho -> agrees rho d ->
  (exists k e, In (k, e) f /\ eval (at_phi rho x1) e <> eval (at_phi rho x2) e) ->
  (forall k e x, In (k, e) f -> Im (eval (at_phi rho x) e) = 0%R) ->
  exists dt fd, form_to_dat ev f d n = Ok dt /\ form_to_fdat ev f d 16 = Ok fd /\ dat_to_fdat interp dt 16 = Ok fd.
Proof.
  intros X Ac W H L O Np Hr Ha V R. eexists _, _.
  split; [apply (form_to_dat_accepts ev EV f d n rho x1 x2 W); auto; lia|].
  split; [apply (form_to_fdat_value f d rho); auto|].
  assert (Ls : forall h, length (sampled n h) = n) by (intros h; unfold sampled; rewrite map_length, grid_length; auto).
  rewrite dat_to_fdat_spec; [|exact X|cbn [dc_data]; apply wf_dmap; exact W|].
  - cbn [dc_data]. rewrite dmap_dmap. do 2 f_equal. apply dmap_ext. intros k e I.
    pose proof (coefficients_hermitian rho e (H k e I) Hr (fun x => R k e x I)) as Hh.
    transitivity (map (coef 16 (coefficients rho e)) (freqs 16)).
    + apply map_ext_in. intros m J. apply In_freqs in J.
      rewrite <- (no_alias 16 (coefficients rho e) n m) by (auto using coefficients_length; simpl in *; lia).
      f_equal. unfold sampled. apply map_ext. intros x. do 2 f_equal. symmetry. apply series_coefficients; eauto.
    + symmetry. apply list_by_coef. apply coefficients_length.
  - cbn [dc_data]. intros k p I. apply In_dmap in I as (e & _ & ->). rewrite Ls, sampled_fst. split; [reflexivity|]. split; [lia|].
    apply Ac; [apply Ls|]. rewrite sampled_fst. apply grid_NoDup.
Qed.
End Pipe.
