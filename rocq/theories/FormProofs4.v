(** Sampling, phase shifts, merging and files. *)
From Coq Require Import String List ZArith QArith Qreals Reals Lra Lia Bool Permutation Sorted.
From Coquelicot Require Import Complex.
From Verif Require Import PyBase CBase RMod DataModel SpecData DataProofs DataProofs2 FDataModel SpecFData FDataProofs FDataProofs2
  Expr ExprProofs LookupTable FormModel SpecForm FourierBase TableProofs FormProofs FormProofs2 FormProofs3.
Import ListNotations.
Local Open Scope nat_scope.

Section Ev.
Variable ev : expr -> expr.
Hypothesis EV : sound_ev ev.

(** form_to_dat *)
Lemma form_to_dat_gate f d n dat : wf_dict f -> form_to_dat ev f d n = Ok dat ->
  symbol_list (dvals (form_subs ev f (dmap number d))) = [phi].
Proof.
  intros W. unfold form_to_dat. rewrite form_construct_items by auto. cbn [bind]. unfold form_free_symbols.
  destruct (symbol_list _) as [|x [|y l]]; try discriminate.
  destruct (sym_eqb_spec x phi) as [->|]; [auto|discriminate].
Qed.

Lemma single_symbol es : (exists e, In e es /\ In phi (syms e)) ->
  (forall e x, In e es -> In x (syms e) -> x = phi) -> symbol_list es = [phi].
Proof.
  intros (e & I & Ip) H.
  assert (Ix : forall x, In x (symbol_list es) -> x = phi).
  { intros x Ix. apply in_symbol_list in Ix as (e' & Ie & Ix). eapply H; eauto. }
  assert (Iphi : In phi (symbol_list es)) by (apply in_symbol_list; eauto).
  assert (N := NoDup_symbol_list es).
  destruct (symbol_list es) as [|x [|y l]]; [destruct Iphi| |].
  - f_equal. apply Ix. left; auto.
  - exfalso. assert (x = phi) by (apply Ix; left; auto). assert (y = phi) by (apply Ix; right; left; auto). subst.
    inversion N as [|? ? Nx _]; subst. apply Nx. left; auto.
Qed.

Lemma respects_at_phi rho x : respects rho -> respects (at_phi rho x).
Proof. intros H s E. unfold at_phi. destruct (sym_eqb s phi); auto. Qed.

Lemma agrees_at_phi rho x d : agrees rho d -> ~ In phi (dkeys d) -> agrees (at_phi rho x) d.
Proof.
  intros A N s q I. unfold at_phi. destruct (sym_eqb_spec s phi) as [->|]; [|apply A; auto].
  exfalso. apply N. unfold dkeys. apply in_map_iff. exists (phi, q); auto.
Qed.

(** The value plotted by form_to_dat. *)
Lemma sampled_value d rho x e : respects rho -> agrees rho d -> ~ In phi (dkeys d) ->
  (forall y, In y (syms (subs_seq ev (dmap number d) e)) -> y = phi) ->
  eval (fun _ => RtoC x) (subs_seq ev (dmap number d) e) = eval (at_phi rho x) e.
Proof.
  intros Hr Ha Np H.
  rewrite <- (subs_seq_eval ev EV d (at_phi rho x) e).
  - apply eval_ext. intros y Iy. apply H in Iy. subst. reflexivity.
  - apply respects_at_phi; auto.
  - apply agrees_at_phi; auto.
Qed.

Lemma form_to_dat_ok f d n : wf_dict f -> 0 < n ->
  symbol_list (dvals (form_subs ev f (dmap number d))) = [phi] ->
  form_to_dat ev f d n =
    Ok (mkdat (dmap (fun e => sampled n (fun x => Re (eval (fun _ => RtoC x) (subs_seq ev (dmap number d) e)))) f)
              1 0 0 "radians" false).
Proof.
  intros W P E. unfold form_to_dat. rewrite form_construct_items by auto. cbn [bind]. unfold form_free_symbols.
  rewrite E. replace (sym_eqb phi phi) with true by reflexivity.
  set (g := fun e => sampled n (fun x => Re (eval (fun _ => RtoC x) e))).
  replace (map _ (form_subs ev f (dmap number d))) with (input DFloat (dmap g (form_subs ev f (dmap number d)))).
  2:{ unfold input, dmap. rewrite map_map. apply map_ext. intros [k e]. cbn [fst snd]. unfold arr, g, sampled.
      rewrite !map_map. cbn [fst snd]. rewrite map_id. reflexivity. }
  rewrite construct_input.
  - do 2 f_equal. unfold form_subs. rewrite !dmap_dmap. apply dmap_ext. intros. unfold g. apply finish_sampled.
  - unfold form_subs. apply wf_dmap, wf_dmap; auto.
  - apply Forall_forall. intros [k p] I. apply In_dmap in I as (v & I & ->). simpl.
    unfold g, sampled, grid. destruct n; [lia|]. discriminate.
Qed.

Lemma form_to_dat_accepts f d n rho x1 x2 : wf_dict f -> 0 < n ->
  (forall x, form_occurs f x -> x <> phi -> In x (dkeys d)) -> ~ In phi (dkeys d) ->
  respects rho -> agrees rho d ->
  (exists k e, In (k, e) f /\ eval (at_phi rho x1) e <> eval (at_phi rho x2) e) ->
  form_to_dat ev f d n =
    Ok (mkdat (dmap (fun e => sampled n (fun x => Re (eval (at_phi rho x) e))) f) 1 0 0 "radians" false).
Proof.
  intros W P H Np Hr Ha (k & e & I & V).
  assert (Only : forall k e y, In (k, e) f -> In y (syms (subs_seq ev (dmap number d) e)) -> y = phi).
  { intros k0 e0 y I0 Iy. apply (subs_seq_syms ev EV) in Iy as [Iy Ny].
    destruct (sym_eqb_spec y phi); auto. exfalso. apply Ny. apply H; auto. exists k0, e0; auto. }
  rewrite form_to_dat_ok; auto.
  - do 2 f_equal. apply dmap_ext. intros k0 e0 I0. unfold sampled. apply map_ext. intros x. do 2 f_equal.
    apply sampled_value; auto. intros y. eapply Only; eauto.
  - apply single_symbol.
    + exists (subs_seq ev (dmap number d) e). split.
      * unfold dvals, form_subs, dmap. rewrite map_map. apply in_map_iff. exists (k, e). auto.
      * destruct (in_dec sym_eq_dec phi (syms (subs_seq ev (dmap number d) e))) as [Y|N]; auto.
        exfalso. apply V.
        rewrite <- (subs_seq_eval ev EV d (at_phi rho x1) e), <- (subs_seq_eval ev EV d (at_phi rho x2) e);
          auto using respects_at_phi, agrees_at_phi; try (apply agrees_at_phi; auto).
        rewrite !at_phi_free; auto.
    + intros e' y Ie Iy. unfold dvals, form_subs, dmap in Ie. rewrite map_map in Ie.
      apply in_map_iff in Ie as ([k0 e0] & <- & I0). eapply Only; eauto.
Qed.

(** A formula whose components do not contain phi is refused. *)
Lemma form_to_dat_constant f d n : wf_dict f ->
  (forall k e, In (k, e) f -> ~ In phi (syms (subs_seq ev (dmap number d) e))) ->
  form_to_dat ev f d n = Raise ValueError.
Proof.
  intros W H. unfold form_to_dat. rewrite form_construct_items by auto. cbn [bind]. unfold form_free_symbols.
  destruct (symbol_list (dvals (form_subs ev f (dmap number d)))) as [|x [|y l]] eqn:E; auto.
  destruct (sym_eqb_spec x phi) as [->|]; auto. exfalso.
  assert (I : In phi (symbol_list (dvals (form_subs ev f (dmap number d))))) by (rewrite E; left; auto).
  apply in_symbol_list in I as (e & Ie & Ip). unfold dvals, form_subs, dmap in Ie. rewrite map_map in Ie.
  apply in_map_iff in Ie as ([k0 e0] & <- & I0). eapply H; eauto.
Qed.

(** The two ways of sampling a Fourier formula. *)
Lemma subset_nonempty (n : nat) : n = 0 \/ 0 < n. Proof. lia. Qed.

Lemma sampling_agree F d n g d1 d2 rho : ff_reachable ev F -> respects rho -> agrees rho d ->
  fform_to_form ev F = Ok g -> form_to_dat ev g d n = Ok d1 -> fform_to_dat ev F d n = Ok d2 -> d1 = d2.
Proof.
  intros R Hr Ha Eg E1 E2.
  assert (W := ff_reachable_wf ev F R).
  rewrite fform_to_form_ok in Eg by auto. injection Eg as <-.
  set (g := dmap (fun r => formula_from_fexpr ev (ff_M F) (r_cells r)) (ff_rows F)) in *.
  assert (Wg : wf_dict g) by (apply wf_dmap, W).
  assert (Gate := form_to_dat_gate _ _ _ _ Wg E1).
  assert (Only : forall k e y, In (k, e) g -> In y (syms (subs_seq ev (dmap number d) e)) -> y = phi).
  { intros k e y I Iy.
    assert (X : In y (symbol_list (dvals (form_subs ev g (dmap number d))))).
    { apply in_symbol_list. exists (subs_seq ev (dmap number d) e). split; auto.
      unfold dvals, form_subs, dmap. rewrite map_map. apply in_map_iff. exists (k, e). auto. }
    rewrite Gate in X. destruct X as [X|[]]; auto. }
  assert (Np : ~ In phi (dkeys d)).
  { intros I. assert (X : In phi (symbol_list (dvals (form_subs ev g (dmap number d))))) by (rewrite Gate; left; auto).
    apply in_symbol_list in X as (e & Ie & Ip). unfold dvals, form_subs, dmap in Ie. rewrite map_map in Ie.
    apply in_map_iff in Ie as ([k0 e0] & <- & I0). apply (subs_seq_syms ev EV) in Ip as [_ N]. apply N. auto. }
  (* the Fourier side *)
  unfold fform_to_dat in E2. destruct (fform_to_fdat ev F d) as [fd|] eqn:Ef; [|discriminate]. cbn [bind] in E2.
  assert (Sy : symbolic F).
  { intros k r I. destruct (r_obj r) eqn:O; auto. exfalso. unfold fform_to_fdat, ff_free_symbols, all_cells in Ef.
    replace (forallb (fun kr => r_obj (snd kr)) (ff_rows F)) with false in Ef; [discriminate|].
    symmetry. apply not_true_is_false. rewrite forallb_forall. intros A. specialize (A _ I). simpl in A. congruence. }
  assert (Ne : ff_rows F <> []).
  { intros E. unfold g in Gate. rewrite E in Gate. discriminate. }
  assert (M16 : ff_M F = 16).
  { destruct (Nat.eq_dec (ff_M F) 16); auto. exfalso.
    destruct (fform_to_fdat_other ev F d W Ne n0) as [e X]. congruence. }
  assert (Oc : forall s, ff_occurs F s -> In s (dkeys d)).
  { intros s O. destruct (in_dec sym_eq_dec s (dkeys d)) as [|N]; auto. exfalso.
    rewrite (fform_to_fdat_missing ev F d s W Sy O N) in Ef. discriminate. }
  destruct (fform_to_fdat_ok ev EV F d W Sy M16 Oc) as (sa & Isa & Efd & V).
  rewrite Ef in Efd. injection Efd as ->.
  assert (Val : forall x k r, In (k, r) (ff_rows F) ->
     eval (fun _ => RtoC x) (subs_seq ev (dmap number d) (formula_from_fexpr ev (ff_M F) (r_cells r))) =
     synth 16 (map (values ev sa) (r_cells r)) x).
  { intros x k r I.
    rewrite (sampled_value d rho) by (auto; intros y; eapply (Only k); unfold g, dmap; apply in_map_iff; exists (k, r); auto).
    rewrite (formula_value ev EV) by (apply respects_at_phi; auto).
    change (at_phi rho x phi) with (RtoC x). rewrite fseries_R, M16. f_equal.
    apply map_ext_in. intros e Ie. symmetry. apply (V (at_phi rho x) k r e); auto.
    - apply respects_at_phi; auto.
    - intros s q Is. apply (agrees_at_phi rho x d Ha Np s q). auto. }
  assert (G : Ok d1 = fdat_to_dat (mkfdat (dmap (fun r => map (values ev sa) (r_cells r)) (ff_rows F)) 1 (PNum 0) 16) n).
  { rewrite <- E1. unfold form_to_dat. rewrite form_construct_items by auto. cbn [bind]. unfold form_free_symbols.
    rewrite Gate. replace (sym_eqb phi phi) with true by reflexivity. unfold fdat_to_dat. cbn [fd_data fd_M].
    f_equal. unfold form_subs, g, dmap. rewrite !map_map. apply map_ext_in. intros [k r] I. cbn [fst snd].
    do 4 f_equal. apply map_ext. intros x. f_equal. eapply Val; eauto. }
  congruence.
Qed.

(** Phase shifts. *)
Lemma shift_cells rho F a k r : In (k, r) (ff_rows F) -> respects rho ->
  map (eval rho) (map (fun mc => ev (EMul [snd mc; cis_expr (fst mc) a])) (combine (freqs (ff_M F)) (r_cells r))) =
  map (fun mc => Cmult (snd mc) (Cexpi (Cmult (RtoC (IZR (fst mc))) (eval rho a))))
      (combine (freqs (ff_M F)) (map (eval rho) (r_cells r))).
Proof.
  intros I Hr. rewrite combine_map_r, !map_map. apply map_ext. intros [m c]. cbn [fst snd].
  rewrite (proj1 EV) by auto. rewrite eval_mul. cbn [map fold_right]. rewrite eval_cis_expr. ring.
Qed.

Lemma combine_combine {A B D} (f : A * B -> D) (l : list A) (l' : list B) : 
  combine l (map f (combine l l')) = map (fun p => (fst p, f p)) (combine l l').
Proof. revert l'; induction l as [|a l IH]; intros [|b l']; simpl; auto. rewrite IH; auto. Qed.

Lemma fseries_shift M cs w z : 
  fseries M (map (fun mc => Cmult (snd mc) (Cexpi (Cmult (RtoC (IZR (fst mc))) w))) (combine (freqs M) cs)) z =
  fseries M cs (Cplus z w).
Proof.
  unfold fseries. rewrite combine_combine, Csum_map. apply Csum_ext. intros [m c]. cbn [fst snd].
  rewrite Cmult_plus_distr_l, Cexpi_plus. ring.
Qed.

Lemma shifted_formula F a g0 g1 k e0 e1 rho : ff_wf F -> ~ ff_occurs F phi ->
  fform_to_form ev F = Ok g0 -> fform_to_form ev (ff_phase_shift ev F a) = Ok g1 ->
  In (k, e0) g0 -> In (k, e1) g1 -> respects rho -> Im (eval rho a) = 0%R ->
  eval rho e1 = eval (upd rho phi (Cplus (rho phi) (eval rho a))) e0.
Proof.
  intros W Np E0 E1 I0 I1 Hr Ia.
  rewrite fform_to_form_ok in E0 by auto. injection E0 as <-.
  rewrite fform_to_form_ok in E1 by (apply map_rows_wf; auto). injection E1 as <-.
  apply in_map_iff in I0 as ([k0 r0] & X & I0). cbn [fst snd] in X. inversion X; subst k0 e0; clear X.
  apply in_map_iff in I1 as ([k1 r1] & X & I1). cbn [fst snd] in X. inversion X; subst k1 e1; clear X.
  apply in_map_iff in I1 as ([k2 r2] & X & I1). cbn [fst snd] in X. inversion X; subst k2 r1; clear X.
  assert (r2 = r0). { destruct W as [W _]. apply (In_dget _ _ _ W) in I0, I1. congruence. } subst r2.
  cbn [map_rows ff_M r_cells snd ff_phase_shift].
  rewrite (formula_value ev EV) by auto. rewrite (shift_cells rho F a k r0) by auto.
  rewrite fseries_shift.
  rewrite (formula_value ev EV).
  - unfold upd at 2. replace (sym_eqb phi phi) with true by reflexivity. f_equal.
    apply map_ext_in. intros e Ie. apply eval_ext. intros s Is. unfold upd.
    destruct (sym_eqb_spec s phi) as [->|]; auto. exfalso. apply Np. exists k, r0, e. auto.
  - intros s Es. unfold upd. destruct (sym_eqb_spec s phi) as [->|]; auto.
    change (Im (Cplus (rho phi) (eval rho a))) with (Im (rho phi) + Im (eval rho a))%R. rewrite Ia, Hr by auto. ring.
Qed.
End Ev.
