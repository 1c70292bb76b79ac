(** Properties C15 (formulas), C20-C29, C59: formulas, Fourier formulas, the
    lookup table, conversions, merging and files.  [ev] is sympy's automatic
    evaluation; every statement holds for each sound one. *)
From Coq Require Import String List ZArith QArith Qreals Reals Lra Lia Bool Sorted.
From Coquelicot Require Import Complex.
From Verif Require Import PyBase RMod DataModel SpecData DataProofs DataProofs2 CBase FDataModel SpecFData FDataProofs FDataProofs2
  Expr ExprProofs LookupTable FormModel SpecForm FourierBase TableProofs FormProofs FormProofs2 FormProofs3 FormProofs4 FormProofs5.
Import ListNotations.
Local Open Scope nat_scope.

(** * Cases used below *)
Definition a_sym : sym := mksym "a" None.
Definition A_ : expr := ESym a_sym.
Definition COS : expr := ECos (ESym phi).
Definition SIN : expr := ESin (ESym phi).
Lemma id_sound : sound_ev (fun e => e).
Proof. split; [auto|intros e x I; exact I]. Qed.
Definition rho2 : sym -> C := fun _ => RtoC 2.
Lemma rho2_ok : respects rho2.
Proof. intros s _. reflexivity. Qed.

(** A Fourier formula of order M with coefficient [a] at every frequency. *)
Definition flat_it (M : nat) : list (pykey * oval) := [(KStr "PP", OArr true 1 (repeat (SymE A_) (2 * M + 1)))].
Definition flat (M : nat) : fform := mkff [("PP"%string, mkrow true (repeat A_ (2 * M + 1)))] M.
Lemma flat_ok M : ff_construct (flat_it M) M = Ok (flat M).
Proof.
  rewrite (ff_construct_rows [("PP"%string, repeat (SymE A_) (2 * M + 1))]).
  - unfold flat. do 2 f_equal. unfold dmap, entry_row; cbn [map fst snd]. do 3 f_equal.
    + replace (2 * M + 1) with (S (2 * M)) by lia. reflexivity.
    + apply map_repeat || (induction (2 * M + 1); simpl; congruence).
  - repeat constructor; simpl; tauto.
  - intros k es [X|[]]. injection X as <- <-. rewrite repeat_length. split; auto.
    apply Forall_forall. intros x I. apply repeat_spec in I. subst. discriminate.
Qed.
Lemma flat_reachable ev M : ff_reachable ev (flat M).
Proof. exists (flat_it M), M, (flat M), []. split; [apply flat_ok|reflexivity]. Qed.
Lemma flat_symbolic M : symbolic (flat M).
Proof. intros k r [X|[]]. injection X as <- <-. reflexivity. Qed.
Lemma flat_occurs M x : ff_occurs (flat M) x <-> x = a_sym.
Proof.
  split.
  - intros (k & r & e & [X|[]] & Ie & Ix). injection X as <- <-. apply repeat_spec in Ie. subst. destruct Ix as [<-|[]]; auto.
  - intros ->. exists "PP"%string, (mkrow true (repeat A_ (2 * M + 1))), A_. split; [left; auto|].
    split; [|left; auto]. cbn [r_cells]. replace (2 * M + 1) with (S (2 * M)) by lia. left; auto.
Qed.

(** A container whose only array holds python numbers. *)
Definition zero_it : list (pykey * oval) := [(KStr "PP", OArr true 1 (repeat (PyNum 0 0) 33))].
Definition zero_ff : fform := mkff [("PP"%string, mkrow false (repeat (ENum 0 0) 33))] 16.
Lemma zero_ok : ff_construct zero_it 16 = Ok zero_ff.
Proof. reflexivity. Qed.
Lemma zero_reachable ev : ff_reachable ev zero_ff.
Proof. exists zero_it, 16, zero_ff, []. split; [apply zero_ok|reflexivity]. Qed.

(* ================================================================== *)
(** * C15, formula containers *)

Theorem C15_form_copy : forall it f, form_construct it = Ok f -> form_copy f = Ok f.
Proof. intros it f E. apply form_construct_items. eapply form_construct_inv; eauto. Qed.
Print Assumptions C15_form_copy.

(** Also after any history of substitutions, shifts and scalings. *)
Theorem C15_fform_copy_partial : forall ev F, ff_reachable ev F -> symbolic F -> ff_copy F = Ok F.
Proof. intros ev F R S. apply ff_rebuild; auto. eapply ff_reachable_wf; eauto. Qed.
Print Assumptions C15_fform_copy_partial.

(** A container accepted by the constructor whose arrays hold only numbers cannot
    be copied. *)
Theorem C15_fform_copy_refuted : exists it F, ff_construct it 16 = Ok F /\ ff_copy F = Raise ValueError.
Proof. exists zero_it, zero_ff. split; reflexivity. Qed.
Print Assumptions C15_fform_copy_refuted.

Example C15_form_case : ff_reachable (fun e => e) (ff_phase_shift (fun e => e) (flat 3) (num 1)) /\
  symbolic (ff_phase_shift (fun e => e) (flat 3) (num 1)).
Proof.
  split.
  - exists (flat_it 3), 3, (flat 3), [FFPhase (num 1)]. split; [apply flat_ok|reflexivity].
  - intros k r [X|[]]. injection X as <- <-. reflexivity.
Qed.

(* ================================================================== *)
(** * C20 *)

Theorem C20_evaluation_partial : forall ev F d, sound_ev ev -> ff_reachable ev F -> symbolic F -> ff_M F = 16 ->
  (forall s, ff_occurs F s -> In s (dkeys d)) ->
  exists fd, fform_to_fdat ev F d = Ok fd /\ fget_keys fd = ff_get_keys F /\ fget_M fd = 16 /\
    fget_scale fd = 1%R /\
    forall k cells, ff_get_pc F k = Ok cells -> exists v, fget_pc fd k = Ok v /\ length v = 33 /\
      forall rho, respects rho -> agrees rho d -> v = map (eval rho) cells.
Proof.
  intros ev F d EV R S M16 H. assert (W := ff_reachable_wf ev F R).
  destruct (fform_to_fdat_ok ev EV F d W S M16 H) as (sa & I & E & V).
  eexists. split; [exact E|]. split; [|split; [reflexivity|split; [reflexivity|]]].
  - unfold fget_keys, ff_get_keys. cbn [fd_data]. unfold dkeys, dmap. rewrite map_map. reflexivity.
  - intros k cells. unfold ff_get_pc, fget_pc, dgetr. cbn [fd_data]. rewrite dget_dmap.
    destruct (dget k (ff_rows F)) as [r|] eqn:G; [|discriminate]. cbn [bind option_map]. intros X; injection X as <-.
    apply dget_In in G. eexists. split; [reflexivity|]. split.
    + rewrite map_length. destruct W as [_ L]. rewrite (L k r G), M16. reflexivity.
    + intros rho Hr Ha. apply map_ext_in. intros e Ie. apply (V rho k r e); auto.
Qed.
Print Assumptions C20_evaluation_partial.

Theorem C20_missing_symbol : forall ev F d s, ff_reachable ev F -> symbolic F -> ff_occurs F s -> ~ In s (dkeys d) ->
  fform_to_fdat ev F d = Raise KeyError.
Proof. intros ev F d s R S O N. eapply fform_to_fdat_missing; eauto using ff_reachable_wf. Qed.
Print Assumptions C20_missing_symbol.

(** Without any free symbol there is nothing to substitute, and the conversion
    still fails when the arrays hold plain numbers. *)
Theorem C20_evaluation_refuted : forall ev, exists F, ff_reachable ev F /\ ff_M F = 16 /\ (forall s, ~ ff_occurs F s) /\
  forall d, fform_to_fdat ev F d = Raise AttributeError.
Proof.
  intros ev. exists zero_ff. split; [apply zero_reachable|]. split; [reflexivity|]. split.
  - intros s (k & r & e & [X|[]] & Ie & Is). injection X as <- <-. apply (repeat_spec 33 (ENum 0 0)) in Ie. subst. destruct Is.
  - reflexivity.
Qed.
Print Assumptions C20_evaluation_refuted.

Example C20_case : exists fd, fform_to_fdat (fun e => e) (flat 16) [(a_sym, (3, 1)%Q)] = Ok fd /\
  fget_pc fd "PP" = Ok (repeat (RtoC 3 + Ci)%C 33).
Proof.
  destruct (C20_evaluation_partial (fun e => e) (flat 16) [(a_sym, (3, 1)%Q)] id_sound (flat_reachable _ 16) (flat_symbolic 16) eq_refl)
    as (fd & E & _ & _ & _ & V).
  { intros s O. apply flat_occurs in O. left; auto. }
  exists fd. split; auto. destruct (V "PP"%string (repeat A_ 33) eq_refl) as (v & Ev & _ & Hv). rewrite Ev. f_equal.
  rewrite (Hv (fun s => if sym_eqb s a_sym then qval (3, 1)%Q else RtoC 0)).
  - assert (X : eval (fun s => if sym_eqb s a_sym then qval (3, 1)%Q else RtoC 0) A_ = (RtoC 3 + Ci)%C).
    { change (qval (3, 1)%Q = (RtoC 3 + Ci)%C). unfold qval, Q2R. apply C_ext; unfold Re, Im; simpl; field. }
    generalize 33. intros n. induction n as [|n IH]; auto. cbn [repeat map]. rewrite IH, X. reflexivity.
  - intros s E0. destruct (sym_eqb_spec s a_sym) as [->|]; [discriminate|reflexivity].
  - intros s q [X|[]]. injection X as <- <-. reflexivity.
Qed.

(* ================================================================== *)
(** * C21 *)

Theorem C21_fform_to_fdat_refuted : forall ev F d, ff_reachable ev F -> ff_rows F <> [] -> ff_M F <> 16 ->
  exists e, fform_to_fdat ev F d = Raise e /\
    (symbolic F -> (forall s, ff_occurs F s -> In s (dkeys d)) -> e = ValueError).
Proof.
  intros ev F d R N D. assert (W := ff_reachable_wf ev F R).
  destruct (fform_to_fdat_other ev F d W N D) as [e E]. exists e. split; auto.
  intros S H. rewrite (fform_to_fdat_other_value ev F d W S N D H) in E. congruence.
Qed.
Print Assumptions C21_fform_to_fdat_refuted.

Lemma form_to_fform_wf ev f M F : form_to_fform ev f M = Ok F -> ff_wf F /\ ff_M F = M /\ (f <> [] -> ff_rows F <> []).
Proof.
  unfold form_to_fform. destruct (dmapM _ f) as [rows|] eqn:E; [|discriminate]. cbn [bind]. intros E'.
  destruct (ff_construct_inv _ _ _ E') as [EM Wf]. split; [unfold ff_wf; rewrite EM; auto|]. split; auto.
  intros N X. assert (K := dmapM_keys _ _ _ E).
  unfold ff_construct in E'. destruct (ocheck _ _); [|discriminate]. cbn [bind] in E'.
  destruct (dmapM copy_row _) as [rs|] eqn:E2; [|discriminate]. cbn [bind] in E'. injection E' as <-. cbn [ff_rows] in X.
  apply map_eq_nil in X. subst rs. apply dmapM_keys in E2. cbn in E2.
  destruct f as [|[k e] f]; [congruence|]. destruct rows as [|[k' v] rows]; [discriminate|].
  assert (In (KStr k') (dkeys (dict_of (map (fun kr => (KStr (fst kr), OArr true 1 (snd kr))) ((k', v) :: rows))))).
  { apply (proj2 (In_dkeys_dict_of _ _)). left. reflexivity. }
  destruct (dict_of _); [destruct H|discriminate].
Qed.

Theorem C21_form_to_fdat_refuted : forall ev f d M, f <> [] -> M <> 16 -> exists e, form_to_fdat ev f d M = Raise e.
Proof.
  intros ev f d M N D. unfold form_to_fdat. destruct (form_to_fform ev f M) as [F|e] eqn:E; cbn [bind]; eauto.
  apply form_to_fform_wf in E as (W & EM & NF). apply fform_to_fdat_other; auto. congruence.
Qed.
Print Assumptions C21_form_to_fdat_refuted.

Theorem C21_merge_refuted : forall ev F, ff_reachable ev F -> ff_rows F <> [] -> ff_M F <> 16 ->
  merge_containers [CFForm F] (fun k _ => KStr k) = Raise ValueError.
Proof.
  intros ev F R N D. unfold merge_containers. cbn [merge_loop merge_fform_items bind]. rewrite app_nil_r, map_map.
  cbn [fst snd]. change (map _ (ff_rows F)) with (ff_items F).
  rewrite ff_rebuild_other; auto. eapply ff_reachable_wf; eauto.
Qed.
Print Assumptions C21_merge_refuted.

Theorem C21_load_refuted : forall ev srepr parse F, inverse_printer srepr parse F -> ff_reachable ev F -> ff_rows F <> [] ->
  ff_M F <> 16 -> load_fform parse (save_fform srepr F) = Raise ValueError.
Proof. intros ev srepr parse F I R N D. apply load_save_other; auto. eapply ff_reachable_wf; eauto. Qed.
Print Assumptions C21_load_refuted.

Example C21_case : ff_reachable (fun e => e) (flat 5) /\ ff_rows (flat 5) <> [] /\ ff_M (flat 5) <> 16.
Proof. split; [apply flat_reachable|]. split; discriminate. Qed.

(* ================================================================== *)
(** * C22 *)

Theorem C22_table : forall c s, (exists l, dget (c, s) lookup_table = Some l) <-> c + s <= 8.
Proof. intros c s. split; [intros [l E]; apply (table_only c s l E)|apply table_has]. Qed.
Print Assumptions C22_table.

Lemma RtoC_Cpow x n : RtoC (x ^ n) = Cpow (RtoC x) n.
Proof. induction n as [|n IH]; [reflexivity|]. cbn [Cpow]. rewrite <- IH, <- RtoC_mult. reflexivity. Qed.

Theorem C22_entries : forall c s l n, dget (c, s) lookup_table = Some l -> (-16 <= n <= 16)%Z ->
  exists v, py_nth l (n + 16) = Ok v /\
    qval v = fourier_coefficient (fun x => RtoC (cos x ^ c * sin x ^ s)) n.
Proof.
  intros c s l n E B. destruct (table_only _ _ _ E) as [L L33].
  exists (nth (Z.to_nat (n + 16)) l (0, 0)%Q). split.
  - rewrite py_nth_nonneg by lia. rewrite (nth_error_nth' l (0, 0)%Q) by lia. reflexivity.
  - unfold qval. fold (qc (nth (Z.to_nat (n + 16)) l (0, 0)%Q)). rewrite (table_coefficient c s l n E B).
    apply fourier_coefficient_ext. intros x. rewrite RtoC_mult, !RtoC_Cpow. reflexivity.
Qed.
Print Assumptions C22_entries.

(** cos(phi)^2 sin(phi)^2 has the coefficient -1/16 at frequency 4. *)
Example C22_case : fourier_coefficient (fun x => RtoC (cos x ^ 2 * sin x ^ 2)) 4 = RtoC (- 1 / 16).
Proof.
  destruct (table_has 2 2) as [l E]; [lia|]. destruct (C22_entries 2 2 l 4 E) as (v & Ev & <-); [lia|].
  vm_compute in E. injection E as <-. vm_compute in Ev. injection Ev as <-.
  unfold qval, Q2R. apply C_ext; unfold Re, Im; simpl; field.
Qed.

(* ================================================================== *)
(** * C23 *)

Theorem C23_coefficients_partial : forall ev f M, sound_ev ev -> (exists it, form_construct it = Ok f) ->
  (forall k e, In (k, e) f -> covered e) -> M <= 16 ->
  exists F, form_to_fform ev f M = Ok F /\ ff_get_keys F = dkeys f /\ ff_M F = M /\
    forall k e, form_get_pc f k = Ok e -> exists cells, ff_get_pc F k = Ok cells /\ length cells = 2 * M + 1 /\
      (forall c, In c cells -> ~ In phi (syms c)) /\
      forall rho, respects rho ->
        map (eval rho) cells = map (fourier_coefficient (fun x => eval (at_phi rho x) e)) (freqs M).
Proof.
  intros ev f M EV [it C] H L. apply form_construct_inv in C.
  destruct (form_to_fform_get ev EV f M C H L) as (F & E & W & EM & K & G).
  exists F. split; auto. split; auto. split; auto. intros k e X. apply G.
  unfold form_get_pc, dgetr in X. destruct (dget k f) eqn:D; [|discriminate]. injection X as <-. apply dget_In; auto.
Qed.
Print Assumptions C23_coefficients_partial.

(** sin(phi)^2*a + cos(phi)*sin(phi)*a is covered. *)
Example C23_case : covered (EAdd [EMul [A_; EPow SIN 2]; EMul [A_; COS; SIN]]).
Proof.
  apply cov_sum. intros e [<-|[<-|[]]].
  - exists [A_; EPow SIN 2], 0, 2. split; auto. split; [|lia].
    apply mono_free; [simpl; intuition discriminate|]. apply (mono_trig _ [] 0 0 0 2); constructor.
  - exists [A_; COS; SIN], 1, 1. split; auto. split; [|lia].
    apply mono_free; [simpl; intuition discriminate|]. apply (mono_trig _ [SIN] 0 1 1 0); [constructor|].
    apply (mono_trig _ [] 0 0 0 1); constructor.
Qed.

Lemma cos_coefficient (z : C) : fourier_coefficient (fun x => Cmult z (RtoC (cos x))) 1 = Cmult z (RtoC (1 / 2)).
Proof.
  assert (E : forall x, Cmult z (RtoC (cos x)) =
     Csum (fun m => Cmult (Cmult z (RtoC (1 / 2))) (cis (IZR m * x))) [1; -1]%Z).
  { intros x. unfold Csum, cis. cbn [fold_right map]. replace (1 * x)%R with x by ring. replace (-1 * x)%R with (- x)%R by ring.
    rewrite cos_neg, sin_neg. destruct z as [u v]. apply C_ext; unfold Re, Im; simpl; field. }
  rewrite (fourier_coefficient_ext _ _ 1%Z E).
  rewrite (coefficient_trig (fun _ => Cmult z (RtoC (1 / 2)))).
  - destruct (in_dec Z.eq_dec 1%Z [1; -1]%Z) as [|N]; auto. exfalso. apply N. left; auto.
  - repeat constructor; simpl; intuition discriminate.
Qed.

(** A single term linear in cos(phi): the coefficient at frequency 1 is returned
    as 0, it is a/2. *)
Theorem C23_linear_refuted : forall ev, sound_ev ev ->
  exists F cells, form_to_fform ev [("PP"%string, EMul [A_; COS])] 16 = Ok F /\ ff_get_pc F "PP" = Ok cells /\
    py_nth cells (1 + 16) = Ok (num 0) /\
    fourier_coefficient (fun x => eval (at_phi rho2 x) (EMul [A_; COS])) 1 = RtoC 1.
Proof.
  intros ev EV. eexists _, _. split; [reflexivity|]. split; [reflexivity|]. split; [reflexivity|].
  rewrite (fourier_coefficient_ext _ (fun x => Cmult (RtoC 2) (RtoC (cos x)))).
  - rewrite cos_coefficient. apply C_ext; unfold Re, Im; simpl; field.
  - intros x. cbn [eval map fold_right]. unfold at_phi. cbn [sym_eqb]. change (sym_eqb a_sym phi) with false.
    change (sym_eqb phi phi) with true. cbn iota. unfold rho2. unfold Ccos, RtoC. simpl.
    rewrite cosh_0, sinh_0 || idtac. apply C_ext; unfold Re, Im; simpl; unfold cosh, sinh; rewrite ?Ropp_0, ?exp_0; field.
Qed.
Print Assumptions C23_linear_refuted.

(** A summand without a product structure: a + cos(phi)*sin(phi) has mean a, the
    result has mean 1. *)
Theorem C23_atom_refuted : forall ev, sound_ev ev -> exists F cells,
  form_to_fform ev [("PP"%string, EAdd [A_; EMul [COS; SIN]])] 16 = Ok F /\ ff_get_pc F "PP" = Ok cells /\
  exists v, py_nth cells (0 + 16) = Ok v /\ eval rho2 v = RtoC 1.
Proof.
  intros ev EV. eexists _, _. split; [reflexivity|]. split; [reflexivity|]. eexists. split; [reflexivity|].
  rewrite (proj1 EV) by apply rho2_ok. apply C_ext; unfold Re, Im; simpl; unfold Q2R; simpl; field.
Qed.
Print Assumptions C23_atom_refuted.

(** A bare cos(phi) as a summand, or a product of degree above 8: KeyError. *)
Theorem C23_raises_refuted : forall ev,
  form_to_fform ev [("PP"%string, EAdd [A_; COS])] 16 = Raise KeyError /\
  form_to_fform ev [("PP"%string, EMul [EPow COS 5; EPow SIN 4])] 16 = Raise KeyError.
Proof. intros ev. split; reflexivity. Qed.
Print Assumptions C23_raises_refuted.

(* ================================================================== *)
(** * C24 *)

Lemma real_phi rho : respects rho -> rho phi = RtoC (Re (rho phi)).
Proof. intros H. specialize (H phi eq_refl). apply C_ext; auto. Qed.

Theorem C24_truncated : forall ev f M, sound_ev ev -> (exists it, form_construct it = Ok f) ->
  (forall k e, In (k, e) f -> covered e) -> M <= 16 ->
  exists F g, form_to_fform ev f M = Ok F /\ fform_to_form ev F = Ok g /\ dkeys g = dkeys f /\
    forall k e, form_get_pc f k = Ok e -> exists e', form_get_pc g k = Ok e' /\
      forall rho x, respects rho -> rho phi = RtoC x ->
        eval rho e' = Csum (fun m => Cmult (fourier_coefficient (fun y => eval (at_phi rho y) e) m) (cis (IZR m * x))) (freqs M).
Proof.
  intros ev f M EV [it C] H L. apply form_construct_inv in C.
  destruct (form_to_fform_get ev EV f M C H L) as (F & E & W & EM & K & G).
  exists F. eexists. split; auto. split; [apply fform_to_form_ok; auto|]. split.
  - unfold dkeys, dmap. rewrite map_map. cbn [fst]. exact K.
  - intros k e X. unfold form_get_pc, dgetr in X. destruct (dget k f) eqn:D; [|discriminate]. injection X as <-.
    apply dget_In in D. destruct (G k e0 D) as (cells & Ec & Lc & _ & V).
    unfold ff_get_pc, dgetr in Ec. destruct (dget k (ff_rows F)) as [r|] eqn:Dr; [|discriminate]. injection Ec as <-.
    eexists. unfold form_get_pc, dgetr. rewrite dget_dmap, Dr. split; [reflexivity|].
    intros rho x Hr Ex. rewrite (formula_value ev EV) by auto. rewrite V, Ex, EM by auto.
    symmetry. apply series_coefs; auto.
    eapply H; eauto.
Qed.
Print Assumptions C24_truncated.

Theorem C24_inverse : forall ev f M, sound_ev ev -> (exists it, form_construct it = Ok f) ->
  (forall k e, In (k, e) f -> covered e) -> 8 <= M <= 16 ->
  exists F g, form_to_fform ev f M = Ok F /\ fform_to_form ev F = Ok g /\ dkeys g = dkeys f /\
    forall k e, form_get_pc f k = Ok e -> exists e', form_get_pc g k = Ok e' /\
      forall rho, respects rho -> eval rho e' = eval rho e.
Proof.
  intros ev f M EV C H L. destruct (C24_truncated ev f M EV C H) as (F & g & E1 & E2 & K & V); [lia|].
  exists F, g. split; auto. split; auto. split; auto. intros k e X. destruct (V k e X) as (e' & E' & V').
  exists e'. split; auto. intros rho Hr. rewrite (V' rho (Re (rho phi))) by auto using real_phi.
  rewrite (covered_series ev EV); auto; [|unfold form_get_pc, dgetr in X; destruct (dget k f) eqn:D; [|discriminate]; injection X as <-; eapply H, dget_In; eauto|lia].
  apply eval_ext. intros s _. unfold at_phi. destruct (sym_eqb_spec s phi) as [->|]; auto. symmetry. apply real_phi; auto.
Qed.
Print Assumptions C24_inverse.

(** The other order fails already for one frequency: the formula of a Fourier
    formula is written with cos(m*phi), which the table does not know. *)
Theorem C24_converse_refuted : exists F g, ff_reachable (fun e => e) F /\ symbolic F /\ ff_M F = 1 /\
  fform_to_form (fun e => e) F = Ok g /\ form_to_fform (fun e => e) g 1 <> Ok F.
Proof.
  exists (flat 1). eexists. split; [apply flat_reachable|]. split; [apply flat_symbolic|]. split; [reflexivity|].
  split; [reflexivity|]. vm_compute. discriminate.
Qed.
Print Assumptions C24_converse_refuted.

Example C24_case : exists it, form_construct it = Ok [("PP"%string, EAdd [EMul [A_; EPow SIN 2]; EMul [A_; COS; SIN]])].
Proof. exists (form_items [("PP"%string, EAdd [EMul [A_; EPow SIN 2]; EMul [A_; COS; SIN]])]). reflexivity. Qed.

(* ================================================================== *)
(** * C25 *)

Theorem C25_high_order_refuted : forall ev f M, (forall k e, In (k, e) f -> covered e) -> form_occurs f phi -> 16 < M ->
  form_to_fform ev f M = Raise IndexError.
Proof. exact form_to_fform_high. Qed.
Print Assumptions C25_high_order_refuted.

Theorem C25_orders_partial : forall ev f M, sound_ev ev -> (exists it, form_construct it = Ok f) ->
  ((forall k e, In (k, e) f -> covered e) /\ M <= 16) \/ ~ form_occurs f phi ->
  exists F, form_to_fform ev f M = Ok F /\ ff_M F = M.
Proof.
  intros ev f M EV [it C] [[H L]|N]; apply form_construct_inv in C.
  - destruct (form_to_fform_get ev EV f M C H L) as (F & E & _ & EM & _). eauto.
  - destruct (form_to_fform_free ev f M C N) as (F & E & _ & EM & _). eauto.
Qed.
Print Assumptions C25_orders_partial.

Example C25_case : form_occurs [("PP"%string, EAdd [EMul [A_; EPow SIN 2]; EMul [A_; COS; SIN]])] phi.
Proof. exists "PP"%string. eexists. split; [left; reflexivity|]. simpl. auto. Qed.

(* ================================================================== *)
(** * C26 *)

(** Shift, then synthesise: the formula with phi replaced by phi+a, which is also
    what apply_phase_shift of the synthesised formula gives. *)
Theorem C26_commutes : forall ev F a g0 g1 k e0, sound_ev ev -> ff_reachable ev F -> ~ ff_occurs F phi ->
  fform_to_form ev F = Ok g0 -> fform_to_form ev (ff_phase_shift ev F a) = Ok g1 -> form_get_pc g0 k = Ok e0 ->
  exists e1 e2, form_get_pc g1 k = Ok e1 /\ form_get_pc (form_phase_shift ev g0 a phi) k = Ok e2 /\
    forall rho, respects rho -> Im (eval rho a) = 0%R ->
      eval rho e1 = eval (upd rho phi (Cplus (rho phi) (eval rho a))) e0 /\ eval rho e2 = eval rho e1.
Proof.
  intros ev F a g0 g1 k e0 EV R Np E0 E1 X. assert (W := ff_reachable_wf ev F R).
  assert (W1 : ff_wf (ff_phase_shift ev F a)) by (apply map_rows_wf; auto).
  assert (X1 : exists e1, form_get_pc g1 k = Ok e1).
  { rewrite fform_to_form_ok in E0, E1 by auto. injection E0 as <-. injection E1 as <-.
    unfold form_get_pc, dgetr in *. rewrite dget_dmap in X. rewrite dget_dmap. cbn [ff_phase_shift map_rows ff_rows].
    rewrite dget_dmap. destruct (dget k (ff_rows F)); [|discriminate]. cbn. eauto. }
  destruct X1 as [e1 X1]. exists e1. eexists. split; auto. split.
  - unfold form_get_pc, dgetr, form_phase_shift, form_subs. rewrite dget_dmap.
    unfold form_get_pc, dgetr in X. destruct (dget k g0); [|discriminate]. injection X as ->. reflexivity.
  - intros rho Hr Ia.
    assert (Y : forall g e, form_get_pc g k = Ok e -> In (k, e) g).
    { intros g e Z. unfold form_get_pc, dgetr in Z. destruct (dget k g) eqn:D; [|discriminate]. injection Z as <-. apply dget_In; auto. }
    rewrite (shifted_formula ev EV F a g0 g1 k e0 e1 rho); auto. split; auto.
    unfold subs_seq. cbn [fold_left fst snd]. rewrite (proj1 EV) by auto. rewrite eval_subst.
    rewrite (proj1 EV) by auto. rewrite eval_add. cbn [map fold_right].
    replace (Cplus (eval rho (ESym phi)) (Cplus (eval rho a) (RtoC 0))) with (Cplus (rho phi) (eval rho a)) by (cbn [eval]; ring).
    reflexivity.
Qed.
Print Assumptions C26_commutes.

(** Shifts add, for complex shifts too. *)
Theorem C26_add : forall ev F a b k, sound_ev ev -> ff_reachable ev F ->
  forall c1 c2, ff_get_pc (ff_phase_shift ev (ff_phase_shift ev F a) b) k = Ok c1 ->
    ff_get_pc (ff_phase_shift ev F (ev (EAdd [a; b]))) k = Ok c2 ->
    forall rho, respects rho -> map (eval rho) c1 = map (eval rho) c2.
Proof.
  intros ev F a b k EV R c1 c2. unfold ff_get_pc, dgetr. cbn [ff_phase_shift map_rows ff_rows ff_M]. rewrite !dget_dmap.
  destruct (dget k (ff_rows F)) as [r|] eqn:D; [|discriminate]. cbn [option_map bind r_cells].
  intros X1 X2 rho Hr. injection X1 as <-. injection X2 as <-.
  rewrite combine_combine, !map_map. apply map_ext. intros [m c]. cbn [fst snd].
  rewrite !(proj1 EV) by auto. rewrite !eval_mul. cbn [map fold_right]. rewrite !eval_cis_expr, !(proj1 EV) by auto.
  rewrite eval_mul, eval_add. cbn [map fold_right]. rewrite eval_cis_expr.
  replace (Cplus (eval rho a) (Cplus (eval rho b) (RtoC 0))) with (Cplus (eval rho a) (eval rho b)) by ring.
  rewrite Cmult_plus_distr_l, Cexpi_plus. ring.
Qed.
Print Assumptions C26_add.

(** Same sign as phase_shift_fdata: shifting the formula, then evaluating, is
    evaluating, then shifting the data. *)
Theorem C26_same_sign : forall ev F a d x np fd0 fd1 rho, sound_ev ev -> ff_reachable ev F ->
  respects rho -> agrees rho d -> eval rho a = RtoC x ->
  symbolic F -> fform_to_fdat ev F d = Ok fd0 -> fform_to_fdat ev (ff_phase_shift ev F a) d = Ok fd1 ->
  fget_items fd1 = fget_items (fst (phase_shift_fdata fd0 x np "radians")).
Proof.
  intros ev F a d x np fd0 fd1 rho EV R Hr Ha Ea S E0 E1. assert (W := ff_reachable_wf ev F R).
  assert (W1 : ff_wf (ff_phase_shift ev F a)) by (apply map_rows_wf; auto).
  assert (S1 : symbolic (ff_phase_shift ev F a)) by apply map_rows_symbolic.
  assert (Val : forall G fd, ff_wf G -> symbolic G -> fform_to_fdat ev G d = Ok fd ->
    fd_data fd = dmap (fun r => map (eval rho) (r_cells r)) (ff_rows G) /\ (fd_M fd = ff_M G \/ ff_rows G = [])).
  { intros G fd WG SG EG.
    destruct (Nat.eq_dec (ff_M G) 16) as [M16|D].
    - assert (Oc : forall s, ff_occurs G s -> In s (dkeys d)).
      { intros s O. destruct (in_dec sym_eq_dec s (dkeys d)) as [|N]; auto. exfalso.
        rewrite (fform_to_fdat_missing ev G d s WG SG O N) in EG. discriminate. }
      destruct (fform_to_fdat_ok ev EV G d WG SG M16 Oc) as (sa & I & E & V).
      rewrite EG in E. injection E as ->. cbn [fd_data fd_M]. split; auto. apply dmap_ext. intros k r Ir.
      apply map_ext_in. intros e Ie. apply (V rho k r e); auto.
    - destruct (ff_rows G) as [|kr rows] eqn:Er.
      + split; auto. unfold fform_to_fdat, ff_free_symbols, all_cells, ff_items in EG. rewrite Er in EG. cbn in EG. injection EG as <-. reflexivity.
      + exfalso. destruct (fform_to_fdat_other ev G d WG) as [e X]; auto; congruence. }
  destruct (Val _ _ W S E0) as [D0 M0]. destruct (Val _ _ W1 S1 E1) as [D1 _].
  assert (P : fd_data (fst (phase_shift_fdata fd0 x np "radians")) = dmap (shift_row (fd_M fd0) x) (fd_data fd0)).
  { unfold phase_shift_fdata. cbn [lower]. change (check_angle_units (lower "radians")) with (Ok tt : res unit).
    cbv iota. change (String.eqb (lower "radians") "degrees") with false. cbv iota zeta.
    destruct (phase_add _ _ _); reflexivity. }
  unfold fget_items. rewrite P, D1, D0. cbn [ff_phase_shift map_rows ff_rows]. rewrite !dmap_dmap. apply dmap_ext.
  intros k r I. cbn [r_cells]. destruct M0 as [->|X]; [|rewrite X in I; destruct I].
  rewrite (shift_cells ev EV rho F a k r) by auto. unfold shift_row. apply map_ext. intros [m c]. cbn [fst snd].
  rewrite Ea, <- RtoC_mult, Cexpi_R. reflexivity.
Qed.
Print Assumptions C26_same_sign.

Example C26_case : ~ ff_occurs (flat 16) phi /\ respects rho2 /\ Im (eval rho2 (EMul [num 3; A_])) = 0%R.
Proof.
  split; [|split; [apply rho2_ok|]].
  - intros O. apply flat_occurs in O. discriminate.
  - simpl. unfold Q2R. simpl. ring.
Qed.

(* ================================================================== *)
(** * C27 *)

(** The assignment [rho] says that the dictionary is consistent and gives real
    values to the symbols declared real. *)
Theorem C27_sampling : forall ev F d n g d1 d2 rho, sound_ev ev -> ff_reachable ev F -> respects rho -> agrees rho d ->
  fform_to_form ev F = Ok g -> form_to_dat ev g d n = Ok d1 -> fform_to_dat ev F d n = Ok d2 -> d1 = d2.
Proof. intros ev F d n g d1 d2 rho EV. apply sampling_agree; auto. Qed.
Print Assumptions C27_sampling.

Example C27_case : exists g d1 d2, fform_to_form (fun e => e) (flat 16) = Ok g /\
  form_to_dat (fun e => e) g [(a_sym, (3, 1)%Q)] 7 = Ok d1 /\ fform_to_dat (fun e => e) (flat 16) [(a_sym, (3, 1)%Q)] 7 = Ok d2.
Proof.
  assert (W : ff_wf (flat 16)) by (eapply ff_reachable_wf, (flat_reachable (fun e => e))).
  assert (X : exists d2, fform_to_dat (fun e => e) (flat 16) [(a_sym, (3, 1)%Q)] 7 = Ok d2).
  { unfold fform_to_dat.
    destruct (fform_to_fdat_ok (fun e => e) id_sound (flat 16) [(a_sym, (3, 1)%Q)] W (flat_symbolic 16) eq_refl) as (sa & _ & E & _).
    { intros s O. apply flat_occurs in O. left; auto. }
    rewrite E. cbn [bind]. eexists. apply fdat_to_dat_spec; [|lia]. split; [apply W|]. repeat constructor. }
  destruct X as [d2 X]. eexists _, _, d2. split; [apply fform_to_form_ok; auto|]. split; auto.
  apply form_to_dat_ok; [apply wf_dmap, W|lia|vm_compute; reflexivity].
Qed.

(* ================================================================== *)
(** * C28 *)

Theorem C28_accepts_partial : forall ev f d n rho x1 x2, sound_ev ev -> (exists it, form_construct it = Ok f) -> 0 < n ->
  (forall x, form_occurs f x -> x <> phi -> In x (dkeys d)) -> ~ In phi (dkeys d) ->
  respects rho -> agrees rho d ->
  (exists k e, In (k, e) f /\ eval (at_phi rho x1) e <> eval (at_phi rho x2) e) ->
  exists dt, form_to_dat ev f d n = Ok dt /\ get_keys dt = dkeys f /\
    forall k e, form_get_pc f k = Ok e -> exists p, dget k (dc_data dt) = Some p /\
      p = map (fun j => (node n j, Re (eval (at_phi rho (node n j)) e))) (seq 0 n).
Proof.
  intros ev f d n rho x1 x2 EV [it C] P H Np Hr Ha V. apply form_construct_inv in C.
  eexists. split; [eapply form_to_dat_accepts; eauto|]. split.
  - unfold get_keys. cbn [dc_data]. unfold dkeys, dmap. rewrite map_map. reflexivity.
  - intros k e X. unfold form_get_pc, dgetr in X. cbn [dc_data]. rewrite dget_dmap. destruct (dget k f); [|discriminate].
    injection X as ->. eexists. split; [reflexivity|]. unfold sampled, grid. rewrite map_map. reflexivity.
Qed.
Print Assumptions C28_accepts_partial.

(** A formula that does not depend on phi is refused, whatever the dictionary. *)
Theorem C28_constant_refuted : forall ev, sound_ev ev -> forall f d n, (exists it, form_construct it = Ok f) ->
  ~ form_occurs f phi -> form_to_dat ev f d n = Raise ValueError.
Proof.
  intros ev EV f d n [it C] N. apply form_construct_inv in C. apply form_to_dat_constant; auto.
  intros k e I Ip. apply (subs_seq_syms ev EV) in Ip as [Ip _]. apply N. exists k, e; auto.
Qed.
Print Assumptions C28_constant_refuted.

(** Automatic evaluation that drops a product with a zero factor, as sympy's does. *)
Definition is_zero (e : expr) : bool := match e with ENum a b => Qeq_bool a 0 && Qeq_bool b 0 | _ => false end.
Definition zero_ev (e : expr) : expr := match e with EMul l => if existsb is_zero l then num 0 else e | _ => e end.
Lemma zero_ev_sound : sound_ev zero_ev.
Proof.
  split.
  - intros rho e Hr. destruct e; auto. simpl zero_ev. destruct (existsb is_zero l) eqn:E; auto.
    rewrite eval_mul. apply existsb_exists in E as (z & I & Z).
    assert (Ez : eval rho z = RtoC 0).
    { destruct z; try discriminate. simpl in Z. apply andb_true_iff in Z as [Z1 Z2].
      apply Qeq_bool_iff in Z1, Z2. apply Qeq_eqR in Z1, Z2. simpl. rewrite Z1, Z2. unfold Q2R. apply C_ext; simpl; ring. }
    assert (E0 : eval rho (num 0) = RtoC 0) by (simpl; unfold Q2R; apply C_ext; simpl; ring).
    rewrite E0. clear E0 Z. induction l as [|x l IH]; [destruct I|]. cbn [map fold_right].
    destruct I as [->|I]; [rewrite Ez; ring|]. rewrite <- IH by auto. ring.
  - intros e x. destruct e; auto. simpl zero_ev. destruct (existsb is_zero l); auto. intros [].
Qed.

(** Hence the same call succeeds or fails according to the parameter values. *)
Theorem C28_values_refuted : forall n, 0 < n ->
  let f := [("PP"%string, EMul [A_; COS])] in
  form_to_dat zero_ev f [(a_sym, (0, 0)%Q)] n = Raise ValueError /\
  exists dt, form_to_dat zero_ev f [(a_sym, (1, 0)%Q)] n = Ok dt.
Proof.
  intros n P f. split; [reflexivity|]. rewrite form_to_dat_ok; eauto.
  - repeat constructor; simpl; tauto.
Qed.
Print Assumptions C28_values_refuted.

Lemma C28_case : exists rho, respects rho /\ agrees rho [(a_sym, (1, 0)%Q)] /\
  eval (at_phi rho 0) (EMul [A_; COS]) <> eval (at_phi rho PI) (EMul [A_; COS]).
Proof.
  exists (fun _ => RtoC 1). split; [intros s _; reflexivity|]. split.
  - intros s q [X|[]]. injection X as <- <-. unfold qval, Q2R. apply C_ext; unfold Re, Im; simpl; field.
  - intros E. apply (f_equal Re) in E. rewrite !eval_mul in E. cbn [map fold_right eval A_ COS] in E.
    unfold at_phi in E. change (sym_eqb a_sym phi) with false in E. change (sym_eqb phi phi) with true in E. cbv iota in E.
    unfold Ccos in E. simpl in E. rewrite cos_0, cos_PI in E. unfold cosh, sinh in E. rewrite Ropp_0, exp_0 in E. lra.
Qed.

(* ================================================================== *)
(** * C29 *)

Theorem C29_form : forall cs mapping, cs <> [] -> (forall c, In c cs -> kind c = 2) -> maps_to_strings form_items_of cs mapping ->
  exists g, merge_containers cs mapping = Ok (CForm g) /\ NoDup (dkeys g) /\
    forall k e, form_get_pc g k = Ok e <-> last_stored form_items_of cs mapping (KStr k) e.
Proof.
  intros cs mapping N K H. destruct (merge_form cs mapping (conj N K) H) as (g & E & W & G). exists g. split; auto. split; auto.
  intros k e. rewrite <- G. unfold form_get_pc, dgetr. destruct (dget k g); split; congruence.
Qed.
Print Assumptions C29_form.

Theorem C29_fdata : forall cs mapping, cs <> [] -> (forall c, In c cs -> kind c = 1) ->
  (forall f, In (CFDat f) cs -> freachable f /\ fget_M f = 16) -> maps_to_strings fdat_items cs mapping ->
  exists g, merge_containers cs mapping = Ok (CFDat g) /\ fget_scale g = 1%R /\ fd_phase g = PNum 0 /\ fget_M g = 16 /\
    NoDup (fget_keys g) /\ forall k v, fget_pc g k = Ok v <-> last_stored fdat_items cs mapping (KStr k) v.
Proof.
  intros cs mapping N K R H. destruct (merge_fdat cs mapping (conj N K)) as (g & E & S & P & M & W & G); auto.
  { intros f I. destruct (R f I) as [Rf Mf]. split; auto. apply freachable_wf; auto. }
  exists g. repeat (split; [assumption|]).
  intros k v. rewrite <- G. unfold fget_pc, dgetr. destruct (dget k (fd_data g)); split; congruence.
Qed.
Print Assumptions C29_fdata.

Theorem C29_fform : forall ev cs mapping, cs <> [] -> (forall c, In c cs -> kind c = 3) ->
  (forall F, In (CFForm F) cs -> ff_reachable ev F /\ symbolic F /\ ff_M F = 16) -> maps_to_strings fform_items cs mapping ->
  exists G, merge_containers cs mapping = Ok (CFForm G) /\ ff_M G = 16 /\ NoDup (ff_get_keys G) /\
    forall k r, dget k (ff_rows G) = Some r <-> last_stored fform_items cs mapping (KStr k) r.
Proof.
  intros ev cs mapping N K R H. destruct (merge_fform cs mapping (conj N K)) as (G & E & M & S & W & L); auto.
  { intros F I. destruct (R F I) as [Rf [S M]]. split; auto. eapply ff_reachable_wf; eauto. }
  exists G. split; [auto|]. split; [auto|]. split; [apply W|]. exact L.
Qed.
Print Assumptions C29_fform.

Theorem C29_data : forall cs mapping, cs <> [] -> (forall c, In c cs -> kind c = 0) ->
  (forall d k p, In (CDat d) cs -> In (k, p) (dc_data d) -> normal_form p /\ distinct_angles p) ->
  maps_to_strings dat_items cs mapping ->
  exists g, merge_containers cs mapping = Ok (CDat g) /\ dc_scale g = 1%R /\ dc_phase g = 0%R /\ dc_offset g = 0%R /\
    NoDup (get_keys g) /\ forall k p, dget k (dc_data g) = Some p <-> last_stored dat_items cs mapping (KStr k) p.
Proof. intros cs mapping N K R H. exact (merge_dat cs mapping (conj N K) R H). Qed.
Print Assumptions C29_data.

(** Different supported types are refused. *)
Theorem C29_mixed_partial : forall c0 cs mapping c, kind c0 <> 4 -> (forall c', In c' cs -> kind c' <> 4) -> In c cs ->
  kind c <> kind c0 -> has_items c -> merge_containers (c0 :: cs) mapping = Raise TypeError.
Proof. exact merge_mixed. Qed.
Print Assumptions C29_mixed_partial.

Theorem C29_other_type : forall cs mapping, merge_containers (COther :: cs) mapping = Raise TypeError.
Proof. reflexivity. Qed.
Print Assumptions C29_other_type.

(** The empty list, an unsupported later container, and an empty container of
    another class do not raise TypeError. *)
Theorem C29_types_refuted : forall mapping f,
  merge_containers [] mapping = Raise IndexError /\
  merge_containers [CForm f; COther] mapping = Raise AttributeError /\
  merge_containers [CForm []; CFDat (mkfdat [] 1 (PNum 0) 16)] mapping = Ok (CForm []).
Proof. intros mapping f. repeat split. Qed.
Print Assumptions C29_types_refuted.

(** Two forms, the second replaces one key of the first. *)
Example C29_case : merge_containers [CForm [("PP"%string, A_); ("SS"%string, COS)]; CForm [("PP"%string, SIN)]] (fun k _ => KStr k) =
  Ok (CForm [("PP"%string, SIN); ("SS"%string, COS)]).
Proof. reflexivity. Qed.
Example C29_case2 : maps_to_strings form_items_of [CForm [("PP"%string, A_); ("SS"%string, COS)]; CForm [("PP"%string, SIN)]] (fun k _ => KStr k).
Proof. intros i j k v (c & k0 & _ & _ & <-). eauto. Qed.

(* ================================================================== *)
(** * C59 *)

Theorem C59_round_trip_partial : forall ev srepr parse F, inverse_printer srepr parse F -> ff_reachable ev F -> symbolic F ->
  ff_M F = 16 -> load_fform parse (save_fform srepr F) = Ok F.
Proof. intros ev srepr parse F I R S M. apply load_save; auto. eapply ff_reachable_wf; eauto. Qed.
Print Assumptions C59_round_trip_partial.

(** Every non-empty Fourier formula of another order is saved without complaint
    and cannot be loaded. *)
Theorem C59_round_trip_refuted : forall ev srepr parse F, inverse_printer srepr parse F -> ff_reachable ev F ->
  ff_rows F <> [] -> ff_M F <> 16 -> load_fform parse (save_fform srepr F) = Raise ValueError.
Proof. exact C21_load_refuted. Qed.
Print Assumptions C59_round_trip_refuted.

Example C59_case : ff_reachable (fun e => e) (flat 16) /\ symbolic (flat 16) /\ ff_M (flat 16) = 16 /\
  inverse_printer (fun _ => "Symbol('a')"%string) (fun _ => Ok A_) (flat 16).
Proof.
  split; [apply flat_reachable|]. split; [apply flat_symbolic|]. split; [reflexivity|].
  intros k r e [X|[]] Ie. injection X as <- <-. apply (repeat_spec 33 A_) in Ie. congruence.
Qed.
