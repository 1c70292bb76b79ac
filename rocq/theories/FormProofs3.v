(** Synthesis, phase shifts, sampling, merging and files. *)
From Coq Require Import String List ZArith QArith Qreals Reals Lra Lia Bool Permutation.
From Coquelicot Require Import Complex.
From Verif Require Import PyBase CBase DataModel FDataModel FDataProofs Expr ExprProofs LookupTable FormModel SpecForm FourierBase TableProofs FormProofs FormProofs2.
Import ListNotations.
Local Open Scope nat_scope.

(** Complex exponentials. *)
Lemma Cexpi_eq z : Cplus (Ccos z) (Cmult Ci (Csin z)) = Cexpi z.
Proof.
  unfold Cexpi, Ccos, Csin, cis. destruct z as [x y].
  assert (E : exp (- y) = (cosh y - sinh y)%R) by (unfold cosh, sinh; field).
  apply C_ext; unfold Re, Im; simpl; rewrite E; ring.
Qed.
Lemma Cexpi_R (x : R) : Cexpi (RtoC x) = cis x.
Proof. unfold Cexpi. simpl. rewrite Ropp_0, exp_0. ring. Qed.
Lemma Cexpi_plus z w : Cexpi (Cplus z w) = Cmult (Cexpi z) (Cexpi w).
Proof.
  destruct z as [x y], w as [x' y']. unfold Cexpi. simpl. rewrite Ropp_plus_distr, exp_plus, cis_plus, RtoC_mult. ring.
Qed.

Lemma eval_cis_expr rho m x : eval rho (cis_expr m x) = Cexpi (Cmult (RtoC (IZR m)) (eval rho x)).
Proof.
  unfold cis_expr, zexpr. rewrite <- Cexpi_eq. rewrite eval_add. cbn [map fold_right].
  rewrite !eval_mul. cbn [map fold_right]. rewrite eval_EI.
  cbn [eval]. cbn [map fold_right].
  replace (eval rho (num (inject_Z m))) with (RtoC (IZR m)).
  - replace (Cmult (RtoC (IZR m)) (Cmult (eval rho x) (RtoC 1))) with (Cmult (RtoC (IZR m)) (eval rho x)) by ring. ring.
  - rewrite eval_num. unfold Q2R, inject_Z; simpl. now rewrite Rinv_1, Rmult_1_r.
Qed.

Lemma fseries_R M cs x : fseries M cs (RtoC x) = synth M cs x.
Proof.
  unfold fseries, synth. apply Csum_ext. intros [m c]. cbn [fst snd]. rewrite <- RtoC_mult, Cexpi_R. reflexivity.
Qed.

Lemma combine_map_r {A B D} (f : B -> D) (l : list A) (l' : list B) :
  combine l (map f l') = map (fun p => (fst p, f (snd p))) (combine l l').
Proof. revert l'; induction l as [|a l IH]; intros [|b l']; simpl; auto. rewrite IH; auto. Qed.

Lemma seq_plus a n : seq a n = map (fun i => a + i) (seq 0 n).
Proof.
  revert a; induction n as [|n IH]; intros a; simpl; auto. f_equal; [lia|].
  rewrite (IH (S a)), <- seq_shift, map_map. apply map_ext. intros; lia.
Qed.
Lemma zrange_app a b c : (a <= b <= c)%Z -> zrange a c = zrange a b ++ zrange b c.
Proof.
  intros L. unfold zrange. replace (Z.to_nat (c - a)) with (Z.to_nat (b - a) + Z.to_nat (c - b)) by lia.
  rewrite seq_app, map_app. f_equal. rewrite seq_plus, map_map. apply map_ext. intros; lia.
Qed.

Section Ev.
Variable ev : expr -> expr.
Hypothesis EV : sound_ev ev.

Lemma formula_value rho M t : respects rho ->
  eval rho (formula_from_fexpr ev M t) = fseries M (map (eval rho) t) (rho phi).
Proof.
  intros Hr. unfold formula_from_fexpr, fseries. rewrite (proj1 EV) by auto.
  rewrite combine_map_r, Csum_map. cbn [fst snd]. rewrite eval_add.
  induction (combine (freqs M) t) as [|[m c] l IH]; auto. cbn [map fold_right Csum].
  rewrite IH. f_equal. cbn [snd fst]. rewrite eval_mul. cbn [map fold_right].
  rewrite eval_cis_expr. cbn [eval]. ring.
Qed.

Lemma formula_syms M t x : In x (syms (formula_from_fexpr ev M t)) -> x = phi \/ exists e, In e t /\ In x (syms e).
Proof.
  intros I. apply (proj2 EV) in I. cbn [syms] in I. apply in_flat_map in I as (y & Iy & Ix).
  apply in_map_iff in Iy as ([m c] & <- & Ic). cbn [syms flat_map fst snd] in Ix.
  apply in_app_iff in Ix as [Ix|Ix].
  - right. exists c. split; auto. eapply in_combine_r; eauto.
  - left. unfold cis_expr, zexpr, num, EI in Ix. simpl in Ix. intuition.
Qed.

(** Containers of formulas. *)
Lemma form_construct_items (f : dict string expr) : wf_dict f -> form_construct (form_items f) = Ok f.
Proof.
  intros W. unfold form_construct, form_items.
  rewrite dict_of_wf by (apply (wf_key_inj Some); auto).
  replace (forallb good_key _) with true.
  2:{ symmetry. apply forallb_forall. intros k I. unfold dkeys in I. rewrite map_map in I.
      apply in_map_iff in I as [? [<- _]]. reflexivity. }
  assert (E : dmapM (fun v : option expr => match v with Some e => Ok e | None => Raise ValueError end)
     (map (fun kv => (KStr (fst kv), Some (snd kv))) f) = Ok (map (fun kv => (KStr (fst kv), snd kv)) f)).
  { clear. induction f as [|[k e] f IH]; simpl; auto. rewrite IH. reflexivity. }
  rewrite E. cbn [bind]. f_equal. rewrite map_map. cbn [fst snd key_str]. rewrite <- (map_id f) at 2.
  apply map_ext. intros []; auto.
Qed.

Lemma form_construct_inv it f : form_construct it = Ok f -> wf_dict f.
Proof.
  unfold form_construct. destruct (forallb good_key (dkeys (dict_of it))) eqn:G; [|discriminate].
  rewrite forallb_forall in G.
  destruct (dmapM _ (dict_of it)) as [d'|] eqn:E; [|discriminate]. cbn [bind]. intros X; injection X as <-.
  unfold wf_dict, dkeys. rewrite map_map. cbn [fst]. rewrite <- (map_map fst key_str).
  assert (K : map fst d' = map fst (dict_of it)) by (apply (dmapM_keys _ _ _ E)). rewrite K.
  assert (N : NoDup (map fst (dict_of it))) by apply (wf_dict_of it).
  assert (G' : forall k, In k (map fst (dict_of it)) -> good_key k = true) by (intros; apply G; auto).
  clear - N G'. induction (map fst (dict_of it)) as [|k l IH]; simpl; [constructor|].
  inversion N as [|? ? Nk Nl]; subst. constructor.
  - intros I. apply in_map_iff in I as (k' & Ek & Ik').
    assert (G1 := G' k (or_introl eq_refl)). assert (G2 := G' k' (or_intror Ik')).
    destruct k, k'; simpl in *; try discriminate. subst. auto.
  - apply IH; auto. intros; apply G'; right; auto.
Qed.

Lemma fform_to_form_ok F : ff_wf F ->
  fform_to_form ev F = Ok (dmap (fun r => formula_from_fexpr ev (ff_M F) (r_cells r)) (ff_rows F)).
Proof.
  intros [W _]. unfold fform_to_form.
  rewrite <- (form_construct_items (dmap _ _)).
  - unfold form_items, dmap. rewrite map_map. reflexivity.
  - apply wf_dmap; auto.
Qed.

(** form_to_fform of covered formulas. *)
Lemma Forall2_map_eq {A B D} (f : A -> D) (g : B -> D) l l' :
  Forall2 (fun a b => g b = f a) l l' -> map g l' = map f l.
Proof. induction 1; simpl; congruence. Qed.

Lemma mapM_all_ok {A B} (f : A -> res B) l : (forall a, In a l -> exists b, f a = Ok b) -> exists l', mapM f l = Ok l'.
Proof.
  induction l as [|a l IH]; simpl; intros H; [eauto|]. destruct (H a) as [b E]; auto. rewrite E. simpl.
  destruct IH as [l' E']; auto. rewrite E'. simpl. eauto.
Qed.

Lemma mapM_In {A B} (f : A -> res B) l l' b : mapM f l = Ok l' -> In b l' -> exists a, In a l /\ f a = Ok b.
Proof.
  revert l'; induction l as [|a l IH]; simpl; intros l' E I.
  - injection E as <-. destruct I.
  - destruct (f a) as [b0|] eqn:Ea; [|discriminate]. simpl in E. destruct (mapM f l) as [l1|] eqn:El; [|discriminate].
    simpl in E. injection E as <-. destruct I as [<-|I]; [eauto|]. destruct (IH _ eq_refl I) as (a' & Ia & E'). eauto.
Qed.

Lemma map_mapM {A B D} (f : A -> res B) (g : B -> D) (h : A -> D) l l' : mapM f l = Ok l' ->
  (forall a b, In a l -> f a = Ok b -> g b = h a) -> map g l' = map h l.
Proof.
  revert l'; induction l as [|a l IH]; simpl; intros l' E H.
  - injection E as <-. auto.
  - destruct (f a) as [b0|] eqn:Ea; [|discriminate]. simpl in E. destruct (mapM f l) as [l1|] eqn:El; [|discriminate].
    simpl in E. injection E as <-. simpl. f_equal; auto.
Qed.

Lemma covered_row e M : covered e -> M <= 16 ->
  exists es, mapM (fourier_transform ev e) (freqs M) = Ok es /\ length es = 2 * M + 1 /\
    Forall (fun x => x <> Junk) es /\ (forall x, In x es -> ~ In phi (syms (as_expr x))) /\
    forall rho, respects rho ->
      map (eval rho) (map as_expr es) = map (fourier_coefficient (fun x => eval (at_phi rho x) e)) (freqs M).
Proof.
  intros Hc L.
  assert (R0 : respects (fun _ => RtoC 0)) by (intros s _; reflexivity).
  destruct (covered_coefs ev EV e Hc _ R0) as (g0 & _ & _ & G).
  destruct (mapM_all_ok (fourier_transform ev e) (freqs M)) as [es E].
  { intros n I. apply In_freqs in I. destruct (G n) as (r & Er & _); [lia|eauto]. }
  exists es. split; auto. split; [rewrite (mapM_length _ _ _ E), length_freqs; auto|].
  assert (J : forall x, In x es -> x <> Junk /\ ~ In phi (syms (as_expr x))).
  { intros x I. destruct (mapM_In _ _ _ _ E I) as (n & In' & En). apply In_freqs in In'.
    destruct (G n) as (r & Er & Jr & Pr & _); [lia|]. rewrite Er in En. injection En as <-. split; auto.
    destruct r; simpl; auto. }
  split; [apply Forall_forall; intros; apply J; auto|]. split; [intros; apply J; auto|].
  intros rho Hr. rewrite map_map. apply (map_mapM _ _ _ _ _ E).
  intros n r I Er. assert (Ir : r <> Junk).
  { apply In_freqs in I. destruct (G n) as (r' & Er' & Jr & _); [lia|]. congruence. }
  rewrite entry_val_as by auto. apply In_freqs in I.
  destruct (covered_transform ev EV e Hc rho n Hr) as (r' & Er' & V); [lia|]. congruence.
Qed.

Lemma form_to_fform_ok f M : wf_dict f -> (forall k e, In (k, e) f -> covered e) -> M <= 16 ->
  exists rows, dmapM (fun e => mapM (fourier_transform ev e) (freqs M)) f = Ok rows /\
    form_to_fform ev f M = Ok (mkff (dmap entry_row rows) M).
Proof.
  intros W H L.
  destruct (dmapM_all_ok (fun e => mapM (fourier_transform ev e) (freqs M)) f) as [rows E].
  { intros k e I. destruct (covered_row e M (H k e I) L) as (es & Ees & _). eauto. }
  exists rows. split; auto. unfold form_to_fform. rewrite E. cbn [bind].
  apply ff_construct_rows.
  - unfold wf_dict. rewrite (dmapM_keys _ _ _ E). auto.
  - intros k es I. apply dmapM_Ok in E.
    assert (X : exists e, In (k, e) f /\ mapM (fourier_transform ev e) (freqs M) = Ok es).
    { revert I. clear - E. induction E as [|[a v] [b r] l l' [H1 H2] F IH]; simpl; [tauto|]. simpl in H1, H2.
      intros [X|I]; [injection X as -> ->; subst a; exists v; auto|]. destruct (IH I) as (v' & I' & E'). exists v'; auto. }
    destruct X as (e & Ie & Ee). destruct (covered_row e M (H k e Ie) L) as (es' & Ees & Len & J & _).
    rewrite Ee in Ees. injection Ees as <-. auto.
Qed.

Lemma form_to_fform_get f M : wf_dict f -> (forall k e, In (k, e) f -> covered e) -> M <= 16 ->
  exists F, form_to_fform ev f M = Ok F /\ ff_wf F /\ ff_M F = M /\ dkeys (ff_rows F) = dkeys f /\
    forall k e, In (k, e) f -> exists cells, ff_get_pc F k = Ok cells /\ length cells = 2 * M + 1 /\
      (forall x, In x cells -> ~ In phi (syms x)) /\
      forall rho, respects rho ->
        map (eval rho) cells = map (fourier_coefficient (fun x => eval (at_phi rho x) e)) (freqs M).
Proof.
  intros W H L. destruct (form_to_fform_ok f M W H L) as (rows & E & EF).
  eexists. split; [exact EF|].
  assert (WR : wf_dict (dmap entry_row rows)).
  { apply wf_dmap. unfold wf_dict. rewrite (dmapM_keys _ _ _ E). auto. }
  split.
  - unfold form_to_fform in EF. rewrite E in EF. cbn [bind] in EF. apply ff_construct_inv in EF as [_ X]. exact X.
  - split; auto. cbn [ff_rows]. split; [rewrite dkeys_dmap; apply (dmapM_keys _ _ _ E)|].
    intros k e I. destruct (covered_row e M (H k e I) L) as (es & Ees & Len & J & P & V).
    exists (map as_expr es). split.
    + unfold ff_get_pc, dgetr. cbn [ff_rows]. rewrite dget_dmap.
      destruct (dget_dmapM _ _ _ _ _ E (In_dget _ _ _ W I)) as (w & Ew & Gw). rewrite Ees in Ew. injection Ew as <-.
      rewrite Gw. reflexivity.
    + split; [rewrite map_length; auto|]. split; auto.
      intros x Ix. apply in_map_iff in Ix as (y & <- & Iy). auto.
Qed.

(** Beyond the table. *)
Lemma mapM_index_error {A B} (f : A -> res B) l a : In a l -> f a = Raise IndexError ->
  (forall b, In b l -> (exists r, f b = Ok r) \/ f b = Raise IndexError) -> mapM f l = Raise IndexError.
Proof.
  induction l as [|x l IH]; simpl; [tauto|]. intros I Ea H.
  destruct (H x) as [[r E]|E]; auto; rewrite E; simpl; auto.
  destruct I as [->|I]; [congruence|]. rewrite IH; auto.
Qed.
Lemma dmapM_index_error {K V W} (f : V -> res W) (l : dict K V) k v : In (k, v) l -> f v = Raise IndexError ->
  (forall k' v', In (k', v') l -> (exists r, f v' = Ok r) \/ f v' = Raise IndexError) -> dmapM f l = Raise IndexError.
Proof.
  induction l as [|[k0 v0] l IH]; simpl; [tauto|]. intros I Ea H.
  destruct (H k0 v0) as [[r E]|E]; auto; rewrite E; simpl; auto.
  destruct I as [X|I]; [injection X as -> ->; congruence|]. rewrite IH; eauto.
Qed.

Lemma py_nth_or {A} (l : list A) i : (exists r, py_nth l i = Ok r) \/ py_nth l i = Raise IndexError.
Proof.
  unfold py_nth. cbv zeta. destruct (_ <? 0)%Z; auto. destruct (nth_error _ _); eauto.
Qed.

Lemma relevant_or n : (exists m, relevant_codes n = Ok m) \/ relevant_codes n = Raise IndexError.
Proof.
  unfold relevant_codes. induction lookup_table as [|[k l] t IH]; simpl; [eauto|].
  destruct (py_nth_or l (n + 16)%Z) as [[r E]|E]; rewrite E; simpl; auto.
  destruct IH as [[m E']|E']; rewrite E'; simpl; eauto.
Qed.

Lemma transform_or e n : covered e ->
  (exists r, fourier_transform ev e n = Ok r) \/ fourier_transform ev e n = Raise IndexError.
Proof.
  intros Hc. unfold fourier_transform.
  destruct (has_phi e) eqn:Hp; cbn [negb]; [|destruct (n =? 0)%Z; eauto].
  destruct Hc as [e0 N|l H|fs c s M L|f c s n0 b Ef T L].
  - apply has_phi_true in Hp. tauto.
  - destruct (relevant_or n) as [[m E]|E]; rewrite E; cbn [bind]; auto. left.
    assert (G : exists l', mapM (transform_summand m) l = Ok l').
    { apply mapM_all_ok. intros a I. destruct (H a I) as (fs & c & s & -> & M & L).
      unfold transform_summand. cbn [args]. rewrite (mapping_shape _ _ _ _ (shape_dep _ _ _ M)).
      destruct (table_has c s L) as [t Et]. unfold relevant_codes in E.
      destruct (dget_dmapM _ _ _ _ _ E Et) as (w & _ & Gw). unfold dgetr. rewrite Gw. cbn [bind]. eauto. }
    destruct G as [l' E']. rewrite E'. cbn [bind]. eauto.
  - rewrite keyterms_mul. unfold smul. rewrite (shape_code _ _ _ (shape_keyterm _ _ _ M)) by lia.
    destruct (table_has c s) as [t Et]; [lia|]. unfold dgetr. rewrite Et. cbn [bind].
    destruct (py_nth_or t (n + 16)%Z) as [[r E]|E]; rewrite E; cbn [bind]; auto.
    destruct (negb _); eauto.
  - subst f. change (get_keyterms (EPow b n0)) with [EPow b n0]. cbv iota beta.
    assert (Ec : get_code (EPow b n0) = (c, s)) by (inversion T; subst; reflexivity). rewrite Ec.
    destruct (table_has c s) as [t Et]; [lia|]. unfold dgetr. rewrite Et. cbn [bind].
    destruct (py_nth_or t (n + 16)%Z) as [[r E]|E]; rewrite E; cbn [bind]; auto.
    destruct (negb _); eauto.
Qed.

Lemma transform_high e n : covered e -> In phi (syms e) -> (16 < n)%Z -> fourier_transform ev e n = Raise IndexError.
Proof.
  intros Hc Ip B. unfold fourier_transform. rewrite (proj2 (has_phi_true e) Ip). cbn [negb].
  assert (Hi : forall t c s, dget (c, s) lookup_table = Some t -> py_nth t (n + 16)%Z = Raise IndexError).
  { intros t c s Et. apply py_nth_err. destruct (table_only _ _ _ Et) as [_ ->]. simpl. lia. }
  destruct Hc as [e0 N|l H|fs c s M L|f c s n0 b Ef T L].
  - tauto.
  - rewrite relevant_high by auto. reflexivity.
  - rewrite keyterms_mul. unfold smul. rewrite (shape_code _ _ _ (shape_keyterm _ _ _ M)) by lia.
    destruct (table_has c s) as [t Et]; [lia|]. unfold dgetr. rewrite Et. cbn [bind].
    rewrite (Hi _ _ _ Et). reflexivity.
  - subst f. change (get_keyterms (EPow b n0)) with [EPow b n0]. cbv iota beta.
    assert (Ec : get_code (EPow b n0) = (c, s)) by (inversion T; subst; reflexivity). rewrite Ec.
    destruct (table_has c s) as [t Et]; [lia|]. unfold dgetr. rewrite Et. cbn [bind].
    rewrite (Hi _ _ _ Et). reflexivity.
Qed.

Lemma form_to_fform_high f M : (forall k e, In (k, e) f -> covered e) -> form_occurs f phi -> 16 < M ->
  form_to_fform ev f M = Raise IndexError.
Proof.
  intros H (k & e & I & Ip) L. unfold form_to_fform.
  rewrite (dmapM_index_error _ f k e); auto.
  - apply (mapM_index_error _ _ 17%Z).
    + apply In_freqs. lia.
    + apply transform_high; auto. eapply H; eauto. lia.
    + intros n _. apply transform_or. eapply H; eauto.
  - intros k' e' I'.
    assert (G : forall l, (exists r, mapM (fourier_transform ev e') l = Ok r) \/ mapM (fourier_transform ev e') l = Raise IndexError).
    { induction l as [|n l IH]; simpl; [eauto|].
      destruct (transform_or e' n (H _ _ I')) as [[r E]|E]; rewrite E; simpl; auto.
      destruct IH as [[r' E']|E']; rewrite E'; simpl; eauto. }
    apply G.
Qed.

(** Formulas without phi work for every M. *)
Lemma free_row e M : ~ In phi (syms e) ->
  mapM (fourier_transform ev e) (freqs M) = Ok (map (fun n => if (n =? 0)%Z then SymE e else PyNum 0 0) (freqs M)).
Proof.
  intros N. rewrite <- mapM_pure. apply mapM_ext_in. intros n _. unfold fourier_transform.
  rewrite (proj2 (has_phi_false e) N). cbn [negb]. destruct (n =? 0)%Z; auto.
Qed.

Lemma form_to_fform_free f M : wf_dict f -> ~ form_occurs f phi ->
  exists F, form_to_fform ev f M = Ok F /\ symbolic F /\ ff_M F = M /\
    forall k e, In (k, e) f -> ff_get_pc F k = Ok (map (fun n => if (n =? 0)%Z then e else num 0) (freqs M)).
Proof.
  intros W N. unfold form_to_fform.
  set (row := fun e => map (fun n => if (n =? 0)%Z then SymE e else PyNum 0 0) (freqs M)).
  rewrite (dmapM_ext_in _ (fun e => Ok (row e))).
  2:{ intros k e I. apply free_row. intros Ip. apply N. exists k, e. auto. }
  rewrite dmapM_pure. cbn [bind]. rewrite ff_construct_rows.
  - eexists. split; [reflexivity|]. split; [|split].
    + intros k r I. cbn [ff_rows] in I. apply in_map_iff in I as ([k0 es] & X & I). injection X as <- <-.
      apply in_map_iff in I as ([k1 e] & X & I). injection X as <- <-. cbn [entry_row r_obj].
      apply negb_true_iff. apply not_true_is_false. rewrite forallb_forall. intros A.
      specialize (A (SymE e)). simpl in A. discriminate A. apply in_map_iff. exists 0%Z. split; auto. apply In_freqs. lia.
    + reflexivity.
    + intros k e I. unfold ff_get_pc, dgetr. cbn [ff_rows]. rewrite !dget_dmap, (In_dget _ _ _ W I). cbn.
      f_equal. unfold row. rewrite map_map. apply map_ext. intros n. destruct (n =? 0)%Z; reflexivity.
  - apply wf_dmap; auto.
  - intros k es I. apply in_map_iff in I as ([k0 e] & X & I). injection X as <- <-. unfold row. cbn [snd].
    rewrite map_length, length_freqs. split; auto. apply Forall_forall. intros x Ix. apply in_map_iff in Ix as (n & <- & _).
    destruct (n =? 0)%Z; discriminate.
Qed.

(** Synthesis of the coefficients of a covered formula. *)
Lemma series_coefs rho e M : covered e -> respects rho -> forall x,
  Csum (fun m => Cmult (fourier_coefficient (fun y => eval (at_phi rho y) e) m) (cis (IZR m * x))) (freqs M) =
  fseries M (map (fourier_coefficient (fun y => eval (at_phi rho y) e)) (freqs M)) (RtoC x).
Proof.
  intros _ _ x. unfold fseries. rewrite combine_map_r, Csum_map. cbn [fst snd].
  assert (E : combine (freqs M) (freqs M) = map (fun m => (m, m)) (freqs M)).
  { induction (freqs M); simpl; congruence. }
  rewrite E, Csum_map. cbn [fst snd]. apply Csum_ext. intros m. now rewrite <- RtoC_mult, Cexpi_R.
Qed.

Lemma covered_series rho e M : covered e -> respects rho -> 8 <= M -> forall x,
  Csum (fun m => Cmult (fourier_coefficient (fun y => eval (at_phi rho y) e) m) (cis (IZR m * x))) (freqs M) =
  eval (at_phi rho x) e.
Proof.
  intros Hc Hr L x. destruct (covered_coefs ev EV e Hc rho Hr) as (g & G1 & G2 & _).
  rewrite G1.
  assert (Eg : forall m, fourier_coefficient (fun y => eval (at_phi rho y) e) m = g m).
  { intros m. rewrite (fourier_coefficient_ext _ _ m G1), coefficient_trig by apply NoDup_zrange.
    destruct (in_dec Z.eq_dec m (freqs 16)) as [I|NI]; auto. symmetry. apply G2.
    destruct (Z_lt_le_dec 8 (Z.abs m)); auto. exfalso. apply NI, In_freqs. simpl. lia. }
  rewrite (Csum_ext _ (fun m => Cmult (g m) (cis (IZR m * x)))) by (intros; now rewrite Eg).
  assert (R : forall N, 8 <= N -> Csum (fun m => Cmult (g m) (cis (IZR m * x))) (freqs N) =
                        Csum (fun m => Cmult (g m) (cis (IZR m * x))) (freqs 8)).
  { intros N LN.
    assert (Z : freqs N = zrange (- Z.of_nat N) (-8) ++ freqs 8 ++ zrange 9 (Z.of_nat N + 1)).
    { unfold freqs. rewrite (zrange_app _ (-8)), (zrange_app (-8) 9) by lia. reflexivity. }
    rewrite Z, !Csum_app.
    rewrite (Csum_0_in _ (zrange _ (-8))), (Csum_0_in _ (zrange 9 _)).
    - ring.
    - intros m I. apply In_zrange in I. rewrite G2 by lia. ring.
    - intros m I. apply In_zrange in I. rewrite G2 by lia. ring. }
  rewrite (R M L), (R 16) by lia. reflexivity.
Qed.
End Ev.
