(** The lookup-table transform of a covered formula. *)
From Coq Require Import String List ZArith QArith Qreals Reals Lra Lia Bool.
From Coquelicot Require Import Complex.
From Verif Require Import PyBase CBase DataModel FDataModel Expr ExprProofs LookupTable FormModel SpecForm FourierBase TableProofs.
Import ListNotations.
Local Open Scope nat_scope.

Lemma has_phi_true e : has_phi e = true <-> In phi (syms e).
Proof.
  unfold has_phi. rewrite existsb_exists. split.
  - intros (s & I & E). destruct (sym_eqb_spec phi s); [subst; auto|discriminate].
  - intros I. exists phi. split; auto.
Qed.
Lemma has_phi_false e : has_phi e = false <-> ~ In phi (syms e).
Proof. rewrite <- has_phi_true. destruct (has_phi e); split; congruence. Qed.

(** Products of powers of cos(phi) and sin(phi) after merging equal bases. *)
Inductive shape : list (expr * nat) -> nat -> nat -> Prop :=
| sh_nil : shape [] 0 0
| sh_c c : shape [(cos_phi, c)] c 0
| sh_s s : shape [(sin_phi, s)] 0 s
| sh_cs c s : shape [(cos_phi, c); (sin_phi, s)] c s
| sh_sc c s : shape [(sin_phi, s); (cos_phi, c)] c s.

Lemma shape_cos d c s n : shape d c s -> shape (add_power cos_phi n d) (c + n) s.
Proof. intros H; destruct H; simpl; constructor. Qed.
Lemma shape_sin d c s n : shape d c s -> shape (add_power sin_phi n d) c (s + n).
Proof. intros H; destruct H; simpl; constructor. Qed.

Lemma shape_step d c s f c' s' : shape d c s -> trig_factor f c' s' ->
  shape (add_power (fst (base_exp f)) (snd (base_exp f)) d) (c + c') (s + s').
Proof.
  intros H T; destruct T; simpl; rewrite ?Nat.add_0_r; try apply shape_cos; try apply shape_sin; auto.
Qed.

Lemma trig_has_phi f c s : trig_factor f c s -> has_phi f = true.
Proof. intros T; destruct T; reflexivity. Qed.

Lemma shape_fold fs c s : monomial fs c s -> forall d c0 s0, shape d c0 s0 ->
  shape (fold_left (fun d e => add_power (fst (base_exp e)) (snd (base_exp e)) d) (filter has_phi fs) d) (c0 + c) (s0 + s).
Proof.
  induction 1 as [|f fs c s N M IH|f fs c s c' s' T M IH]; intros d c0 s0 H.
  - simpl. rewrite !Nat.add_0_r; auto.
  - simpl. rewrite (proj2 (has_phi_false f) N). auto.
  - simpl. rewrite (trig_has_phi _ _ _ T). simpl.
    replace (c0 + (c' + c)) with (c0 + c' + c) by lia. replace (s0 + (s' + s)) with (s0 + s' + s) by lia.
    apply IH. apply shape_step; auto.
Qed.

Lemma shape_dep fs c s : monomial fs c s -> shape (powers (filter has_phi fs)) c s.
Proof. intros M. apply (shape_fold _ _ _ M [] 0 0). constructor. Qed.

Lemma shape_repeat_cos n : forall d c s, shape d c s ->
  shape (fold_left (fun d e => add_power (fst (base_exp e)) (snd (base_exp e)) d) (repeat cos_phi n) d) (c + n) s.
Proof.
  induction n as [|n IH]; intros d c s H; simpl.
  - rewrite Nat.add_0_r; auto.
  - replace (c + S n) with (c + 1 + n) by lia. apply IH. apply (shape_cos d c s 1); auto.
Qed.
Lemma shape_repeat_sin n : forall d c s, shape d c s ->
  shape (fold_left (fun d e => add_power (fst (base_exp e)) (snd (base_exp e)) d) (repeat sin_phi n) d) c (s + n).
Proof.
  induction n as [|n IH]; intros d c s H; simpl.
  - rewrite Nat.add_0_r; auto.
  - replace (s + S n) with (s + 1 + n) by lia. apply IH. apply (shape_sin d c s 1); auto.
Qed.

Lemma shape_keyterm_fold fs c s : monomial fs c s -> forall d c0 s0, shape d c0 s0 ->
  shape (fold_left (fun d e => add_power (fst (base_exp e)) (snd (base_exp e)) d)
    (flat_map (fun a => if has_phi a then match a with EPow b n => repeat b n | _ => [a] end else []) fs) d)
    (c0 + c) (s0 + s).
Proof.
  induction 1 as [|f fs c s N M IH|f fs c s c' s' T M IH]; intros d c0 s0 H.
  - simpl. rewrite !Nat.add_0_r; auto.
  - simpl. rewrite (proj2 (has_phi_false f) N). auto.
  - cbn [flat_map]. rewrite (trig_has_phi _ _ _ T), fold_left_app.
    replace (c0 + (c' + c)) with (c0 + c' + c) by lia. replace (s0 + (s' + s)) with (s0 + s' + s) by lia.
    apply IH. destruct T.
    + rewrite Nat.add_0_r. apply (shape_cos _ _ _ 1); auto.
    + rewrite Nat.add_0_r. apply (shape_sin _ _ _ 1); auto.
    + rewrite Nat.add_0_r. apply shape_repeat_cos; auto.
    + rewrite Nat.add_0_r. apply shape_repeat_sin; auto.
Qed.

Lemma shape_keyterm fs c s : monomial fs c s -> shape (powers (keyterm_factors (EMul fs))) c s.
Proof. intros M. apply (shape_keyterm_fold _ _ _ M [] 0 0). constructor. Qed.

(** A product of degree (c, s) equals the table's monomial exactly when the
    degrees are the same. *)
Lemma shape_key d c s c' s' : shape d c s -> mul_eqb (from_powers d) (monomial_key (c', s')) = code_eqb (c, s) (c', s').
Proof.
  intros H; destruct H as [|c|s|c s|c s]; destruct c' as [|[|c']], s' as [|[|s']];
    try destruct c as [|[|c]]; try destruct s as [|[|s]]; try reflexivity;
    unfold monomial_key, smul, powers, from_powers, code_eqb; cbn;
    rewrite ?andb_false_r, ?andb_true_r, ?orb_false_r, ?orb_true_r; try reflexivity;
    repeat match goal with |- context [Nat.eqb ?a ?b] => destruct (Nat.eqb a b) end; reflexivity.
Qed.

Lemma shape_code d c s : shape d c s -> 2 <= c + s -> get_code (from_powers d) = (c, s).
Proof.
  intros H L; destruct H as [|c|s|c s|c s]; try destruct c as [|[|c]]; try destruct s as [|[|s]];
    try (exfalso; lia); try reflexivity;
    unfold from_powers; cbn; try reflexivity; rewrite ?Nat.add_1_r; try reflexivity.
Qed.

Lemma shape_code_1 d c s : shape d c s -> c + s = 1 -> get_code (from_powers d) = (0, 0).
Proof.
  intros H L; destruct H as [|c|s|c s|c s]; try destruct c as [|[|c]]; try destruct s as [|[|s]];
    try (exfalso; lia); reflexivity.
Qed.

(** Lookup in the mapping. *)
Lemma mapping_shape d c s m : shape d c s -> mapping_get (from_powers d) m = dgetr (c, s) m.
Proof.
  intros H. unfold dgetr. induction m as [|[[c' s'] v] m IH]; auto.
  cbn [mapping_get]. rewrite (shape_key _ _ _ c' s' H), IH. cbn [dget]. unfold eqb, Eqb_code.
  destruct (code_eqb (c, s) (c', s')); auto.
Qed.

Lemma dget_dmapM {K V W} `{Eqb K} (f : V -> res W) (d : dict K V) d' k v :
  dmapM f d = Ok d' -> dget k d = Some v -> exists w, f v = Ok w /\ dget k d' = Some w.
Proof.
  revert d'; induction d as [|[k0 v0] d IH]; simpl; [discriminate|]. intros d'.
  destruct (f v0) as [w0|] eqn:E0; [|discriminate]. simpl.
  destruct (dmapM f d) as [d1|]; [|discriminate]. simpl. intros X; injection X as <-.
  simpl. destruct (eqb k k0); [|apply IH; auto]. intros X; injection X as <-. eauto.
Qed.

Lemma dget_dmapM_None {K V W} `{Eqb K} (f : V -> res W) (d : dict K V) d' k :
  dmapM f d = Ok d' -> dget k d = None -> dget k d' = None.
Proof.
  intros E. rewrite !dget_None. rewrite (dmapM_keys _ _ _ E). auto.
Qed.

Lemma dmapM_all_ok {K V W} (f : V -> res W) (d : dict K V) :
  (forall k v, In (k, v) d -> exists w, f v = Ok w) -> exists d', dmapM f d = Ok d'.
Proof.
  induction d as [|[k v] d IH]; simpl; intros H; [eauto|].
  destruct (H k v) as [w E]; auto. rewrite E. simpl. destruct IH as [d' E']; eauto. rewrite E'. simpl. eauto.
Qed.

Lemma table_rows_len k l : In (k, l) lookup_table -> length l = 33.
Proof.
  intros I. generalize table_rows_ok. rewrite forallb_forall. intros H. specialize (H _ I).
  destruct k as [c s]. unfold row_ok in H. apply andb_true_iff in H as [H _]. apply Nat.eqb_eq in H. auto.
Qed.

Lemma row_nth l n : length l = 33 -> (-16 <= n <= 16)%Z ->
  py_nth l (n + 16)%Z = Ok (nth (Z.to_nat (n + 16)) l (0, 0)%Q).
Proof.
  intros L B. rewrite py_nth_nonneg by lia.
  rewrite (nth_error_nth' l (0, 0)%Q) by lia. reflexivity.
Qed.

Lemma relevant_ok n : (-16 <= n <= 16)%Z -> exists m, relevant_codes n = Ok m /\
  (forall c s, c + s <= 8 -> exists l, dget (c, s) lookup_table = Some l /\
     dget (c, s) m = Some (nth (Z.to_nat (n + 16)) l (0, 0)%Q)) /\
  (forall c s, 8 < c + s -> dget (c, s) m = None).
Proof.
  intros B. unfold relevant_codes.
  destruct (dmapM_all_ok (fun row => py_nth row (n + 16)%Z) lookup_table) as [m E].
  { intros k l I. eexists. apply row_nth; auto. eapply table_rows_len; eauto. }
  exists m. split; auto. split.
  - intros c s L. destruct (table_has c s L) as [l El]. exists l. split; auto.
    destruct (dget_dmapM _ _ _ _ _ E El) as (w & Ew & Em). rewrite row_nth in Ew; auto.
    + congruence.
    + apply dget_In in El. eapply table_rows_len; eauto.
  - intros c s L. apply (dget_dmapM_None _ _ _ _ E).
    destruct (dget (c, s) lookup_table) as [l|] eqn:El; auto.
    apply table_only in El. lia.
Qed.

(** Values. *)
Lemma Ccos_R (x : R) : Ccos (RtoC x) = RtoC (cos x).
Proof. unfold Ccos; simpl. rewrite cosh_0, sinh_0. apply C_ext; unfold Re, Im; simpl; ring. Qed.
Lemma Csin_R (x : R) : Csin (RtoC x) = RtoC (sin x).
Proof. unfold Csin; simpl. rewrite cosh_0, sinh_0. apply C_ext; unfold Re, Im; simpl; ring. Qed.

Lemma at_phi_free rho x e : ~ In phi (syms e) -> eval (at_phi rho x) e = eval rho e.
Proof.
  intros N. apply eval_ext. intros s I. unfold at_phi. destruct (sym_eqb_spec s phi); auto. congruence.
Qed.

Lemma eval_phi rho x : eval (at_phi rho x) (ESym phi) = RtoC x.
Proof. reflexivity. Qed.

Lemma eval_trig rho x f c s : trig_factor f c s ->
  eval (at_phi rho x) f = Cmult (Cpow (RtoC (cos x)) c) (Cpow (RtoC (sin x)) s).
Proof.
  intros T; destruct T; cbn [eval]; change (at_phi rho x phi) with (RtoC x);
    rewrite ?Ccos_R, ?Csin_R; cbn [Cpow]; ring.
Qed.

Definition indep (fs : list expr) : list expr := filter (fun a => negb (has_phi a)) fs.

Lemma eval_monomial rho x fs c s : monomial fs c s ->
  eval (at_phi rho x) (EMul fs) =
  Cmult (eval rho (EMul (indep fs))) (Cmult (Cpow (RtoC (cos x)) c) (Cpow (RtoC (sin x)) s)).
Proof.
  induction 1 as [|f fs c s N M IH|f fs c s c' s' T M IH].
  - simpl. ring.
  - unfold indep in *. cbn [filter]. rewrite (proj2 (has_phi_false f) N). cbn [negb].
    rewrite !eval_mul in *. cbn [map fold_right]. rewrite IH, at_phi_free by auto. ring.
  - unfold indep in *. cbn [filter]. rewrite (trig_has_phi _ _ _ T). cbn [negb].
    rewrite !eval_mul in *. cbn [map fold_right]. rewrite IH, (eval_trig _ _ _ _ _ T), !Cpow_plus. ring.
Qed.

Lemma indep_free fs a : In a (indep fs) -> ~ In phi (syms a).
Proof. unfold indep. rewrite filter_In. intros [_ E]. apply has_phi_false. destruct (has_phi a); auto. Qed.

Lemma eval_mul_app rho l l' : eval rho (EMul (l ++ l')) = Cmult (eval rho (EMul l)) (eval rho (EMul l')).
Proof.
  rewrite !eval_mul, map_app. induction (map (eval rho) l); simpl; [ring|]. rewrite IHl0. ring.
Qed.

Definition entry_val (rho : sym -> C) (r : entry) : C :=
  match r with PyNum a b => (Q2R a, Q2R b) | SymE e => eval rho e | Junk => RtoC 0 end.

(** Component m of cos^c sin^s according to the table. *)
Definition tcoef (c s : nat) (m : Z) : C :=
  match dget (c, s) lookup_table with
  | Some l => if ((-16 <=? m) && (m <=? 16))%Z then qc (nth (Z.to_nat (m + 16)) l (0, 0)%Q) else RtoC 0
  | None => RtoC 0
  end.

Definition zero_outside (e : (nat * nat) * list (Q * Q)) : bool :=
  let d := (fst (fst e) + snd (fst e))%nat in
  forallb (fun i => ((16 - d <=? i) && (i <=? 16 + d))%nat ||
                    (let q := nth i (snd e) (0, 0)%Q in Qeq_bool (fst q) 0 && Qeq_bool (snd q) 0)) (seq 0 33).
Lemma table_zero_outside : forallb zero_outside lookup_table = true.
Proof. vm_compute. reflexivity. Qed.

Lemma tcoef_zero c s m : (Z.of_nat (c + s) < Z.abs m)%Z -> tcoef c s m = RtoC 0.
Proof.
  intros B. unfold tcoef. destruct (dget (c, s) lookup_table) as [l|] eqn:E; auto.
  destruct (table_only _ _ _ E) as [L8 L33].
  destruct ((-16 <=? m) && (m <=? 16))%Z eqn:R; auto.
  apply andb_true_iff in R as [R1 R2]. apply Z.leb_le in R1, R2.
  generalize table_zero_outside. rewrite forallb_forall. intros H. specialize (H _ (dget_In _ _ _ E)).
  unfold zero_outside in H. rewrite forallb_forall in H. cbn [fst snd] in H.
  assert (I : In (Z.to_nat (m + 16)) (seq 0 33)) by (apply in_seq; lia).
  specialize (H _ I). apply orb_true_iff in H as [H|H].
  - apply andb_true_iff in H as [H1 H2]. apply Nat.leb_le in H1, H2. lia.
  - apply andb_true_iff in H as [H1 H2]. apply Qeq_bool_iff in H1, H2. apply Qeq_eqR in H1, H2.
    unfold qc. rewrite H1, H2, Q2R_0'. reflexivity.
Qed.

Lemma mono_series c s x : c + s <= 8 ->
  Cmult (Cpow (RtoC (cos x)) c) (Cpow (RtoC (sin x)) s) =
  Csum (fun m => Cmult (tcoef c s m) (cis (IZR m * x))) (freqs 16).
Proof.
  intros L. destruct (table_has c s L) as [l E]. destruct (table_only _ _ _ E) as [_ L33].
  rewrite <- (table_sem _ _ _ x E), sem_Csum, L33. unfold freqs.
  change (- Z.of_nat 16)%Z with (-16)%Z. change (Z.of_nat 16 + 1)%Z with (-16 + Z.of_nat 33)%Z.
  apply Csum_ext_in. intros m I. apply In_zrange in I. unfold tcoef. rewrite E.
  replace ((-16 <=? m) && (m <=? 16))%Z with true.
  - replace (m - -16)%Z with (m + 16)%Z by lia. reflexivity.
  - symmetry. apply andb_true_iff. split; apply Z.leb_le; lia.
Qed.

Lemma tcoef_get c s l m : dget (c, s) lookup_table = Some l -> (-16 <= m <= 16)%Z ->
  tcoef c s m = qc (nth (Z.to_nat (m + 16)) l (0, 0)%Q).
Proof.
  intros E B. unfold tcoef. rewrite E. replace ((-16 <=? m) && (m <=? 16))%Z with true; auto.
  symmetry. apply andb_true_iff. split; apply Z.leb_le; lia.
Qed.

Lemma tcoef_00 m : tcoef 0 0 m = if (m =? 0)%Z then RtoC 1 else RtoC 0.
Proof.
  destruct (Z.eqb_spec m 0) as [->|N].
  - unfold tcoef. cbn. unfold qc; simpl. rewrite Q2R_0'. unfold Q2R; simpl. rewrite Rinv_1, Rmult_1_r. reflexivity.
  - apply tcoef_zero. simpl. lia.
Qed.

Section Transform.
Variable ev : expr -> expr.
Hypothesis EV : sound_ev ev.

Lemma summand_value n m0 fs c s : (-16 <= n <= 16)%Z -> relevant_codes n = Ok m0 -> monomial fs c s -> c + s <= 8 ->
  exists r, transform_summand m0 (EMul fs) = Ok r /\ (~ In phi (syms r)) /\
    forall rho, eval rho r = Cmult (eval rho (EMul (indep fs))) (tcoef c s n).
Proof.
  intros B R M L. destruct (relevant_ok n B) as (m & Rm & H & _). rewrite R in Rm. injection Rm as <-.
  destruct (H c s L) as (l & El & Em). unfold transform_summand. cbn [args].
  rewrite (mapping_shape _ _ _ _ (shape_dep _ _ _ M)). unfold dgetr. rewrite Em. cbn [bind].
  eexists. split; [reflexivity|]. split.
  - cbn [syms]. rewrite flat_map_app. intros I. apply in_app_iff in I as [I|I].
    + apply in_flat_map in I as (a & Ia & Is). eapply indep_free; eauto.
    + simpl in I. tauto.
  - intros rho. fold (indep fs). rewrite eval_mul_app. f_equal. rewrite (tcoef_get _ _ _ _ El B).
    cbn. unfold qc. ring.
Qed.

Lemma summand_too_high n m0 fs c s : (-16 <= n <= 16)%Z -> relevant_codes n = Ok m0 -> monomial fs c s -> 8 < c + s ->
  transform_summand m0 (EMul fs) = Raise KeyError.
Proof.
  intros B R M L. destruct (relevant_ok n B) as (m & Rm & _ & H). rewrite R in Rm. injection Rm as <-.
  unfold transform_summand. cbn [args].
  rewrite (mapping_shape _ _ _ _ (shape_dep _ _ _ M)). unfold dgetr. rewrite (H c s L). reflexivity.
Qed.

(** Coefficients of a sum of monomials. *)
Lemma sum_value n m0 l : (-16 <= n <= 16)%Z -> relevant_codes n = Ok m0 ->
  (forall a, In a l -> exists fs c s, a = EMul fs /\ monomial fs c s /\ c + s <= 8) ->
  exists rs, mapM (transform_summand m0) l = Ok rs /\ ~ In phi (flat_map syms rs) /\
  (forall rho, Forall2 (fun a r => exists fs c s, a = EMul fs /\ monomial fs c s /\ c + s <= 8 /\
     eval rho r = Cmult (eval rho (EMul (indep fs))) (tcoef c s n)) l rs).
Proof.
  intros B R. induction l as [|a l IH]; intros H.
  - exists (@nil expr). split; [reflexivity|]. split; [simpl; tauto|constructor].
  - destruct (H a) as (fs & c & s & -> & M & L); [left; auto|].
    destruct (summand_value n m0 fs c s B R M L) as (r & E & Nr & V).
    destruct IH as (rs & Es & Nrs & Vs); [intros; apply H; right; auto|].
    exists (r :: rs). cbn [mapM]. rewrite E, Es. split; [reflexivity|]. split.
    + simpl. rewrite in_app_iff. tauto.
    + intros rho. constructor; auto. exists fs, c, s. auto.
Qed.

(** The n-th coefficient (as a function of n) of a covered formula. *)
Definition mono_coef (rho : sym -> C) (fs : list expr) (c s : nat) (n : Z) : C :=
  Cmult (eval rho (EMul (indep fs))) (tcoef c s n).

Lemma mono_coef_series rho fs c s x : monomial fs c s -> c + s <= 8 ->
  eval (at_phi rho x) (EMul fs) = Csum (fun m => Cmult (mono_coef rho fs c s m) (cis (IZR m * x))) (freqs 16).
Proof.
  intros M L. rewrite (eval_monomial _ _ _ _ _ M), mono_series by auto. rewrite <- Csum_mult_l.
  apply Csum_ext. intros m. unfold mono_coef. ring.
Qed.

Lemma sum_coefs rho l :
  (forall a, In a l -> exists fs c s, a = EMul fs /\ monomial fs c s /\ c + s <= 8) ->
  exists g : Z -> C,
    (forall x, eval (at_phi rho x) (EAdd l) = Csum (fun m => Cmult (g m) (cis (IZR m * x))) (freqs 16)) /\
    (forall m, (8 < Z.abs m)%Z -> g m = RtoC 0) /\
    (forall n m0 rs, (-16 <= n <= 16)%Z -> relevant_codes n = Ok m0 -> mapM (transform_summand m0) l = Ok rs ->
       eval rho (EAdd rs) = g n).
Proof.
  induction l as [|a l IH]; intros H.
  - exists (fun _ => RtoC 0). split; [|split]; auto.
    + intros x. cbn [eval map fold_right]. symmetry. apply Csum_0_in. intros; ring.
    + intros n m0 rs _ _ E. simpl in E. injection E as <-. reflexivity.
  - destruct (H a) as (fs & c & s & -> & M & L); [left; auto|].
    destruct IH as (g & G1 & G2 & G3); [intros; apply H; right; auto|].
    exists (fun m => Cplus (mono_coef rho fs c s m) (g m)). split; [|split].
    + intros x. rewrite eval_add in *. cbn [map fold_right]. rewrite <- eval_add, G1.
      rewrite (mono_coef_series _ _ _ _ _ M L), <- Csum_plus. apply Csum_ext. intros; ring.
    + intros m Bm. rewrite G2 by auto. unfold mono_coef. rewrite tcoef_zero by lia. ring.
    + intros n m0 rs B R E. cbn [mapM] in E.
      destruct (summand_value n m0 fs c s B R M L) as (r & Er & _ & V). rewrite Er in E. cbn [bind] in E.
      destruct (mapM (transform_summand m0) l) as [rs'|] eqn:E'; [|discriminate]. cbn [bind] in E. injection E as <-.
      rewrite eval_add. cbn [map fold_right]. rewrite <- eval_add, (G3 _ _ _ B R E'), V. reflexivity.
Qed.

(** A single product or power. *)
Lemma keyterms_mul fs : get_keyterms (EMul fs) = [smul (keyterm_factors (EMul fs))].
Proof. reflexivity. Qed.

Lemma ft_single e d c s n indeps : has_phi e = true -> (forall l, e <> EAdd l) ->
  (exists k, get_keyterms e = [k] /\ get_code k = d) -> d = (c, s) -> c + s <= 8 -> (-16 <= n <= 16)%Z ->
  indeps = match e with EMul l => filter (fun a => negb (has_phi a)) l | _ => [] end ->
  (forall a, In a indeps -> ~ In phi (syms a)) ->
  exists r, fourier_transform ev e n = Ok r /\ r <> Junk /\
   (forall s', match r with SymE x => In s' (syms x) -> s' <> phi | _ => True end) /\
   forall rho, respects rho -> entry_val rho r = Cmult (eval rho (EMul indeps)) (tcoef c s n).
Proof.
  intros Hp NA (k & Ek & Ec) -> L B Ei Hi.
  destruct (table_has c s L) as [l El].
  assert (Len : length l = 33) by (apply (table_only _ _ _ El)).
  assert (G : fourier_transform ev e n = 
     (let ft := nth (Z.to_nat (n + 16)) l (0, 0)%Q in
      if negb (Qeq_bool (fst ft) 0 && Qeq_bool (snd ft) 0) then
        Ok (SymE (ev (EMul (indeps ++ [ENum (fst ft) (snd ft)]))))
      else Ok (PyNum 0 0))).
  { unfold fourier_transform. rewrite Hp. cbn [negb]. rewrite Ei.
    destruct e; try (exfalso; eapply NA; reflexivity);
      rewrite Ek, Ec; unfold dgetr; rewrite El; cbn [bind]; rewrite row_nth by auto; reflexivity. }
  rewrite G. clear G. cbv zeta. rewrite (tcoef_get _ _ _ _ El B).
  destruct (nth (Z.to_nat (n + 16)) l (0, 0)%Q) as [a b]. cbn [fst snd].
  destruct (negb (Qeq_bool a 0 && Qeq_bool b 0)) eqn:Z0.
  - eexists. split; [reflexivity|]. split; [discriminate|]. split.
    + intros s' I. apply (proj2 EV) in I. cbn [syms] in I. rewrite flat_map_app in I.
      apply in_app_iff in I as [I|I]; [|simpl in I; tauto].
      apply in_flat_map in I as (y & Iy & Is). intros ->. eapply Hi; eauto.
    + intros rho Hr. cbn [entry_val]. rewrite (proj1 EV) by auto. rewrite eval_mul_app. f_equal.
      cbn. unfold qc. cbn [fst snd]. ring.
  - eexists. split; [reflexivity|]. split; [discriminate|]. split; [auto|].
    intros rho Hr. cbn [entry_val]. apply negb_false_iff, andb_true_iff in Z0 as [Z1 Z2].
    apply Qeq_bool_iff in Z1, Z2. apply Qeq_eqR in Z1, Z2. unfold qc. cbn [fst snd]. rewrite Z1, Z2, Q2R_0'.
    change ((0, 0)%R : C) with (RtoC 0). ring.
Qed.

Lemma covered_coefs e : covered e -> forall rho, respects rho ->
  exists g : Z -> C,
    (forall x, eval (at_phi rho x) e = Csum (fun m => Cmult (g m) (cis (IZR m * x))) (freqs 16)) /\
    (forall m, (8 < Z.abs m)%Z -> g m = RtoC 0) /\
    (forall n, (-16 <= n <= 16)%Z -> exists r, fourier_transform ev e n = Ok r /\ r <> Junk /\
       (match r with SymE x => ~ In phi (syms x) | _ => True end) /\ entry_val rho r = g n).
Proof.
  assert (Zero : forall v x, Csum (fun m => Cmult (if (m =? 0)%Z then v else RtoC 0) (cis (IZR m * x))) (freqs 16) = v).
  { intros v x. rewrite (Csum_single_Z _ 0%Z).
    - simpl. rewrite Rmult_0_l, cis_0. ring.
    - apply NoDup_zrange.
    - apply In_freqs. simpl. lia.
    - intros b _ Nb. apply Z.eqb_neq in Nb. rewrite Nb. ring. }
  assert (Free : forall e, ~ In phi (syms e) -> forall rho, respects rho ->
    exists g : Z -> C,
    (forall x, eval (at_phi rho x) e = Csum (fun m => Cmult (g m) (cis (IZR m * x))) (freqs 16)) /\
    (forall m, (8 < Z.abs m)%Z -> g m = RtoC 0) /\
    (forall n, (-16 <= n <= 16)%Z -> exists r, fourier_transform ev e n = Ok r /\ r <> Junk /\
       (match r with SymE x => ~ In phi (syms x) | _ => True end) /\ entry_val rho r = g n)).
  { intros e0 N rho _. exists (fun m => if (m =? 0)%Z then eval rho e0 else RtoC 0). split; [|split].
    - intros x. rewrite Zero. apply at_phi_free; auto.
    - intros m Bm. replace (m =? 0)%Z with false; auto. symmetry; apply Z.eqb_neq; lia.
    - intros n B. unfold fourier_transform. rewrite (proj2 (has_phi_false e0) N). cbn [negb].
      destruct (n =? 0)%Z; eexists; (split; [reflexivity|]; split; [discriminate|]; split; auto).
      cbn [entry_val]. rewrite Q2R_0'. reflexivity. }
  intros [e0 N|l H|fs c s M L|f c s n0 b Ef T L] rho Hr.
  - apply Free; auto.
  - destruct (has_phi (EAdd l)) eqn:Hp.
    2: { apply Free; auto. apply has_phi_false; auto. }
    destruct (sum_coefs rho l H) as (g & G1 & G2 & G3). exists g. split; [auto|]. split; [auto|].
    intros n B. destruct (relevant_ok n B) as (m0 & R & _).
    destruct (sum_value n m0 l B R H) as (rs & Es & Ns & _).
    unfold fourier_transform. rewrite Hp. cbn [negb]. rewrite R. cbn [bind]. rewrite Es. cbn [bind].
    eexists. split; [reflexivity|]. split; [discriminate|]. split.
    + intros I. apply (proj2 EV) in I. apply Ns. exact I.
    + cbn [entry_val]. rewrite (proj1 EV) by auto. eapply G3; eauto.
  - destruct (has_phi (EMul fs)) eqn:Hp.
    2: { apply Free; auto. apply has_phi_false; auto. }
    exists (mono_coef rho fs c s). split; [|split].
    + intros x. apply mono_coef_series; auto. lia.
    + intros m Bm. unfold mono_coef. rewrite tcoef_zero by lia. ring.
    + intros n B.
      destruct (ft_single (EMul fs) (c, s) c s n (indep fs) Hp) as (r & E & J & Sy & V); auto; try lia; try discriminate.
      * exists (smul (keyterm_factors (EMul fs))). split; [reflexivity|].
        apply shape_code; [|lia]. apply shape_keyterm; auto.
      * intros a. apply indep_free.
      * exists r. split; auto. split; auto. split; [|apply V; auto].
        destruct r; auto. intros I. eapply Sy; eauto.
  - destruct (has_phi f) eqn:Hp.
    2: { rewrite (trig_has_phi _ _ _ T) in Hp. discriminate. }
    exists (tcoef c s). split; [|split].
    + intros x. rewrite (eval_trig _ _ _ _ _ T). apply mono_series. lia.
    + intros m Bm. apply tcoef_zero. lia.
    + intros n B.
      destruct (ft_single f (c, s) c s n [] Hp) as (r & E & J & Sy & V); auto; try lia.
      * intros l. subst f. discriminate.
      * exists f. subst f. split; [reflexivity|].
        inversion T; subst; reflexivity.
      * subst f. reflexivity.
      * exists r. split; auto. split; auto. split.
        -- destruct r; auto. intros I. eapply Sy; eauto.
        -- rewrite V by auto. rewrite eval_mul. simpl. ring.
Qed.

Theorem covered_transform e : covered e -> forall rho n, respects rho -> (-16 <= n <= 16)%Z ->
  exists r, fourier_transform ev e n = Ok r /\
    entry_val rho r = fourier_coefficient (fun x => eval (at_phi rho x) e) n.
Proof.
  intros H rho n Hr B. destruct (covered_coefs e H rho Hr) as (g & G1 & _ & G3).
  destruct (G3 n B) as (r & E & _ & _ & V). exists r. split; auto. rewrite V.
  rewrite (fourier_coefficient_ext _ _ n G1), coefficient_trig by apply NoDup_zrange.
  destruct (in_dec Z.eq_dec n (freqs 16)) as [I|NI]; auto.
  exfalso; apply NI, In_freqs. simpl. lia.
Qed.

(** The order in which entries are computed: an index beyond the table. *)
Lemma relevant_high n : (16 < n)%Z -> relevant_codes n = Raise IndexError.
Proof.
  intros B. unfold relevant_codes.
  assert (L : forall k l, In (k, l) lookup_table -> py_nth l (n + 16) = Raise IndexError).
  { intros k l I. apply py_nth_err. rewrite (table_rows_len _ _ I). simpl. lia. }
  destruct lookup_table as [|[k l] t] eqn:E; [discriminate|].
  cbn [dmapM]. rewrite (L k l) by (left; auto). reflexivity.
Qed.
End Transform.
