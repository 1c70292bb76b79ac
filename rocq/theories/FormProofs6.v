(** The transform of any trigonometric polynomial. *)
From Coq Require Import String List ZArith QArith Qreals Reals Lra Lia Bool.
From Coquelicot Require Import Complex.
From Verif Require Import PyBase CBase DataModel FDataModel Expr ExprProofs LookupTable FormModel SpecForm SpecForm2
  FourierBase TableProofs FormProofs FormProofs2 FormProofs3.
Import ListNotations.
Local Open Scope nat_scope.

Lemma bare_trig b : bare b -> exists c s, trig_factor b c s /\ c + s = 1.
Proof. intros [-> | ->]; eexists _, _; split; try constructor; reflexivity. Qed.
Lemma bare_power b n : bare b -> exists c s, trig_factor (EPow b n) c s /\ c + s = n.
Proof. intros [-> | ->]; eexists _, _; (split; [constructor|lia]). Qed.
Lemma bare_phi b : bare b -> In phi (syms b).
Proof. intros [-> | ->]; left; reflexivity. Qed.

Lemma free_monomial fs : (forall a, In a fs -> ~ In phi (syms a)) -> monomial fs 0 0.
Proof. induction fs as [|a fs IH]; intros H; constructor; [apply H; left; auto|apply IH; intros; apply H; right; auto]. Qed.

Lemma args_syms e a x : In a (args e) -> In x (syms a) -> In x (syms e).
Proof.
  destruct e; cbn [args syms]; intros I X; try destruct I; subst; auto.
  - apply in_flat_map; eauto.
  - apply in_flat_map; eauto.
  - match goal with H : In _ _ |- _ => destruct H as [<-|[]] end. destruct X.
  - destruct H.
  - destruct H.
  - destruct H.
  - destruct H.
  - destruct H.
Qed.

(** Every trigonometric polynomial has a reading. *)

Lemma monomial_zero fs c s : monomial fs c s -> proper fs -> c + s = 0 -> forall a, In a fs -> ~ In phi (syms a).
Proof.
  induction 1 as [|f fs c s N M IH|f fs c s c' s' T M IH]; intros P Z a I.
  - destruct I.
  - destruct I as [<-|I]; auto. apply IH; auto. intros b n J. apply (P b n). right; auto.
  - exfalso. destruct T; try lia.
    + assert (2 <= n) by (eapply P; left; reflexivity). lia.
    + assert (2 <= n) by (eapply P; left; reflexivity). lia.
Qed.

Lemma monomial_one fs c s : monomial fs c s -> proper fs -> c + s = 1 ->
  exists l f l', fs = l ++ f :: l' /\ bare f /\ forall a, In a (l ++ l') -> ~ In phi (syms a).
Proof.
  induction 1 as [|f fs c s N M IH|f fs c s c' s' T M IH]; intros P Z.
  - discriminate.
  - destruct IH as (l & g & l' & -> & B & H); auto; [intros b n J; apply (P b n); right; auto|].
    exists (f :: l), g, l'. split; [reflexivity|]. split; auto. intros a [<-|I]; auto.
  - assert (P' : proper fs) by (intros b n J; apply (P b n); right; auto).
    destruct T.
    + exists [], (ECos (ESym phi)), fs. split; [reflexivity|]. split; [left; auto|].
      apply (monomial_zero _ _ _ M P'). lia.
    + exists [], (ESin (ESym phi)), fs. split; [reflexivity|]. split; [right; auto|].
      apply (monomial_zero _ _ _ M P'). lia.
    + assert (2 <= n) by (eapply P; left; reflexivity). lia.
    + assert (2 <= n) by (eapply P; left; reflexivity). lia.
Qed.

Lemma term_args a : trig_term a -> bare a \/ exists c s, monomial (args a) c s.
Proof.
  intros [e N|e B|b n B|fs c s M P].
  - right. exists 0, 0. apply free_monomial. intros x I J. apply N. eapply args_syms; eauto.
  - left; auto.
  - right. destruct (bare_trig b B) as (c & s & T & _). exists (c + 0), (s + 0). cbn [args].
    apply mono_trig; auto. apply mono_free; [intros []|]. constructor.
  - right. exists c, s. exact M.
Qed.

Lemma reading_total e : trig_polynomial e -> exists o, reading e o.
Proof.
  destruct (in_dec sym_eq_dec phi (syms e)) as [Ip|Np]; [|intros; exists (Some e); apply rd_free; auto].
  intros TP. revert Ip. destruct TP as [e0 T|l H].
  - destruct T as [e1 N|e1 B|b n B|fs c s M P]; intros Ip.
    + tauto.
    + eexists. apply rd_bare; auto.
    + destruct (le_lt_dec n 8); eexists; [apply rd_power; auto|apply rd_power_fails; auto].
    + destruct (le_lt_dec (c + s) 8).
      * destruct (le_lt_dec 2 (c + s)); [eexists; eapply rd_product; eauto|].
        destruct (Nat.eq_dec (c + s) 1) as [E|E].
        -- destruct (monomial_one _ _ _ M P E) as (l1 & f & l2 & -> & B & F). eexists. apply rd_linear; auto.
        -- exfalso. cbn [syms] in Ip. apply in_flat_map in Ip as (a & Ia & Ix).
           apply (monomial_zero _ _ _ M P) with a; auto. lia.
      * eexists. eapply rd_product_fails; eauto.
  - intros Ip. assert (D : (forall a, In a l -> exists c s, monomial (args a) c s /\ c + s <= 8) \/
                (exists a, In a l /\ (bare a \/ exists c s, monomial (args a) c s /\ 8 < c + s))).
    { clear Ip. induction l as [|a l IH]; [left; intros a []|].
      destruct IH as [IH|(x & Ix & X)]; [intros; apply H; right; auto| |right; exists x; split; [right; auto|auto]].
      destruct (term_args a) as [B|(c & s & M)]; [apply H; left; auto| |].
      - right. exists a. split; [left; auto|auto].
      - destruct (le_lt_dec (c + s) 8).
        + left. intros x [<-|Ix]; eauto.
        + right. exists a. split; [left; auto|]. right. exists c, s. auto. }
    destruct D as [D|D]; eexists.
    + apply rd_sum; auto.
    + apply rd_sum_fails; auto. intros a I. apply term_args; auto.
Qed.

Section Transform.
Variable ev : expr -> expr.
Hypothesis EV : sound_ev ev.

(** The entries computed from [e] are the coefficients of [e']. *)
Definition gives (e e' : expr) : Prop := forall rho, respects rho ->
  exists g : Z -> C,
    (forall x, eval (at_phi rho x) e' = Csum (fun m => Cmult (g m) (cis (IZR m * x))) (freqs 16)) /\
    (forall n, (-16 <= n <= 16)%Z -> exists r, fourier_transform ev e n = Ok r /\ r <> Junk /\
       (match r with SymE x => ~ In phi (syms x) | _ => True end) /\ entry_val rho r = g n).

Lemma covered_gives e : covered e -> gives e e.
Proof. intros H rho Hr. destruct (covered_coefs ev EV e H rho Hr) as (g & G1 & _ & G3). exists g. auto. Qed.

Lemma constant_series v x : Csum (fun m => Cmult (if (m =? 0)%Z then v else RtoC 0) (cis (IZR m * x))) (freqs 16) = v.
Proof.
  rewrite (Csum_single_Z _ 0%Z).
  - simpl. rewrite Rmult_0_l, cis_0. ring.
  - apply NoDup_zrange.
  - apply In_freqs. simpl. lia.
  - intros b _ Nb. apply Z.eqb_neq in Nb. rewrite Nb. ring.
Qed.

Lemma summand_args m a : transform_summand m (product_of_args a) = transform_summand m a.
Proof. reflexivity. Qed.

Lemma sum_gives l : In phi (syms (EAdd l)) ->
  (forall a, In a l -> exists c s, monomial (args a) c s /\ c + s <= 8) ->
  gives (EAdd l) (EAdd (map product_of_args l)).
Proof.
  intros Ip H rho Hr.
  assert (H' : forall a, In a (map product_of_args l) -> exists fs c s, a = EMul fs /\ monomial fs c s /\ c + s <= 8).
  { intros a I. apply in_map_iff in I as (b & <- & Ib). destruct (H b Ib) as (c & s & M & L).
    exists (args b), c, s. auto. }
  assert (E : forall m, mapM (transform_summand m) (map product_of_args l) = mapM (transform_summand m) l).
  { intros m. clear. induction l as [|a l IH]; [reflexivity|]. cbn [map mapM]. rewrite IH. reflexivity. }
  destruct (sum_coefs rho _ H') as (g & G1 & _ & G3). exists g. split; [exact G1|].
  intros n B. destruct (relevant_ok n B) as (m0 & R & _).
  destruct (sum_value n m0 _ B R H') as (rs & Es & Ns & _).
  unfold fourier_transform. rewrite (proj2 (has_phi_true _) Ip). cbn [negb]. rewrite R. cbn [bind].
  rewrite <- E, Es. cbn [bind].
  eexists. split; [reflexivity|]. split; [discriminate|]. split.
  - intros I. apply (proj2 EV) in I. apply Ns. exact I.
  - cbn [entry_val]. rewrite (proj1 EV) by auto. eapply G3; eauto.
Qed.

Lemma single_gives e c s indeps e' : In phi (syms e) -> (forall l, e <> EAdd l) ->
  (exists k, get_keyterms e = [k] /\ get_code k = (c, s)) -> c + s <= 8 ->
  indeps = match e with EMul l => filter (fun a => negb (has_phi a)) l | _ => [] end ->
  (forall a, In a indeps -> ~ In phi (syms a)) ->
  (forall rho x, eval (at_phi rho x) e' =
     Cmult (eval rho (EMul indeps)) (Cmult (Cpow (RtoC (cos x)) c) (Cpow (RtoC (sin x)) s))) ->
  gives e e'.
Proof.
  intros Ip NA K L Ei Hi V rho Hr.
  exists (fun m => Cmult (eval rho (EMul indeps)) (tcoef c s m)). split.
  - intros x. rewrite V, mono_series by auto. rewrite <- Csum_mult_l. apply Csum_ext. intros m. ring.
  - intros n B.
    destruct (ft_single ev EV e (c, s) c s n indeps (proj2 (has_phi_true e) Ip)) as (r & E & J & Sy & W); auto.
    exists r. split; auto. split; auto. split; [|apply W; auto].
    destruct r; auto. intros I. eapply Sy; eauto.
Qed.

Lemma linear_filter fs f fs' : bare f -> (forall a, In a (fs ++ fs') -> ~ In phi (syms a)) ->
  filter (fun a => negb (has_phi a)) (fs ++ f :: fs') = fs ++ fs'.
Proof.
  intros B H. rewrite filter_app. cbn [filter].
  rewrite (proj2 (has_phi_true f) (bare_phi f B)). cbn [negb].
  rewrite <- filter_app. induction (fs ++ fs') as [|a l IH]; [reflexivity|]. cbn [filter].
  rewrite (proj2 (has_phi_false a)); [cbn [negb]; rewrite IH; auto; intros; apply H; right; auto|].
  apply H. left; auto.
Qed.

Lemma linear_monomial fs f fs' : bare f -> (forall a, In a (fs ++ fs') -> ~ In phi (syms a)) ->
  exists c s, monomial (fs ++ f :: fs') c s /\ c + s = 1.
Proof.
  intros B H. destruct (bare_trig f B) as (c & s & T & E). exists (c + 0), (s + 0). split; [|lia].
  induction fs as [|a fs IH].
  - apply mono_trig; auto. apply free_monomial. exact H.
  - cbn [app]. apply mono_free; [apply H; left; auto|]. apply IH. intros x I. apply H. right; auto.
Qed.

Lemma linear_gives fs f fs' : bare f -> (forall a, In a (fs ++ fs') -> ~ In phi (syms a)) ->
  gives (EMul (fs ++ f :: fs')) (EMul (fs ++ fs')).
Proof.
  intros B H. apply (single_gives _ 0 0 (fs ++ fs')); try lia; try discriminate; auto.
  - cbn [syms]. apply in_flat_map. exists f. split; [apply in_app_iff; right; left; auto|apply bare_phi; auto].
  - destruct (linear_monomial fs f fs' B H) as (c & s & M & E).
    eexists. split; [reflexivity|]. apply (shape_code_1 _ c s); auto. apply shape_keyterm; auto.
  - symmetry. apply linear_filter; auto.
  - intros rho x. rewrite at_phi_free; [cbn [Cpow]; ring|].
    cbn [syms]. intros I. apply in_flat_map in I as (a & Ia & Ix). eapply H; eauto.
Qed.

Lemma power_gives b n : bare b -> n <= 8 -> gives (EPow b n) (EPow b n).
Proof.
  intros B L. destruct (bare_power b n B) as (c & s & T & E).
  apply (single_gives _ c s []); try lia; try discriminate; auto.
  - cbn [syms]. apply bare_phi; auto.
  - eexists. split; [reflexivity|]. inversion T; subst; reflexivity.
  - intros rho x. rewrite (eval_trig _ _ _ _ _ T), eval_mul. cbn [map fold_right]. ring.
Qed.

Lemma bare_gives e : bare e -> gives e (num 1).
Proof.
  intros B. apply (single_gives _ 0 0 []); try lia; auto.
  - apply bare_phi; auto.
  - intros l. destruct B as [-> | ->]; discriminate.
  - exists e. destruct B as [-> | ->]; split; reflexivity.
  - destruct B as [-> | ->]; reflexivity.
  - intros rho x. rewrite eval_mul. cbn. unfold Q2R; cbn. rewrite Rinv_1. apply C_ext; unfold Re, Im; simpl; field.
Qed.

Lemma reading_gives e e' : reading e (Some e') -> gives e e'.
Proof.
  intros R. remember (Some e') as o eqn:Eo. destruct R; try discriminate; injection Eo as <-.
  - apply covered_gives, cov_free; auto.
  - apply sum_gives; auto.
  - apply covered_gives. eapply cov_mul; eauto.
  - apply linear_gives; auto.
  - apply power_gives; auto.
  - apply bare_gives; auto.
Qed.

(** Failures. *)
Lemma mapM_key_error {A B} (f : A -> res B) l a : In a l -> f a = Raise KeyError ->
  (forall b, In b l -> (exists r, f b = Ok r) \/ f b = Raise KeyError) -> mapM f l = Raise KeyError.
Proof.
  induction l as [|x l IH]; simpl; [tauto|]. intros I Ea H.
  destruct (H x) as [[r E]|E]; auto; rewrite E; simpl; auto.
  destruct I as [->|I]; [congruence|]. rewrite IH; auto.
Qed.

Lemma bare_summand m0 n a : (-16 <= n <= 16)%Z -> relevant_codes n = Ok m0 -> bare a ->
  transform_summand m0 a = Raise KeyError.
Proof.
  intros B R Ba. unfold transform_summand.
  assert (E : forall m, mapping_get (ESym phi) m = Raise KeyError).
  { intros m. induction m as [|[[c s] v] m IH]; [reflexivity|]. cbn [mapping_get].
    replace (mul_eqb (ESym phi) (monomial_key (c, s))) with false; auto.
    destruct c as [|[|c]], s as [|[|s]]; reflexivity. }
  destruct Ba as [-> | ->]; cbn [args filter]; change (has_phi (ESym phi)) with true; cbn iota;
    change (smul [ESym phi]) with (ESym phi); rewrite E; reflexivity.
Qed.

Lemma sum_fails l n : (-16 <= n <= 16)%Z -> In phi (syms (EAdd l)) ->
  (forall a, In a l -> bare a \/ exists c s, monomial (args a) c s) ->
  (exists a, In a l /\ (bare a \/ exists c s, monomial (args a) c s /\ 8 < c + s)) ->
  fourier_transform ev (EAdd l) n = Raise KeyError.
Proof.
  intros B Ip H (a & Ia & Ha). destruct (relevant_ok n B) as (m0 & R & _).
  unfold fourier_transform. rewrite (proj2 (has_phi_true _) Ip). cbn [negb]. rewrite R. cbn [bind].
  rewrite (mapM_key_error _ l a); auto.
  - destruct Ha as [Ha|(c & s & M & L)]; [eapply bare_summand; eauto|].
    rewrite <- summand_args. eapply summand_too_high; eauto.
  - intros b Ib. destruct (H b Ib) as [Hb|(c & s & M)]; [right; eapply bare_summand; eauto|].
    destruct (le_lt_dec (c + s) 8).
    + left. destruct (summand_value n m0 (args b) c s B R M) as (r & E & _); auto. exists r. exact E.
    + right. rewrite <- summand_args. eapply summand_too_high; eauto.
Qed.

Lemma high_lookup c s : 8 < c + s -> dget (c, s) lookup_table = None.
Proof. intros L. destruct (dget (c, s) lookup_table) eqn:E; auto. apply table_only in E. lia. Qed.

Lemma reading_fails e n : (-16 <= n <= 16)%Z -> reading e None -> fourier_transform ev e n = Raise KeyError.
Proof.
  intros B R. remember None as o eqn:Eo. destruct R; try discriminate.
  - apply sum_fails; auto.
  - assert (Ip : In phi (syms (EMul fs))).
    { destruct (in_dec sym_eq_dec phi (syms (EMul fs))) as [|N]; auto. exfalso.
      assert (M0 : forall fs c s, monomial fs c s -> ~ In phi (syms (EMul fs)) -> c + s = 0).
      { clear. induction 1 as [|f fs c s N M IH|f fs c s c' s' T M IH]; auto.
        - intros X. apply IH. intros I. apply X. cbn [syms flat_map]. apply in_app_iff; right. exact I.
        - intros X. exfalso. apply X. cbn [syms flat_map]. apply in_app_iff; left.
          apply has_phi_true. eapply trig_has_phi; eauto. }
      specialize (M0 _ _ _ H N). lia. }
    unfold fourier_transform. rewrite (proj2 (has_phi_true _) Ip). cbn [negb]. rewrite keyterms_mul.
    unfold smul. rewrite (shape_code _ c s); [|apply shape_keyterm; auto|lia].
    unfold dgetr. rewrite high_lookup by auto. reflexivity.
  - destruct (bare_power b n0 H) as (c & s & T & E).
    unfold fourier_transform. rewrite (proj2 (has_phi_true (EPow b n0)) (bare_phi b H)). cbn [negb].
    change (get_keyterms (EPow b n0)) with [EPow b n0]. cbn iota.
    replace (get_code (EPow b n0)) with (c, s) by (inversion T; subst; reflexivity).
    unfold dgetr. rewrite high_lookup by lia. reflexivity.
Qed.

(** Rows and containers. *)
Lemma gives_row e e' M : gives e e' -> M <= 16 ->
  exists es, mapM (fourier_transform ev e) (freqs M) = Ok es /\ length es = 2 * M + 1 /\
    Forall (fun x => x <> Junk) es /\ (forall x, In x es -> ~ In phi (syms (as_expr x))) /\
    forall rho, respects rho ->
      map (eval rho) (map as_expr es) = map (fourier_coefficient (fun x => eval (at_phi rho x) e')) (freqs M).
Proof.
  intros Hc L.
  assert (R0 : respects (fun _ => RtoC 0)) by (intros s _; reflexivity).
  destruct (Hc _ R0) as (g0 & _ & G).
  destruct (mapM_all_ok (fourier_transform ev e) (freqs M)) as [es E].
  { intros n I. apply In_freqs in I. destruct (G n) as (r & Er & _); [lia|eauto]. }
  exists es. split; auto. split; [rewrite (mapM_length _ _ _ E), length_freqs; auto|].
  assert (J : forall x, In x es -> x <> Junk /\ ~ In phi (syms (as_expr x))).
  { intros x I. destruct (mapM_In _ _ _ _ E I) as (n & In' & En). apply In_freqs in In'.
    destruct (G n) as (r & Er & Jr & Pr & _); [lia|]. rewrite Er in En. injection En as <-. split; auto.
    destruct r; simpl; auto. }
  split; [apply Forall_forall; intros; apply J; auto|]. split; [intros; apply J; auto|].
  intros rho Hr. rewrite map_map. apply (map_mapM _ _ _ _ _ E).
  intros n r I Er. assert (Ir : r <> Junk).
  { apply In_freqs in I. destruct (G n) as (r' & Er' & Jr & _); [lia|]. congruence. }
  rewrite entry_val_as by auto. apply In_freqs in I.
  destruct (Hc rho Hr) as (g & G1 & G2). destruct (G2 n) as (r' & Er' & _ & _ & V); [lia|].
  rewrite Er in Er'. injection Er' as <-. rewrite V.
  rewrite (fourier_coefficient_ext _ _ n G1), coefficient_trig by apply NoDup_zrange.
  destruct (in_dec Z.eq_dec n (freqs 16)) as [X|NI]; auto.
  exfalso; apply NI, In_freqs. simpl. lia.
Qed.

Lemma form_reading f (rd : string -> option expr) M : wf_dict f -> M <= 16 ->
  (forall k e, In (k, e) f -> exists e', rd k = Some e' /\ reading e (Some e')) ->
  exists F, form_to_fform ev f M = Ok F /\ dkeys (ff_rows F) = dkeys f /\ ff_M F = M /\
    forall k e, In (k, e) f -> exists e' cells, rd k = Some e' /\ ff_get_pc F k = Ok cells /\ length cells = 2 * M + 1 /\
      (forall x, In x cells -> ~ In phi (syms x)) /\
      forall rho, respects rho ->
        map (eval rho) cells = map (fourier_coefficient (fun x => eval (at_phi rho x) e')) (freqs M).
Proof.
  intros W L H.
  assert (HR : forall k e, In (k, e) f -> exists e', rd k = Some e' /\ gives e e').
  { intros k e I. destruct (H k e I) as (e' & E & R). exists e'. split; auto. apply reading_gives; auto. }
  destruct (dmapM_all_ok (fun e => mapM (fourier_transform ev e) (freqs M)) f) as [rows E].
  { intros k e I. destruct (HR k e I) as (e' & _ & G). destruct (gives_row e e' M G L) as (es & Ees & _). eauto. }
  assert (EF : form_to_fform ev f M = Ok (mkff (dmap entry_row rows) M)).
  { unfold form_to_fform. rewrite E. cbn [bind]. apply ff_construct_rows.
    - unfold wf_dict. rewrite (dmapM_keys _ _ _ E). auto.
    - intros k es I. pose proof (proj1 (dmapM_Ok _ _ _) E) as E2.
      assert (X : exists e, In (k, e) f /\ mapM (fourier_transform ev e) (freqs M) = Ok es).
      { revert I. clear - E2. induction E2 as [|[a v] [b r] l l' [H1 H2] F IH]; simpl; [tauto|]. simpl in H1, H2.
        intros [X|I]; [injection X as -> ->; subst a; exists v; auto|]. destruct (IH I) as (v' & I' & E'). exists v'; auto. }
      destruct X as (e & Ie & Ee). destruct (HR k e Ie) as (e' & _ & G).
      destruct (gives_row e e' M G L) as (es' & Ees & Len & J & _).
      rewrite Ee in Ees. injection Ees as <-. auto. }
  eexists. split; [exact EF|]. cbn [ff_rows ff_M]. split; [rewrite dkeys_dmap; apply (dmapM_keys _ _ _ E)|]. split; auto.
  intros k e I. destruct (HR k e I) as (e' & Er & G). destruct (gives_row e e' M G L) as (es & Ees & Len & J & P & V).
  exists e', (map as_expr es). split; auto. split.
  - unfold ff_get_pc, dgetr. cbn [ff_rows]. rewrite dget_dmap.
    destruct (dget_dmapM _ _ _ _ _ E (In_dget _ _ _ W I)) as (w & Ew & Gw). rewrite Ees in Ew. injection Ew as <-.
    rewrite Gw. reflexivity.
  - split; [rewrite map_length; auto|]. split; auto.
    intros x Ix. apply in_map_iff in Ix as (y & <- & Iy). auto.
Qed.

Lemma dmapM_key_error {K V W} (f : V -> res W) (l : dict K V) k v : In (k, v) l -> f v = Raise KeyError ->
  (forall k' v', In (k', v') l -> (exists r, f v' = Ok r) \/ f v' = Raise KeyError) -> dmapM f l = Raise KeyError.
Proof.
  induction l as [|[k0 v0] l IH]; simpl; [tauto|]. intros I Ea H.
  destruct (H k0 v0) as [[r E]|E]; auto; rewrite E; simpl; auto.
  destruct I as [X|I]; [injection X as -> ->; congruence|]. rewrite IH; eauto.
Qed.

Lemma form_reading_fails f (rd : string -> option expr) M : M <= 16 ->
  (forall k e, In (k, e) f -> reading e (rd k)) -> (exists k e, In (k, e) f /\ rd k = None) ->
  form_to_fform ev f M = Raise KeyError.
Proof.
  intros L H (k & e & I & N). unfold form_to_fform.
  assert (X : forall e, reading e None -> mapM (fourier_transform ev e) (freqs M) = Raise KeyError).
  { intros e0 R. apply (mapM_key_error _ _ 0%Z).
    - apply In_freqs. lia.
    - apply reading_fails; auto. lia.
    - intros b Ib. right. apply In_freqs in Ib. apply reading_fails; auto. lia. }
  rewrite (dmapM_key_error _ f k e); auto.
  - apply X. rewrite <- N. apply (H k); auto.
  - intros k' e' I'. specialize (H k' e' I'). destruct (rd k') as [e2|].
    + left. apply reading_gives in H. destruct (gives_row e' e2 M H L) as (es & Ees & _). eauto.
    + right. apply X; auto.
Qed.
End Transform.
