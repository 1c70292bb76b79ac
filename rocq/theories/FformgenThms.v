(** From the generators to the finished Fourier formula. *)
From Coq Require Import String List Arith ZArith Bool Lia Reals QArith Qreals Lra.
From Coquelicot Require Import Complex.
Import ListNotations.
From Verif Require Import PyBase DataProofs2 CBase Expr ExprProofs FourierBase FormModel SpecForm SpecFData FDataModel FDataProofs FormProofs2 FormProofs3 FormProofs5
  TensorInst UtilModel TrigPoly FormgenProofs2 FormgenProofs3 FormgenPhys FformgenModel SpecFormgen SpecFformgen
  FormgenProofs FformgenProofs FformgenProofs2 FformgenProofs3 FformgenAlg FformgenProofs4 FformgenProofs5.
From Verif Require Import SpecTensor TensorModel.
Local Open Scope nat_scope.

Lemma fformgen_real th : real_setup (fformgen_setup th).
Proof.
  unfold real_setup, realv. repeat split; intros i; destruct i as [|[|[|i]]]; cbn;
    rewrite ?Cconj_opp, ?Cconj_R; reflexivity.
Qed.

(** * Half a turn *)
Definition sgn (i : nat) : C := match i with 2 => RtoC 1 | _ => Copp (RtoC 1) end.
Lemma half_turn i j : i < 3 -> j < 3 -> Rz PI i j = if i =? j then sgn i else RtoC 0.
Proof.
  intros I J. destruct i as [|[|[|i]]]; [..|lia]; (destruct j as [|[|[|j]]]; [..|lia]); cbn [Rz Nat.eqb sgn];
    rewrite ?cos_PI, ?sin_PI; apply C_ext; unfold Re, Im; simpl; ring.
Qed.
Lemma half_sum (f : nat -> C) i : i < 3 -> sum3 (fun l => Rz PI i l * f l)%C = (sgn i * f i)%C.
Proof.
  intros I. unfold sum3. rewrite !half_turn by lia. destruct i as [|[|[|i]]]; [..|lia]; cbn [Nat.eqb]; ring.
Qed.
Lemma turned3_half X i j k : i < 3 -> j < 3 -> k < 3 -> turned3 PI X i j k = (sgn i * sgn j * sgn k * X i j k)%C.
Proof.
  intros I J K. rewrite nest3, half_sum by auto.
  rewrite (half_sum (fun m => sum3 (fun n => Rz PI k n * X i m n)%C)) by auto. rewrite (half_sum (fun n => X i j n)) by auto. ring.
Qed.
Lemma turned4_half X i j k h : i < 3 -> j < 3 -> k < 3 -> h < 3 ->
  turned4 PI X i j k h = (sgn i * sgn j * sgn k * sgn h * X i j k h)%C.
Proof.
  intros I J K H. rewrite nest4, half_sum by auto.
  rewrite (half_sum (fun m => sum3 (fun n => Rz PI k n * sum3 (fun o => Rz PI h o * X i m n o))%C)) by auto.
  rewrite (half_sum (fun n => sum3 (fun o => Rz PI h o * X i j n o)%C)) by auto. rewrite (half_sum (fun o => X i j k o)) by auto. ring.
Qed.

Lemma sgn_field th p i : i < 3 -> s_field (fformgen_setup th) p i = (sgn i * field th p i)%C.
Proof. intros I. destruct p; (destruct i as [|[|[|i]]]; [..|lia]); cbn; apply C_ext; unfold Re, Im; simpl; ring. Qed.
Lemma sgn_in th i : i < 3 -> s_in (fformgen_setup th) i = (sgn i * k_incident th i)%C.
Proof. intros I. destruct i as [|[|[|i]]]; [..|lia]; cbn; apply C_ext; unfold Re, Im; simpl; ring. Qed.
Lemma sgn_out th i : i < 3 -> s_out (fformgen_setup th) i = (sgn i * k_reflected th i)%C.
Proof. intros I. destruct i as [|[|[|i]]]; [..|lia]; cbn; apply C_ext; unfold Re, Im; simpl; ring. Qed.
Lemma sgn_sq i : (sgn i * sgn i)%C = RtoC 1.
Proof. destruct i as [|[|[|i]]]; cbn [sgn]; ring. Qed.

Lemma source_half th E Q p x i : i < 3 ->
  source th E (fun _ _ _ => RtoC 0) Q p (x + PI) i = (sgn i * setup_source (fformgen_setup th) E Q p x i)%C.
Proof.
  intros I. unfold source, setup_source. cbv zeta.
  assert (C0 : cross (k_incident th) (moment3 (turned3 (x + PI) (fun _ _ _ => RtoC 0)) (field th p)) i = RtoC 0).
  { assert (Z : forall j, moment3 (turned3 (x + PI) (fun _ _ _ => RtoC 0)) (field th p) j = RtoC 0).
    { intros j. unfold moment3, turned3, sum3. ring. }
    unfold cross, triple. rewrite !Z. destruct i as [|[|[|i]]]; ring. }
  rewrite C0. clear C0.
  assert (M3 : moment3 (turned3 (x + PI) E) (field th p) i =
               (sgn i * moment3 (turned3 x E) (s_field (fformgen_setup th) p) i)%C).
  { unfold moment3. rewrite <- sum3_mult_l. apply sum3_ext; intros j J. rewrite <- sum3_mult_l. apply sum3_ext; intros k K.
    rewrite turned3_plus, turned3_half by auto. rewrite !sgn_field by auto. ring. }
  assert (M4 : moment4 (turned4 (x + PI) Q) (k_incident th) (field th p) i =
               (sgn i * moment4 (turned4 x Q) (s_in (fformgen_setup th)) (s_field (fformgen_setup th) p) i)%C).
  { unfold moment4. rewrite <- sum3_mult_l. apply sum3_ext; intros j J. rewrite <- sum3_mult_l. apply sum3_ext; intros k K.
    rewrite <- sum3_mult_l. apply sum3_ext; intros h H.
    rewrite turned4_plus, turned4_half by auto. rewrite !sgn_field, sgn_in by auto. ring. }
  rewrite M3, M4. ring.
Qed.

Lemma intensity_half th E Q inp out x :
  setup_intensity (fformgen_setup th) E Q inp out x = intensity th E (fun _ _ _ => RtoC 0) Q inp out (x + PI).
Proof.
  unfold setup_intensity, intensity.
  set (S := setup_source (fformgen_setup th) E Q inp x).
  assert (T : forall i, i < 3 -> transverse th (source th E (fun _ _ _ => RtoC 0) Q inp (x + PI)) i =
                                 (sgn i * setup_transverse (fformgen_setup th) S i)%C).
  { intros i I. unfold transverse, setup_transverse. rewrite source_half by auto. fold S.
    assert (D : dot3 (k_reflected th) (source th E (fun _ _ _ => RtoC 0) Q inp (x + PI)) = dot3 (s_out (fformgen_setup th)) S).
    { unfold dot3. apply sum3_ext; intros j J. rewrite source_half by auto. fold S. rewrite sgn_out by auto. ring. }
    rewrite D, sgn_out by auto.
    transitivity (sgn i * S i - dot3 (s_out (fformgen_setup th)) S * (sgn i * sgn i) * k_reflected th i)%C; [rewrite sgn_sq; ring|ring]. }
  assert (G : forall i, Cmod (sgn i) = 1%R).
  { intros i. destruct i as [|[|[|i]]]; cbn [sgn]; rewrite ?Cmod_opp; apply Cmod_1. }
  unfold detected. destruct out; rewrite !T by lia; rewrite !Cmod_mult, !G, !Rmult_1_l; reflexivity.
Qed.

Section Gen.
Variable ev expand : expr -> expr.
Hypothesis EV : sound_ev ev.

(** * The two generators *)
Definition holds_transforms (rho : sym -> C) (th : R) (prefix : string) (fs : list (string * list (list (tensor expr)))) : Prop :=
  forall inp out, exists L, dget (npy prefix (file_of inp out)) fs = Some L /\ stored_terms rho (fformgen_setup th) inp out L.

Definition rho1 : sym -> C := fun _ => RtoC 0.
Lemma rho1_respects : respects rho1.
Proof. intros s _. reflexivity. Qed.

Lemma eval_sine rho e th : respects rho -> eval rho e = RtoC th -> eval rho (sine ev e) = RtoC (sin th).
Proof. intros R H. unfold sine. rewrite (proj1 EV) by auto. simpl. rewrite H. apply Csin_R. Qed.
Lemma eval_cosine rho e th : respects rho -> eval rho e = RtoC th -> eval rho (cosine ev e) = RtoC (cos th).
Proof. intros R H. unfold cosine. rewrite (proj1 EV) by auto. simpl. rewrite H. apply Ccos_R. Qed.
Lemma eval_nega' rho e v : respects rho -> eval rho e = RtoC v -> eval rho (nega ev e) = RtoC (- v).
Proof. intros R H. unfold nega. rewrite (eval_nega ev EV rho R), H. rewrite RtoC_opp. reflexivity. Qed.

Lemma off_theta rho rho' : off_field rho rho' -> rho' theta_sym = rho theta_sym.
Proof. intros [_ H]. apply H. intros [E|[E|E]]; discriminate. Qed.

Lemma symb_transforms prefix fs : exists fs', generate_uncontracted_fourier_transforms_symb ev prefix 16 fs = Ok fs' /\
  forall rho th, respects rho -> rho theta_sym = RtoC th -> holds_transforms rho th prefix fs'.
Proof.
  assert (X : forall rho th, respects rho -> rho theta_sym = RtoC th ->
    exists fs', generate_uncontracted_fourier_transforms_symb ev prefix 16 fs = Ok fs' /\ holds_transforms rho th prefix fs').
  { intros rho th R T. unfold generate_uncontracted_fourier_transforms_symb, holds_transforms.
    assert (TV : forall rho', off_field rho rho' -> eval rho' (ESym theta_sym) = RtoC th).
    { intros rho' O. simpl. rewrite (off_theta rho) by auto. exact T. }
    apply (generate_stored ev EV rho R); try reflexivity.
    - intros i I rho' O. pose proof (TV rho' O) as V. destruct i as [|[|[|i]]]; [..|lia].
      + apply eval_nega', eval_sine; auto; apply O.
      + apply eval_num0.
      + apply eval_nega', eval_cosine; auto; apply O.
    - intros i I rho' O. pose proof (TV rho' O) as V. destruct i as [|[|[|i]]]; [..|lia].
      + apply eval_nega', eval_sine; auto; apply O.
      + apply eval_num0.
      + apply eval_cosine; auto; apply O.
    - intros rho' O. apply eval_cosine; [apply O|auto].
    - intros rho' O. apply eval_sine; [apply O|auto].
    - repeat split. }
  destruct (X rho1 0%R rho1_respects eq_refl) as (fs' & E & _). exists fs'. split; auto.
  intros rho th R T. destruct (X rho th R T) as (fs'' & E' & H). rewrite E in E'. injection E' as <-. exact H.
Qed.

Lemma num_transforms aoi prefix fs : exists fs', generate_uncontracted_fourier_transforms ev aoi prefix 16 fs = Ok fs' /\
  forall rho, respects rho -> holds_transforms rho (Q2R aoi) prefix fs'.
Proof.
  assert (X : forall rho, respects rho ->
    exists fs', generate_uncontracted_fourier_transforms ev aoi prefix 16 fs = Ok fs' /\ holds_transforms rho (Q2R aoi) prefix fs').
  { intros rho R. unfold generate_uncontracted_fourier_transforms, holds_transforms.
    assert (SV : forall rho' e v, respects rho' -> (forall r, respects r -> r theta_sym = RtoC (Q2R aoi) -> eval r e = v) ->
      eval rho' (subs_seq ev [(theta_sym, num aoi)] e) = v).
    { intros rho' e v R' H. unfold subs_seq. cbn [fold_left fst snd]. rewrite (proj1 EV) by auto. rewrite eval_subst. apply H.
      - intros s Hs. unfold upd. destruct (sym_eqb_spec s theta_sym); [|apply R'; exact Hs].
        rewrite eval_num. reflexivity.
      - unfold upd. destruct (sym_eqb_spec theta_sym theta_sym); [|congruence]. apply eval_num. }
    apply (generate_stored ev EV rho R); try reflexivity.
    - intros i I rho' O. cbn [tmap at_]. apply SV; [apply O|]. intros r Rr V. destruct i as [|[|[|i]]]; [..|lia].
      + apply eval_nega', eval_sine; auto.
      + apply eval_num0.
      + apply eval_nega', eval_cosine; auto.
    - intros i I rho' O. cbn [tmap at_]. apply SV; [apply O|]. intros r Rr V. destruct i as [|[|[|i]]]; [..|lia].
      + apply eval_nega', eval_sine; auto.
      + apply eval_num0.
      + apply eval_cosine; auto.
    - intros rho' O. apply eval_cosine; [apply O|apply eval_num].
    - intros rho' O. apply eval_sine; [apply O|apply eval_num].
    - repeat split. }
  destruct (X rho1 rho1_respects) as (fs' & E & _). exists fs'. split; auto.
  intros rho R. destruct (X rho R) as (fs'' & E' & H). rewrite E in E'. injection E' as <-. exact H.
Qed.

(** * The contraction *)
Lemma row_is_fseries rho b l v : row_is rho 16 b l v -> forall x, fseries 16 (map (eval rho) l) (RtoC x) = v x.
Proof.
  intros (L & _ & S) x. rewrite fseries_R, synth_series by (rewrite map_length; lia). rewrite <- S.
  unfold series. apply Csum_ext_in. intros n I. f_equal. unfold coef.
  rewrite <- (eval_num0 rho), map_nth. reflexivity.
Qed.

Lemma contracted_rows rho th prefix fs d q : respects rho -> holds_transforms rho th prefix fs ->
  shape d = [3; 3; 3] -> shape q = [3; 3; 3; 3] -> real_params (Some d) -> real_params (Some q) ->
  exists D, contracted_dict ev expand prefix fs d q 16 None = Ok D /\ dkeys D = ["PP"; "PS"; "SP"; "SS"]%string /\
    forall inp out, exists r, dget (key inp out) D = Some r /\
      row_is rho 16 8 r (fun x => RtoC (setup_intensity (fformgen_setup th) (val3 rho (Some d)) (val4 rho (Some q)) inp out x)).
Proof.
  intros R H Sd Sq Rd Rq. unfold contracted_dict.
  rewrite (proj1 (assert_ok d) Rd), (proj1 (assert_ok q) Rq). cbn [bind]. unfold pcs. cbn [mapM].
  destruct (H Pin Pin) as (L1 & G1 & T1). destruct (H Pin Sin) as (L2 & G2 & T2).
  destruct (H Sin Pin) as (L3 & G3 & T3). destruct (H Sin Sin) as (L4 & G4 & T4).
  cbn [file_of] in *.
  change (lower "PP") with "pp"%string. change (lower "PS") with "ps"%string.
  change (lower "SP") with "sp"%string. change (lower "SS") with "ss"%string.
  unfold load_npy. rewrite G1, G2, G3, G4. cbn [bind mapM fst snd].
  pose proof (fformgen_real th) as RG.
  destruct (contract_terms_row ev EV rho R _ _ _ L1 d q RG Sd Sq T1) as (v1 & E1 & R1).
  destruct (contract_terms_row ev EV rho R _ _ _ L2 d q RG Sd Sq T2) as (v2 & E2 & R2).
  destruct (contract_terms_row ev EV rho R _ _ _ L3 d q RG Sd Sq T3) as (v3 & E3 & R3).
  destruct (contract_terms_row ev EV rho R _ _ _ L4 d q RG Sd Sq T4) as (v4 & E4 & R4).
  rewrite E1. cbn [bind]. rewrite E2. cbn [bind]. rewrite E3. cbn [bind]. rewrite E4. cbn [bind].
  eexists. split; [reflexivity|]. split; [reflexivity|].
  intros inp out. destruct inp, out; eexists; (split; [reflexivity|]); assumption.
Qed.

Lemma contracted_not_real prefix fs d q M nd : ~ (real_params (Some d) /\ real_params (Some q)) ->
  contracted_dict ev expand prefix fs d q M nd = Raise ValueError.
Proof.
  intros N. unfold contracted_dict. destruct (assert_real_params d) as [[]|e] eqn:E.
  - cbn [bind]. rewrite assert_bad; [reflexivity|]. intros Rq. apply N. split; auto. apply assert_ok, E.
  - cbn [bind]. unfold assert_real_params in E. destruct (forallb _ _); congruence.
Qed.

Lemma contracted_no_file prefix fs d q M nd : real_params (Some d) -> real_params (Some q) ->
  (exists inp out, dget (npy prefix (file_of inp out)) fs = None) ->
  contracted_dict ev expand prefix fs d q M nd = Raise FileNotFoundError.
Proof.
  intros Rd Rq (inp & out & N). unfold contracted_dict.
  rewrite (proj1 (assert_ok d) Rd), (proj1 (assert_ok q) Rq). cbn [bind]. unfold pcs. cbn [mapM].
  change (lower "PP") with "pp"%string. change (lower "PS") with "ps"%string.
  change (lower "SP") with "sp"%string. change (lower "SS") with "ss"%string. unfold load_npy.
  destruct inp, out; cbn [file_of] in N; rewrite N; cbn [bind]; try reflexivity;
    repeat match goal with |- context [match dget ?k ?f with _ => _ end] => destruct (dget k f); cbn [bind]; try reflexivity end.
Qed.

(** The file as read back *)
Lemma loaded_rows (srepr : expr -> string) parse D : (forall e, parse (srepr e) = Ok e) ->
  dkeys D = ["PP"; "PS"; "SP"; "SS"]%string -> (forall k r, In (k, r) D -> length r = 33) ->
  load_fform parse (dmap (map srepr) D) = Ok (mkff (dmap (mkrow true) D) 16).
Proof.
  intros P K L. set (F := mkff (dmap (mkrow true) D) 16).
  assert (E : dmap (map srepr) D = save_fform srepr F).
  { unfold save_fform, F, dmap. cbn [ff_rows]. rewrite map_map. reflexivity. }
  rewrite E. apply load_save; auto.
  - intros k r e _ _. apply P.
  - split.
    + unfold F. cbn [ff_rows]. apply wf_dmap. unfold wf_dict. rewrite K.
      repeat constructor; simpl; intuition discriminate.
    + intros k r I. unfold F in *. cbn [ff_rows ff_M] in *. apply In_dmap in I as (w & I & ->). cbn [r_cells]. apply (L k w I).
  - intros k r I. unfold F in I. cbn [ff_rows] in I. apply In_dmap in I as (w & I & ->). reflexivity.
Qed.
End Gen.
