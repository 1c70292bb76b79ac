(** Properties C49-C51 and C64: Fourier formulas built by convolution.
    Beside each theorem a concrete case. *)
From Coq Require Import String List Arith ZArith Bool Lia Reals QArith Qreals Lra.
From Coquelicot Require Import Complex.
Import ListNotations.
From Verif Require Import PyBase CBase FourierBase Expr ExprProofs SpecForm SpecFData FDataModel FDataProofs FormModel FormProofs3 LookupTable TableProofs PropertiesForm
  TensorInst UtilModel SpecFormgen TrigPoly FormgenModel FformgenModel SpecFformgen
  FormgenProofs FormgenProofs2 FormgenProofs3 FormgenProofs4 FormgenPhys FormgenThms FormgenThms2 PropertiesFormgen
  FformgenProofs FformgenProofs2 FformgenProofs3 FformgenProofs4 FformgenProofs5 FformgenThms FformgenOrder.
From Verif Require Import SpecTensor TensorModel.
Local Open Scope nat_scope.

(* ================================================================== *)
(** * C49: convolution *)

(** What is computed, for any arrays: python's indexing decides which frequencies meet. *)
Theorem C49_formula : forall ev M sh sh' F G rho, sound_ev ev -> respects rho -> wellformed M sh F -> wellformed M sh' G ->
  exists H, convolve_ftensors ev M F G = Ok H /\ wellformed M (sh ++ sh') H /\
  forall n i j, In n (freqs M) -> fits sh i -> fits sh' j ->
    coefficient rho M H n (i ++ j) =
      Csum (fun m => match read_frequency M (n - m) with
                     | Some k => coefficient rho M F m i * coefficient rho M G k j
                     | None => RtoC 0
                     end)%C (freqs M).
Proof. intros ev M sh sh' F G rho EV RS. exact (convolve_coefficient ev EV rho RS M sh sh' F G). Qed.
Print Assumptions C49_formula.

(** When the bandwidths add up to at most M the result is the tensor product,
    coefficient by coefficient and as a function of phi. *)
Theorem C49_exact : forall ev M sh sh' F G a b rho, sound_ev ev -> respects rho -> wellformed M sh F -> wellformed M sh' G ->
  bandlimited rho M sh a F -> bandlimited rho M sh' b G -> a + b <= M ->
  exists H, convolve_ftensors ev M F G = Ok H /\ wellformed M (sh ++ sh') H /\ bandlimited rho M (sh ++ sh') (a + b) H /\
    (forall n i j, In n (freqs M) -> fits sh i -> fits sh' j ->
       coefficient rho M H n (i ++ j) =
         Csum (fun m => coefficient rho M F m i * coefficient rho M G (n - m) j)%C (filter (fun m => Z.abs (n - m) <=? Z.of_nat M)%Z (freqs M))) /\
    (forall i j x, fits sh i -> fits sh' j ->
       synthesis rho M H (i ++ j) x = (synthesis rho M F i x * synthesis rho M G j x)%C).
Proof.
  intros ev M sh sh' F G a b rho EV RS WF WG BF BG L.
  destruct (convolve_exact ev EV rho RS M sh sh' F G a b WF WG BF BG L) as (H & E & W & B & K & S).
  exists H. split; [exact E|]. split; [exact W|]. split; [exact B|]. split; [|exact S].
  exact K.
Qed.
Print Assumptions C49_exact.

(** Beyond that, frequency 2 comes back as frequency -1 (and -2 is lost). *)
Definition top : list (tensor expr) := [mkT [] (fun _ => num 0); mkT [] (fun _ => num 0); mkT [] (fun _ => num 1)].
Lemma top_wf : wellformed 1 [] top.
Proof. split; [reflexivity|]. repeat constructor. Qed.
Theorem C49_wraps : forall ev rho, sound_ev ev -> respects rho ->
  exists H, convolve_ftensors ev 1 top top = Ok H /\
    coefficient rho 1 H (-1) [] = RtoC 1 /\
    synthesis rho 1 H [] 0 = RtoC 1 /\ ~ (forall x, synthesis rho 1 H [] x = (synthesis rho 1 top [] x * synthesis rho 1 top [] x)%C).
Proof.
  intros ev rho EV RS.
  destruct (convolve_coefficient ev EV rho RS 1 [] [] top top top_wf top_wf) as (H & E & W & K).
  exists H. split; [exact E|].
  assert (F0 : fits [] []) by constructor.
  assert (T : coefficient rho 1 top (-1) [] = RtoC 0 /\ coefficient rho 1 top 0 [] = RtoC 0 /\ coefficient rho 1 top 1 [] = RtoC 1).
  { unfold coefficient, top. simpl. rewrite !Q2R_0', !Q2R_1'. repeat split; apply C_ext; reflexivity. }
  destruct T as (Tm & T0 & T1).
  assert (Km : coefficient rho 1 H (-1) [] = RtoC 1).
  { pose proof (K (-1)%Z [] [] ltac:(apply In_freqs; lia) F0 F0) as X. cbn [app] in X. rewrite X.
    change (freqs 1) with [(-1)%Z; 0%Z; 1%Z]. cbn [Csum fold_right].
    change (read_frequency 1 (-1 - -1)) with (Some 0%Z). change (read_frequency 1 (-1 - 0)) with (Some (-1)%Z).
    change (read_frequency 1 (-1 - 1)) with (Some 1%Z). rewrite Tm, T0, T1, ?Tm. ring. }
  assert (K0 : coefficient rho 1 H 0 [] = RtoC 0).
  { pose proof (K 0%Z [] [] ltac:(apply In_freqs; lia) F0 F0) as X. cbn [app] in X. rewrite X.
    change (freqs 1) with [(-1)%Z; 0%Z; 1%Z]. cbn [Csum fold_right].
    change (read_frequency 1 (0 - -1)) with (Some 1%Z). change (read_frequency 1 (0 - 0)) with (Some 0%Z).
    change (read_frequency 1 (0 - 1)) with (Some (-1)%Z). rewrite Tm, T0, T1, ?Tm. ring. }
  assert (K1 : coefficient rho 1 H 1 [] = RtoC 0).
  { pose proof (K 1%Z [] [] ltac:(apply In_freqs; lia) F0 F0) as X. cbn [app] in X. rewrite X.
    change (freqs 1) with [(-1)%Z; 0%Z; 1%Z]. cbn [Csum fold_right].
    change (read_frequency 1 (1 - -1)) with (@None Z). change (read_frequency 1 (1 - 0)) with (Some 1%Z).
    change (read_frequency 1 (1 - 1)) with (Some 0%Z). rewrite Tm, T0, T1, ?Tm. ring. }
  assert (S : forall x, synthesis rho 1 H [] x = cis (- x)).
  { intros x. unfold synthesis. change (freqs 1) with [(-1)%Z; 0%Z; 1%Z]. cbn [Csum fold_right]. rewrite Km, K0, K1.
    replace (-1 * x)%R with (- x)%R by ring. ring. }
  split; [exact Km|]. split; [rewrite S, Ropp_0; apply cis_0|]. intros X. specialize (X (PI / 2)%R). rewrite S in X.
  unfold synthesis in X. change (freqs 1) with [(-1)%Z; 0%Z; 1%Z] in X. cbn [Csum fold_right] in X. rewrite Tm, T0, T1 in X.
  unfold cis in X. rewrite Rmult_1_l, !cos_neg, !sin_neg, cos_PI2, sin_PI2 in X.
  apply (f_equal Re) in X. unfold Re in X. simpl in X. rewrite ?Rmult_0_l in X. lra.
Qed.
Print Assumptions C49_wraps.

(** A case of the exact theorem: the square of a rotation at M = 2. *)
Example C49_case : exists rR, rotation 2 = Ok rR /\ wellformed 2 [3; 3] rR /\ bandlimited half 2 [3; 3] 1 rR /\
  exists H, convolve_ftensors (fun e => e) 2 rR rR = Ok H /\
    forall x, synthesis half 2 H [0; 0; 0; 1] x = (RtoC (cos x) * RtoC (- sin x))%C.
Proof.
  destruct (rotation_carries half 2 ltac:(lia)) as (rR & E & W & B & S). exists rR. split; [exact E|]. split; [exact W|]. split; [exact B|].
  destruct (C49_exact (fun e => e) 2 _ _ rR rR 1 1 half same_sound half_respects W W B B ltac:(lia)) as (H & EH & _ & _ & _ & SH).
  exists H. split; [exact EH|]. intros x. change [0; 0; 0; 1] with ([0; 0] ++ [0; 1]).
  rewrite (SH [0; 0] [0; 1] x) by (repeat (apply fits_cons; [lia|]); apply fits_nil). rewrite !S by (repeat (apply fits_cons; [lia|]); apply fits_nil). unfold rot_value. cbn [nth Rz]. rewrite RtoC_opp. reflexivity.
Qed.

(* ================================================================== *)
(** * C50: the series is the intensity *)

Definition row_of (D : list (string * list expr)) (inp out : pol) : list expr :=
  match dget (key inp out) D with Some r => r | None => [] end.

Lemma yields_intro ev expand prefix fs d q D : contracted_dict ev expand prefix fs d q 16 None = Ok D ->
  dkeys D = ["PP"; "PS"; "SP"; "SS"]%string -> (forall inp out, exists r, dget (key inp out) D = Some r /\ length r = 33) ->
  yields ev expand prefix fs d q (row_of D).
Proof.
  intros E K H. exists D. split; [exact E|]. split; [exact K|].
  assert (G : forall inp out, dget (key inp out) D = Some (row_of D inp out)).
  { intros inp out. unfold row_of. destruct (H inp out) as (r & X & _). rewrite X. reflexivity. }
  split; [exact G|]. intros srepr parse P.
  exists (dmap (map srepr) D), (mkff (dmap (mkrow true) D) 16). split; [unfold generate_contracted_fourier_transforms; rewrite E; reflexivity|].
  split; [|split; [reflexivity|]].
  - apply loaded_rows; auto. intros k r I.
    assert (X : exists inp out, key inp out = k).
    { assert (Ik : In k (dkeys D)) by (apply (in_map fst) in I; exact I). rewrite K in Ik. simpl in Ik.
      destruct Ik as [<-|[<-|[<-|[<-|[]]]]]; [exists Pin, Pin|exists Pin, Sin|exists Sin, Pin|exists Sin, Sin]; reflexivity. }
    destruct X as (inp & out & <-). destruct (H inp out) as (r' & X & L).
    assert (W : wf_dict D). { unfold wf_dict. rewrite K. repeat constructor; simpl; intuition discriminate. }
    apply (In_dget _ _ _ W) in I. rewrite I in X. injection X as <-. exact L.
  - intros inp out. unfold ff_get_pc, dgetr. cbn [ff_rows]. rewrite dget_dmap, G. reflexivity.
Qed.

Theorem C50_intensity : forall ev expand prefix fs d q, sound_ev ev -> good_tensors d q ->
  exists fs' row, generate_uncontracted_fourier_transforms_symb ev prefix 16 fs = Ok fs' /\ yields ev expand prefix fs' d q row /\
    forall inp out rho th, respects rho -> rho theta_sym = RtoC th ->
      length (row inp out) = 33 /\
      forall x, fseries 16 (map (eval rho) (row inp out)) (RtoC x) =
        RtoC (setup_intensity (fformgen_setup th) (val3 rho (Some d)) (val4 rho (Some q)) inp out x).
Proof.
  intros ev expand prefix fs d q EV (Sd & Sq & Rd & Rq).
  destruct (symb_transforms ev EV prefix fs) as (fs' & E & H). 
  destruct (contracted_rows ev expand EV rho1 0 prefix fs' d q rho1_respects (H rho1 0%R rho1_respects eq_refl) Sd Sq Rd Rq) as (D & ED & K & G).
  exists fs', (row_of D). split; [exact E|]. split.
  - apply yields_intro; auto. intros inp out. destruct (G inp out) as (r & X & L & _). exists r. split; auto.
  - intros inp out rho th R T.
    destruct (contracted_rows ev expand EV rho th prefix fs' d q R (H rho th R T) Sd Sq Rd Rq) as (D' & ED' & _ & G').
    rewrite ED in ED'. injection ED' as <-. destruct (G' inp out) as (r & X & RW). unfold row_of. rewrite X.
    split; [apply RW|]. apply (row_is_fseries rho 8). exact RW.
Qed.
Print Assumptions C50_intensity.

Theorem C50_intensity_numeric : forall ev expand aoi prefix fs d q, sound_ev ev -> good_tensors d q ->
  exists fs' row, generate_uncontracted_fourier_transforms ev aoi prefix 16 fs = Ok fs' /\ yields ev expand prefix fs' d q row /\
    forall inp out rho, respects rho ->
      length (row inp out) = 33 /\
      forall x, fseries 16 (map (eval rho) (row inp out)) (RtoC x) =
        RtoC (setup_intensity (fformgen_setup (Q2R aoi)) (val3 rho (Some d)) (val4 rho (Some q)) inp out x).
Proof.
  intros ev expand aoi prefix fs d q EV (Sd & Sq & Rd & Rq).
  destruct (num_transforms ev EV aoi prefix fs) as (fs' & E & H). 
  destruct (contracted_rows ev expand EV rho1 (Q2R aoi) prefix fs' d q rho1_respects (H rho1 rho1_respects) Sd Sq Rd Rq) as (D & ED & K & G).
  exists fs', (row_of D). split; [exact E|]. split.
  - apply yields_intro; auto. intros inp out. destruct (G inp out) as (r & X & L & _). exists r. split; auto.
  - intros inp out rho R.
    destruct (contracted_rows ev expand EV rho (Q2R aoi) prefix fs' d q R (H rho R) Sd Sq Rd Rq) as (D' & ED' & _ & G').
    rewrite ED in ED'. injection ED' as <-. destruct (G' inp out) as (r & X & RW). unfold row_of. rewrite X.
    split; [apply RW|]. apply (row_is_fseries rho 8). exact RW.
Qed.
Print Assumptions C50_intensity_numeric.

(** Parameters not declared real are refused, whatever the files; missing files are reported. *)
Theorem C50_refuses : forall ev expand prefix fs d q M nd,
  (~ (real_params (Some d) /\ real_params (Some q)) -> contracted_dict ev expand prefix fs d q M nd = Raise ValueError) /\
  (real_params (Some d) -> real_params (Some q) -> (exists inp out, dget (npy prefix (file_of inp out)) fs = None) ->
   contracted_dict ev expand prefix fs d q M nd = Raise FileNotFoundError).
Proof. intros. split; [apply contracted_not_real|apply contracted_no_file]. Qed.
Print Assumptions C50_refuses.

Lemma full_good : good_tensors full3 full4.
Proof. split; [reflexivity|]. split; [reflexivity|]. split; [exact full_real3|exact full_real4]. Qed.
Example C50_case : exists fs' row, generate_uncontracted_fourier_transforms_symb (fun e => e) "u" 16 [] = Ok fs' /\
  yields (fun e => e) (fun e => e) "u" fs' full3 full4 row /\ length (row Pin Sin) = 33.
Proof.
  destruct (C50_intensity (fun e => e) (fun e => e) "u" [] full3 full4 same_sound full_good) as (fs' & row & E & Y & H).
  exists fs', row. split; [exact E|]. split; [exact Y|]. apply (H Pin Sin half (1 / 2)%R half_respects eq_refl).
Qed.
Definition complex3 : tensor expr := mkT [3; 3; 3] (fun _ => ESym (mksym "x" None)).
Example C50_refuses_case : contracted_dict (fun e => e) (fun e => e) "u" [] complex3 full4 16 None = Raise ValueError /\
  contracted_dict (fun e => e) (fun e => e) "u" [] full3 full4 16 None = Raise FileNotFoundError.
Proof.
  split.
  - apply C50_refuses. intros [R _]. specialize (R [0; 0; 0] (mksym "x" None) (or_introl eq_refl) (or_introl eq_refl)). discriminate.
  - apply C50_refuses; [exact full_real3|exact full_real4|]. exists Pin, Pin. reflexivity.
Qed.

(* ================================================================== *)
(** * C51: against formgen *)

Lemma cell_fourier rho row m : length row = 33 -> In m (freqs 16) -> cell rho row m = fourier_coefficient (series_function rho row) m.
Proof.
  intros L I. rewrite (fourier_coefficient_ext _ (fun x => Csum (fun n => cell rho row n * cis (IZR n * x))%C (freqs 16)) m).
  - rewrite coefficient_trig by apply NoDup_freqs. destruct (in_dec Z.eq_dec m (freqs 16)); [reflexivity|contradiction].
  - intros x. unfold series_function. rewrite fseries_R, synth_series by (rewrite map_length; lia). unfold series.
    apply Csum_ext_in. intros n In_. f_equal. unfold coef, cell. rewrite <- (eval_num0 rho), map_nth. reflexivity.
Qed.

(** The Fourier formula is formgen's formula turned half way: its coefficients
    are formgen's times (-1)^m. *)
Theorem C51_half_turn : forall ev ex expand prefix fs d q, sound_ev ev -> sound_ev ex -> good_tensors d q ->
  phi_free (Some d) -> phi_free (Some q) ->
  exists fs' row F, generate_uncontracted_fourier_transforms_symb ev prefix 16 fs = Ok fs' /\ yields ev expand prefix fs' d q row /\
    formgen ev ex (ESym theta_sym) (Some d) None (Some q) = Ok F /\
    forall inp out, exists e, dget (key inp out) F = Some e /\ forall rho, respects rho ->
      (forall x, series_function rho (row inp out) x = eval (at_phi rho (x + PI)) e) /\
      (forall m, In m (freqs 16) ->
         cell rho (row inp out) m = (fourier_coefficient (fun y => eval (at_phi rho y) e) m * cis (IZR m * PI))%C).
Proof.
  intros ev ex expand prefix fs d q EV EX G Pd Pq. pose proof G as (Sd & Sq & Rd & Rq).
  destruct (C50_intensity ev expand prefix fs d q EV G) as (fs' & row & E & Y & V).
  assert (Sh : shapes (Some d) None (Some q)) by (repeat split; auto).
  destruct (proj1 (formgen_outcome ev ex EV (ESym theta_sym) (Some d) None (Some q) Sd I Sq)) as (F & HF).
  { split; [exact Rd|]. split; [exact I|]. split; [exact Rq|]. intros (X & _). discriminate. }
  exists fs', row, F. split; [exact E|]. split; [exact Y|]. split; [exact HF|]. intros inp out.
  destruct (formgen_denotes ev ex EV EX (ESym theta_sym) (Some d) None (Some q) F rho1 0 Sh HF rho1_respects eq_refl) as (_ & De).
  destruct (De inp out) as (e & X & _). exists e. split; [exact X|]. intros rho R.
  assert (T : exists th, rho theta_sym = RtoC th).
  { exists (Re (rho theta_sym)). pose proof (R theta_sym eq_refl) as H. apply C_ext; [reflexivity|exact H]. }
  destruct T as (th & T). destruct (V inp out rho th R T) as (L & Vx).
  assert (N : all_phi_free (ESym theta_sym) (Some d) None (Some q)).
  { split; [intros [Z|[]]; discriminate|]. split; [exact Pd|]. split; [exact I|exact Pq]. }
  assert (A : forall x, series_function rho (row inp out) x = eval (at_phi rho (x + PI)) e).
  { intros x. unfold series_function. rewrite Vx, intensity_half. symmetry.
    apply (formgen_function ev ex EV EX (ESym theta_sym) (Some d) None (Some q) F rho th inp out e Sh HF R T N X). }
  split; [exact A|]. intros m Im. rewrite cell_fourier by auto. rewrite (fourier_coefficient_ext _ _ m A).
  apply (tp_shift_coefficient 8 (fun y => eval (at_phi rho y) e)).
  apply (formgen_trigpoly ev ex EV EX (ESym theta_sym) (Some d) None (Some q) F rho th inp out e Sh HF R T N X).
Qed.
Print Assumptions C51_half_turn.

(** After turning the Fourier formula by pi, the coefficients are formgen's. *)
Theorem C51_turned_back : forall ev ex expand prefix fs d q a, sound_ev ev -> sound_ev ex -> good_tensors d q ->
  phi_free (Some d) -> phi_free (Some q) ->
  exists fs' row F, generate_uncontracted_fourier_transforms_symb ev prefix 16 fs = Ok fs' /\ yields ev expand prefix fs' d q row /\
    formgen ev ex (ESym theta_sym) (Some d) None (Some q) = Ok F /\
    forall G, ff_M G = 16 -> (forall inp out, ff_get_pc G (key inp out) = Ok (row inp out)) ->
    forall inp out, exists e r, dget (key inp out) F = Some e /\ ff_get_pc (ff_phase_shift ev G a) (key inp out) = Ok r /\
      forall rho, respects rho -> eval rho a = RtoC PI ->
      forall m, In m (freqs 16) -> cell rho r m = fourier_coefficient (fun y => eval (at_phi rho y) e) m.
Proof.
  intros ev ex expand prefix fs d q a EV EX Gd Pd Pq.
  destruct (C51_half_turn ev ex expand prefix fs d q EV EX Gd Pd Pq) as (fs' & row & F & E & Y & HF & H).
  destruct (C50_intensity ev expand prefix fs d q EV Gd) as (fs'' & row' & E' & Y' & V').
  assert (LL : forall inp out, length (row inp out) = 33).
  { intros inp out. rewrite E in E'. injection E' as <-. destruct Y as (D & ED & _ & GD & _), Y' as (D' & ED' & _ & GD' & _).
    rewrite ED in ED'. injection ED' as <-. specialize (GD inp out). specialize (GD' inp out). rewrite GD in GD'. injection GD' as GD'.
    rewrite GD'. apply (V' inp out rho1 0%R rho1_respects eq_refl). }
  exists fs', row, F. split; [exact E|]. split; [exact Y|]. split; [exact HF|]. intros G GM Gr inp out.
  destruct (H inp out) as (e & X & K). specialize (Gr inp out). unfold ff_get_pc, dgetr in Gr.
  destruct (dget (key inp out) (ff_rows G)) as [r0|] eqn:Eg; [|discriminate]. cbn [bind] in Gr. injection Gr as Er.
  exists e. eexists. split; [exact X|]. split.
  { unfold ff_get_pc, dgetr, ff_phase_shift, map_rows. cbn [ff_rows]. rewrite dget_dmap, Eg. cbn [option_map bind r_cells]. reflexivity. }
  intros rho R A m Hm. rewrite GM, Er. unfold cell.
  assert (Lr := LL inp out).
  assert (Hm' := Hm). apply In_freqs in Hm'.
  set (f := fun me : Z * expr => ev (EMul [snd me; cis_expr (fst me) a])).
  rewrite (nth_indep _ (num 0) (f (0%Z, num 0))) by (rewrite map_length, combine_length, length_freqs; lia).
  change (fun me => ev (EMul [snd me; cis_expr (fst me) a])) with f.
  rewrite (map_nth f), combine_nth by (rewrite length_freqs; lia). unfold f. cbn [fst snd].
  assert (Nf : nth (Z.to_nat (m + 16)) (freqs 16) 0%Z = m).
  { pose proof (nth_freqs (fun z => z) 16 m 0%Z Hm) as Q. rewrite map_id in Q. exact Q. }
  rewrite Nf. rewrite (proj1 EV) by auto.
  assert (Ci_ : eval rho (cis_expr m a) = cis (IZR m * PI)).
  { unfold cis_expr, zexpr, EI. cbn [eval map fold_right]. rewrite !eval_num, A.
    replace (Q2R (inject_Z m)) with (IZR m) by (unfold Q2R, inject_Z; simpl; field).
    rewrite Cmult_1_r, <- RtoC_mult, Ccos_R, Csin_R. unfold cis. rewrite Q2R_0', Q2R_1'.
    apply C_ext; unfold Re, Im; simpl; ring. }
  cbn [eval map fold_right]. rewrite Ci_.
  destruct (K rho R) as (_ & C). specialize (C m Hm). unfold cell in C. rewrite C.
  assert (P2 : (cis (IZR m * PI) * cis (IZR m * PI))%C = RtoC 1).
  { rewrite <- cis_plus. replace (IZR m * PI + IZR m * PI)%R with (IZR m * (2 * PI))%R by ring. apply cis_2pi_Z. }
  transitivity (fourier_coefficient (fun y => eval (at_phi rho y) e) m * (cis (IZR m * PI) * cis (IZR m * PI)))%C; [ring|].
  rewrite P2. ring.
Qed.
Print Assumptions C51_turned_back.

(** So the two do not agree as they stand: an odd harmonic changes sign. *)
Definition odd3 : tensor expr := mkT [3; 3; 3] (fun i => match i with [0; 0; 0] => num 1 | [2; 2; 2] => num 1 | _ => num 0 end).
Definition none4 : tensor expr := mkT [3; 3; 3; 3] (fun _ => num 0).
Lemma odd_good : good_tensors odd3 none4.
Proof.
  split; [reflexivity|]. split; [reflexivity|]. split.
  - intros i s _. cbn [odd3 at_]. destruct i as [|[|[|[|i0]]] i]; try intros []; destruct i as [|[|[|[|i1]]] i]; try intros [];
      destruct i as [|[|[|[|i2]]] i]; try intros []; destruct i; intros [].
  - intros i s _ [].
Qed.
Lemma odd_intensity rho th y : y = 0%R \/ y = PI ->
  intensity th (val3 rho (Some odd3)) (val3 rho None) (val4 rho (Some none4)) Pin Pin y = ((cos th ^ 3 * cos y + sin th ^ 3) ^ 2)%R.
Proof.
  intros Hy. assert (C1 : (cos y = 1 \/ cos y = -1)%R /\ sin y = 0%R).
  { destruct Hy as [-> | ->]; rewrite ?cos_0, ?sin_0, ?cos_PI, ?sin_PI; split; auto. }
  destruct C1 as (C2 & S0).
  unfold intensity. rewrite detected_p.
  assert (S : forall i, i < 3 -> source th (val3 rho (Some odd3)) (val3 rho None) (val4 rho (Some none4)) Pin y i =
    triple (RtoC (cos y * cos th ^ 2)) (RtoC 0) (RtoC (sin th ^ 2)) i).
  { intros i I.
    assert (V : forall l m n, l < 3 -> m < 3 -> n < 3 ->
      val3 rho (Some odd3) l m n = if (l =? 0) && (m =? 0) && (n =? 0) then RtoC 1 else if (l =? 2) && (m =? 2) && (n =? 2) then RtoC 1 else RtoC 0).
    { intros l m n L M N. cases3 l L; cases3 m M; cases3 n N; cbn [val3 odd3 at_ Nat.eqb andb]; rewrite ?eval_num0, ?eval_num1; reflexivity. }
    assert (T : forall i j k, i < 3 -> j < 3 -> k < 3 -> turned3 y (val3 rho (Some odd3)) i j k =
      (if (i =? 0) && (j =? 0) && (k =? 0) then RtoC (cos y) else if (i =? 2) && (j =? 2) && (k =? 2) then RtoC 1 else RtoC 0)).
    { intros a b c Ha Hb Hc. rewrite (turned3_ext y _ (fun l m n => if (l =? 0) && (m =? 0) && (n =? 0) then RtoC 1 else
        if (l =? 2) && (m =? 2) && (n =? 2) then RtoC 1 else RtoC 0)) by exact V.
      unfold turned3, sum3. cbn [Nat.eqb andb].
      cases3 a Ha; cases3 b Hb; cases3 c Hc; cbn [Rz Nat.eqb andb]; rewrite ?S0; destruct C2 as [C2 | C2]; rewrite ?C2; apply C_ext; unfold Re, Im; simpl; ring. }
    assert (Z : forall i j k, turned3 y (val3 rho None) i j k = RtoC 0) by (intros; unfold turned3, sum3; cbn [val3]; ring).
    assert (Z4 : forall i j k h, turned4 y (val4 rho (Some none4)) i j k h = RtoC 0).
    { intros. unfold turned4, sum3. cbn [val4 none4 at_]. rewrite eval_num0. ring. }
    unfold source, moment3, moment4, cross, triple, k_incident, field, sum3. cbv zeta. rewrite !T, !Z, !Z4 by lia. cbn [triple].
    cases3 i I; cbn [Nat.eqb andb]; apply C_ext; unfold Re, Im; simpl; ring. }
  unfold dot3, sum3, p_out, triple. rewrite !S by lia. cbn [triple].
  match goal with |- (Cmod ?z ^ 2)%R = _ => replace z with (RtoC (cos th ^ 3 * cos y + sin th ^ 3)%R) by (apply C_ext; unfold Re, Im; simpl; ring) end.
  rewrite Cmod_R, <- Rsqr_pow2, <- Rsqr_abs, Rsqr_pow2. ring.
Qed.

Theorem C51_refuted : forall ev ex expand prefix fs, sound_ev ev -> sound_ev ex ->
  exists d q fs' row F e rho, good_tensors d q /\ respects rho /\
    generate_uncontracted_fourier_transforms_symb ev prefix 16 fs = Ok fs' /\ yields ev expand prefix fs' d q row /\
    formgen ev ex (ESym theta_sym) (Some d) None (Some q) = Ok F /\ dget (key Pin Pin) F = Some e /\
    exists m, In m (freqs 16) /\ cell rho (row Pin Pin) m <> fourier_coefficient (fun y => eval (at_phi rho y) e) m.
Proof.
  intros ev ex expand prefix fs EV EX.
  assert (Pd : phi_free (Some odd3)).
  { intros i _. cbn [odd3 at_]. destruct i as [|[|[|[|i0]]] i]; try intros []; destruct i as [|[|[|[|i1]]] i]; try intros [];
      destruct i as [|[|[|[|i2]]] i]; try intros []; destruct i; intros []. }
  assert (Pq : phi_free (Some none4)) by (intros i _ []).
  destruct (C51_half_turn ev ex expand prefix fs odd3 none4 EV EX odd_good Pd Pq) as (fs' & row & F & E & Y & HF & H).
  destruct (H Pin Pin) as (e & X & K).
  assert (R : respects eighth) by (intros s _; reflexivity). destruct (K eighth R) as (A & C).
  exists odd3, none4, fs', row, F, e, eighth. split; [exact odd_good|]. split; [exact R|]. split; [exact E|]. split; [exact Y|].
  split; [exact HF|]. split; [exact X|].
  assert (Sh : shapes (Some odd3) None (Some none4)) by (repeat split).
  assert (N : all_phi_free (ESym theta_sym) (Some odd3) None (Some none4)).
  { split; [intros [Z|[]]; discriminate|]. split; [exact Pd|]. split; [exact I|exact Pq]. }
  pose proof (formgen_function ev ex EV EX (ESym theta_sym) (Some odd3) None (Some none4) F eighth (PI / 4) Pin Pin e Sh HF R eq_refl N X) as V.
  destruct (Forall_Exists_dec (fun m => cell eighth (row Pin Pin) m = fourier_coefficient (fun y => eval (at_phi eighth y) e) m)
    (fun m => Ceq_dec _ _) (freqs 16)) as [All|Ex].
  - exfalso.
    assert (Q : eval (at_phi eighth (0 + PI)) e = eval (at_phi eighth 0) e).
    { rewrite <- A. rewrite Forall_forall in All. 
      assert (L : length (row Pin Pin) = 33).
      { destruct Y as (D & ED & KD & GD & PD). destruct (C50_intensity ev expand prefix fs odd3 none4 EV odd_good) as (fs2 & row2 & E2 & Y2 & V2).
        rewrite E in E2. injection E2 as <-. destruct Y2 as (D2 & ED2 & _ & GD2 & _). rewrite ED in ED2. injection ED2 as <-.
        specialize (GD Pin Pin). specialize (GD2 Pin Pin). rewrite GD in GD2. injection GD2 as ->.
        apply (V2 Pin Pin rho1 0%R rho1_respects eq_refl). }
      assert (T : trigpoly 16 (fun y => eval (at_phi eighth y) e)).
      { apply (tp_le 8); [lia|].
        apply (formgen_trigpoly ev ex EV EX (ESym theta_sym) (Some odd3) None (Some none4) F eighth (PI / 4) Pin Pin e Sh HF R eq_refl N X). }
      rewrite (tp_expand 16 _ T 0%R). unfold series_function. rewrite fseries_R, synth_series by (rewrite map_length; lia).
      unfold series. apply Csum_ext_in. intros m Im. f_equal. rewrite <- (All m Im). unfold cell, coef. rewrite <- (eval_num0 eighth), map_nth. reflexivity. }
    rewrite !V in Q. apply RtoC_inj in Q. rewrite Rplus_0_l in Q. rewrite !odd_intensity in Q by auto.
    rewrite cos_PI, cos_0 in Q. 
    assert (P1 : (0 < cos (PI / 4))%R) by (apply cos_gt_0; pose proof PI_RGT_0; lra).
    assert (P2 : (0 < sin (PI / 4))%R) by (apply sin_gt_0; pose proof PI_RGT_0; lra).
    set (c := cos (PI / 4)) in *. set (s := sin (PI / 4)) in *.
    assert (c3 : (0 < c ^ 3)%R) by (apply pow_lt; auto). assert (s3 : (0 < s ^ 3)%R) by (apply pow_lt; auto).
    nra.
  - apply Exists_exists in Ex as (m & Im & Nm). exists m. split; auto.
Qed.
Print Assumptions C51_refuted.

(* ================================================================== *)
(** * C64: other orders *)

(** The order is not really an argument: 0 and everything above 16 fails. *)
Theorem C64_fails : forall ev aoi prefix M fs, (M = 0 \/ 16 < M) ->
  generate_uncontracted_fourier_transforms_symb ev prefix M fs = Raise IndexError /\
  generate_uncontracted_fourier_transforms ev aoi prefix M fs = Raise IndexError.
Proof.
  intros ev aoi prefix M fs [->|H]; [split; reflexivity|]. split; apply generate_large; auto.
Qed.
Print Assumptions C64_fails.

(** From 1 to 15 the formula returned has the documented length but every
    coefficient of frequency -4 or more is zero, whatever the tensors; below 15
    all coefficients are. *)
Theorem C64_small : forall ev expand prefix M fs d q, sound_ev ev -> 1 <= M <= 15 -> good_tensors d q ->
  exists fs' D, generate_uncontracted_fourier_transforms_symb ev prefix M fs = Ok fs' /\
    contracted_dict ev expand prefix fs' d q M None = Ok D /\ dkeys D = ["PP"; "PS"; "SP"; "SS"]%string /\
    forall k r, dget k D = Some r -> length r = 2 * M + 1 /\
      forall rho n, respects rho -> In n (freqs M) -> (-4 <= n \/ Z.of_nat M <= 14)%Z ->
        eval rho (nth (Z.to_nat (n + Z.of_nat M)) r (num 0)) = RtoC 0.
Proof.
  intros ev expand prefix M fs d q EV HM (Sd & Sq & Rd & Rq).
  destruct (small_orders ev EV expand prefix M fs d q HM Sd Sq Rd Rq) as (fs' & D & E & ED & K & H).
  exists fs', D. split; [exact E|]. split; [exact ED|]. split; [exact K|]. intros k r G.
  destruct (H k r G) as (L & Z). split; [exact L|]. intros rho n R I C. apply In_freqs in I. apply Z; auto. lia.
Qed.
Print Assumptions C64_small.

(** Hence the claim that the order may be chosen fails: for no order from 1 to 15
    is the mean intensity right, for a tensor whose mean intensity is not zero. *)
Theorem C64_refuted : forall ev expand prefix M fs, sound_ev ev -> 1 <= M <= 15 ->
  exists d q fs' D r rho th, good_tensors d q /\ respects rho /\ rho theta_sym = RtoC th /\
    generate_uncontracted_fourier_transforms_symb ev prefix M fs = Ok fs' /\
    contracted_dict ev expand prefix fs' d q M None = Ok D /\ dget (key Pin Pin) D = Some r /\
    eval rho (nth M r (num 0)) = RtoC 0 /\
    fourier_coefficient (fun x => RtoC (setup_intensity (fformgen_setup th) (val3 rho (Some d)) (val4 rho (Some q)) Pin Pin x)) 0 <> RtoC 0.
Proof.
  intros ev expand prefix M fs EV HM.
  assert (G : good_tensors only3 none4).
  { split; [reflexivity|]. split; [reflexivity|]. split.
    - intros i s _. cbn [only3 at_]. destruct i as [|[|i0] i]; try intros []; destruct i as [|[|i1] i]; try intros [];
        destruct i as [|[|i2] i]; try intros []; destruct i; intros [].
    - intros i s _ []. }
  destruct (C64_small ev expand prefix M fs only3 none4 EV HM G) as (fs' & D & E & ED & K & H).
  assert (X : exists r, dget (key Pin Pin) D = Some r).
  { destruct (dget (key Pin Pin) D) as [r|] eqn:Ed; [eauto|]. apply dget_None in Ed. rewrite K in Ed. exfalso. apply Ed. left. reflexivity. }
  destruct X as (r & X). destruct (H _ r X) as (L & Z).
  assert (R : respects eighth) by (intros s _; reflexivity).
  exists only3, none4, fs', D, r, eighth, (PI / 4)%R. split; [exact G|]. split; [exact R|]. split; [reflexivity|].
  split; [exact E|]. split; [exact ED|]. split; [exact X|]. split.
  - pose proof (Z eighth 0%Z R ltac:(apply In_freqs; lia) ltac:(lia)) as Z0. rewrite Z.add_0_l, Nat2Z.id in Z0. exact Z0.
  - intros F0.
    assert (P : (0 < cos (PI / 4))%R) by (apply cos_gt_0; pose proof PI_RGT_0; lra).
    assert (V : forall x, RtoC (setup_intensity (fformgen_setup (PI / 4)) (val3 eighth (Some only3)) (val4 eighth (Some none4)) Pin Pin x) =
      (RtoC (cos (PI / 4) ^ 6) * RtoC (cos x ^ 6))%C).
    { intros x. rewrite intensity_half, <- RtoC_mult. f_equal.
      transitivity (intensity (PI / 4) (val3 eighth (Some only3)) (val3 eighth None) (val4 eighth None) Pin Pin (x + PI)).
      - apply intensity_ext; intros; try reflexivity. cbn [val4 none4 at_]. apply eval_num0.
      - rewrite only3_intensity, neg_cos. ring. }
    rewrite (fourier_coefficient_ext _ _ 0 V) in F0.
    rewrite (tp_scale_coefficient 6 _ (fun x => RtoC (cos x ^ 6)) 0 (tp_cos_pow 6)) in F0.
    apply Cmult_zero in F0 as [F0|F0].
    + apply RtoC_inj in F0. pose proof (pow_lt _ 6 P). lra.
    + destruct (table_has 6 0) as [l El]; [lia|]. destruct (C22_entries 6 0 l 0 El) as (v & Ev & Hv); [lia|].
      rewrite (fourier_coefficient_ext (fun x => RtoC (cos x ^ 6)) (fun x => RtoC (cos x ^ 6 * sin x ^ 0)) 0) in F0
        by (intros; f_equal; simpl; ring).
      rewrite <- Hv in F0. vm_compute in El. injection El as <-. vm_compute in Ev. injection Ev as <-.
      apply (f_equal Re) in F0. unfold qval, Q2R, Re in F0. simpl in F0. lra.
Qed.
Print Assumptions C64_refuted.

Example C64_case : 1 <= 8 <= 15 /\ good_tensors full3 full4.
Proof. split; [lia|exact full_good]. Qed.
