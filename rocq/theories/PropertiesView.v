(** Properties C78-C80: tables of formulas, rounded formulas.  Beside each theorem
    a concrete case. *)
From Coq Require Import String List Arith ZArith Bool Lia Reals QArith Qreals Lra.
From Coquelicot Require Import Complex.
Import ListNotations.
From Verif Require Import PyBase CBase Expr ExprProofs DataModel FDataModel FDataProofs SpecFData FormModel SpecForm FormProofs FormProofs2 FormProofs3 PipeProofs
  MiscModel ViewModel SpecView ViewProofs FformgenModel SpecRound RoundProofs RoundThms FourierBase UtilModel SpecFormgen SpecFformgen FformgenProofs FformgenThms PropertiesForm PropertiesFormgen PropertiesFformgen.
From Verif Require Import SpecTensor TensorModel.
Local Open Scope nat_scope.

(* ================================================================== *)
(** * C78 *)

(** One row for each polarization and frequency, in order, with the formula of
    that coefficient; the same rows with either index. *)
Theorem C78_fourier : forall ev F, ff_reachable ev F -> exists T,
  (forall index, (index = "multi" \/ index = "none")%string -> ff_as_pandas F index = Ok T) /\
  map fst T = labels F /\ NoDup (map fst T) /\ forall k m e, In (k, m, e) T <-> formula_of F k m e.
Proof.
  intros ev F R. apply ff_reachable_wf in R. exists (flat_map (block (ff_M F)) (ff_rows F)).
  split; [intros index [-> | ->]; [apply ff_table_multi|apply ff_table_none]; auto|].
  split; [apply table_labels; auto|]. split; [rewrite table_labels by auto; apply labels_NoDup; auto|].
  intros. apply table_In; auto.
Qed.
Print Assumptions C78_fourier.

Theorem C78_form : forall it f, form_construct it = Ok f -> exists T,
  (forall index, (index = "multi" \/ index = "none")%string -> form_as_pandas f index = Ok T) /\
  map fst T = dkeys f /\ NoDup (map fst T) /\ forall k e, In (k, e) T <-> form_get_pc f k = Ok e.
Proof.
  intros it f C. apply form_construct_inv in C as W. exists f. split; [intros; apply form_table; auto|].
  split; [reflexivity|]. split; [exact W|]. intros k e. unfold form_get_pc, dgetr. split.
  - intros I. rewrite (In_dget _ _ _ W I). reflexivity.
  - destruct (dget k f) eqn:E; [|discriminate]. intros X. injection X as ->. apply dget_In; auto.
Qed.
Print Assumptions C78_form.

(** Containers of the same order with the same table hold the same formulas. *)
Theorem C78_faithful : forall ev F G T, ff_reachable ev F -> ff_reachable ev G -> ff_M F = ff_M G ->
  ff_as_pandas F "multi" = Ok T -> ff_as_pandas G "multi" = Ok T ->
  ff_get_keys F = ff_get_keys G /\ forall k, ff_get_pc F k = ff_get_pc G k.
Proof.
  intros ev F G T RF RG EM TF TG. apply ff_reachable_wf in RF, RG. pose proof TF as TF'. pose proof TG as TG'.
  rewrite ff_table_multi in TF, TG by auto. injection TF as TF. injection TG as TG.
  pose proof (table_labels F RF) as LF. pose proof (table_labels G RG) as LG. rewrite TF in LF. rewrite TG in LG. rewrite LF in LG.
  assert (K : ff_get_keys F = ff_get_keys G).
  { revert LG. unfold labels. rewrite EM. generalize (ff_get_keys F) as a. generalize (ff_get_keys G) as b.
    pose proof (length_freqs (ff_M G)) as L. destruct (freqs (ff_M G)) as [|m ms]; [simpl in L; lia|]. clear.
    intros b a. revert b. induction a as [|x a IH]; intros [|y b] H; cbn [list_prod] in H; auto; try discriminate.
    injection H as E H. assert (Hb : forall l1 l2 : list (string * Z), (map (pair x) ms ++ l1 = map (pair x) ms ++ l2)%list -> l1 = l2) by (intros; apply (app_inv_head _ _ _ H0)).
    subst y. apply Hb in H. f_equal. apply IH. exact H. }
  split; [exact K|]. intros k.
  destruct (ff_get_pc F k) as [v|e] eqn:E1, (ff_get_pc G k) as [w|e'] eqn:E2.
  - f_equal. assert (L1 : length v = 2 * ff_M F + 1).
    { unfold ff_get_pc, dgetr in E1. destruct (dget k (ff_rows F)) as [r|] eqn:D; [|discriminate]. injection E1 as <-. apply (proj2 RF k r). apply dget_In; auto. }
    assert (L2 : length w = 2 * ff_M F + 1).
    { unfold ff_get_pc, dgetr in E2. destruct (dget k (ff_rows G)) as [r|] eqn:D; [|discriminate]. injection E2 as <-. rewrite EM. apply (proj2 RG k r). apply dget_In; auto. }
    apply (nth_ext _ _ (num 0) (num 0)); [congruence|]. intros i I. rewrite L1 in I.
    assert (X : formula_of F k (Z.of_nat i - Z.of_nat (ff_M F)) (nth i v (num 0))).
    { exists v. split; [exact E1|]. split; [lia|]. replace (Z.to_nat _) with i by lia. apply nth_error_nth'. lia. }
    apply (table_In F k _ _ RF) in X. rewrite TF, <- TG in X. apply (table_In G k _ _ RG) in X as (w' & E3 & _ & X).
    rewrite E2 in E3. injection E3 as <-. rewrite <- EM in X. replace (Z.to_nat _) with i in X by lia. symmetry. apply nth_error_nth. exact X.
  - exfalso. unfold ff_get_pc, dgetr in E1, E2. unfold ff_get_keys in K.
    destruct (dget k (ff_rows F)) eqn:D1; [|discriminate]. destruct (dget k (ff_rows G)) eqn:D2; [discriminate|].
    apply dget_None in D2. apply D2. unfold dkeys in *. rewrite <- K. apply dget_In in D1. apply (in_map fst) in D1. exact D1.
  - exfalso. unfold ff_get_pc, dgetr in E1, E2. unfold ff_get_keys in K.
    destruct (dget k (ff_rows G)) eqn:D1; [|discriminate]. destruct (dget k (ff_rows F)) eqn:D2; [discriminate|].
    apply dget_None in D2. apply D2. unfold dkeys in *. rewrite K. apply dget_In in D1. apply (in_map fst) in D1. exact D1.
  - unfold ff_get_pc, dgetr in E1, E2. destruct (dget k (ff_rows F)); [discriminate|]. destruct (dget k (ff_rows G)); [discriminate|].
    simpl in E1, E2. congruence.
Qed.
Print Assumptions C78_faithful.

Theorem C78_unknown : forall F f index, index <> "multi"%string -> index <> "none"%string ->
  ff_as_pandas F index = Raise UnboundLocalError /\ form_as_pandas f index = Raise UnboundLocalError.
Proof.
  intros F f index N1 N2. unfold ff_as_pandas, form_as_pandas.
  destruct (String.eqb_spec index "multi"); [contradiction|]. destruct (String.eqb_spec index "none"); [contradiction|]. split; reflexivity.
Qed.
Print Assumptions C78_unknown.

Example C78_case : exists F, ff_reachable (fun e => e) F /\
  ff_as_pandas F "multi" = Ok [("PP"%string, (-1)%Z, A_); ("PP"%string, 0%Z, num 2); ("PP"%string, 1%Z, A_)].
Proof.
  exists (mkff [("PP"%string, mkrow true [A_; num 2; A_])] 1). split; [|reflexivity].
  exists [(KStr "PP", OArr true 1 [SymE A_; SymE (num 2); SymE A_])], 1, (mkff [("PP"%string, mkrow true [A_; num 2; A_])] 1), [].
  split; reflexivity.
Qed.

(* ================================================================== *)
(** * C79 *)

(** The file written with [ndigits]: the same polarizations and orders, each entry
    the rounded one of the file written without. *)
Theorem C79_entries : forall ev expand prefix fs d q M nd,
  contracted_dict ev expand prefix fs d q M (Some nd) =
  do D <- contracted_dict ev expand prefix fs d q M None; Ok (dmap (map (round_expr ev expand nd)) D).
Proof. exact contracted_rounded. Qed.
Print Assumptions C79_entries.

(** Each coefficient of an expanded entry moves by at most half a unit of the
    last digit in its real and in its imaginary part. *)
Theorem C79_bound : forall ev expand nd e ts rho, sound_ev ev -> sound_ev expand -> respects rho -> expanded_as nd (expand e) ts ->
  (Cmod (Cminus (eval rho (round_expr ev expand nd e)) (eval rho e)) <= 2 * half_unit nd * spread rho ts)%R.
Proof.
  intros ev expand nd e ts rho EV EX R H. unfold round_expr. rewrite (proj1 EV) by auto. rewrite <- (proj1 EX rho e R).
  apply expanded_error; auto; [pose proof (half_unit_pos nd); lra|]. intros. apply any_coefficient.
Qed.
Print Assumptions C79_bound.

(** Half of that when each coefficient is real or imaginary. *)
Theorem C79_bound_axis : forall ev expand nd e ts rho, sound_ev ev -> sound_ev expand -> respects rho -> expanded_as nd (expand e) ts ->
  (forall a b fs, In ((a, b), fs) ts -> (a == 0)%Q \/ (b == 0)%Q) ->
  (Cmod (Cminus (eval rho (round_expr ev expand nd e)) (eval rho e)) <= half_unit nd * spread rho ts)%R.
Proof.
  intros ev expand nd e ts rho EV EX R H A. unfold round_expr. rewrite (proj1 EV) by auto. rewrite <- (proj1 EX rho e R).
  apply expanded_error; auto; [pose proof (half_unit_pos nd); lra|]. intros [a b] fs I.
  destruct (A a b fs I); [apply imaginary_coefficient|apply real_coefficient]; auto.
Qed.
Print Assumptions C79_bound_axis.

(** Nothing changes when every number fits in the digits kept; rounding again
    changes nothing. *)
Theorem C79_short : forall ev expand nd e rho, sound_ev ev -> sound_ev expand -> respects rho -> short_numbers nd (expand e) ->
  eval rho (round_expr ev expand nd e) = eval rho e.
Proof.
  intros ev expand nd e rho EV EX R H. unfold round_expr. rewrite (proj1 EV) by auto. rewrite round_short by auto. apply (proj1 EX); auto.
Qed.
Print Assumptions C79_short.

Theorem C79_output_short : forall nd e, short_numbers nd (round_numbers nd e).
Proof. exact round_is_short. Qed.
Print Assumptions C79_output_short.

(** Exactly: every number becomes the nearest decimal, the even one of two equally
    near, and nothing else in the expanded expression changes; this determines the
    numbers. *)
Theorem C79_numbers : forall nd e, renumbered (nearest_even nd) e (round_numbers nd e).
Proof. exact round_renumbers. Qed.
Print Assumptions C79_numbers.
Theorem C79_determined : forall nd q r r', nearest_even nd q r -> nearest_even nd q r' -> (r == r')%Q.
Proof. exact nearest_even_unique. Qed.
Print Assumptions C79_determined.
Example C79_ties : round_numbers 1 (ENum (25 # 100) (-35 # 100)) = ENum (inject_Z 2 / inject_Z 10) (inject_Z (-4) / inject_Z 10).
Proof. reflexivity. Qed.

Theorem C79_symbols : forall ev expand nd e, sound_ev ev -> sound_ev expand -> incl (syms (round_expr ev expand nd e)) (syms e).
Proof.
  intros ev expand nd e EV EX s I. unfold round_expr in I. apply (proj2 EV) in I. rewrite round_syms in I. apply (proj2 EX) in I. exact I.
Qed.
Print Assumptions C79_symbols.

(** The intensities of a rounded file, against the experiment. *)
Theorem C79_intensity : forall ev expand prefix fs d q nd, sound_ev ev -> sound_ev expand -> good_tensors d q ->
  exists fs' D D', generate_uncontracted_fourier_transforms_symb ev prefix 16 fs = Ok fs' /\
    contracted_dict ev expand prefix fs' d q 16 None = Ok D /\ contracted_dict ev expand prefix fs' d q 16 (Some nd) = Ok D' /\
    dkeys D' = dkeys D /\
    forall inp out, exists r r', dget (key inp out) D = Some r /\ dget (key inp out) D' = Some r' /\ length r' = 33 /\
    forall tss rho th, Forall2 (fun e ts => expanded_as nd (expand e) ts) r tss -> respects rho -> rho theta_sym = RtoC th ->
    forall x, (Cmod (Cminus (fseries 16 (map (eval rho) r') (RtoC x))
                       (RtoC (setup_intensity (fformgen_setup th) (val3 rho (Some d)) (val4 rho (Some q)) inp out x)))
               <= 2 * half_unit nd * fold_right Rplus 0 (map (spread rho) tss))%R.
Proof.
  intros ev expand prefix fs d q nd EV EX G.
  destruct (C50_intensity ev expand prefix fs d q EV G) as (fs' & row & E & (D & ED & KD & GD & _) & V).
  exists fs', D, (dmap (map (round_expr ev expand nd)) D). split; [exact E|]. split; [exact ED|].
  split; [rewrite C79_entries, ED; reflexivity|]. split; [apply dkeys_dmap|].
  intros inp out. exists (row inp out), (map (round_expr ev expand nd) (row inp out)). split; [apply GD|].
  split; [rewrite dget_dmap, GD; reflexivity|].
  destruct (V inp out rho1 0%R rho1_respects eq_refl) as (L & _). split; [rewrite map_length; exact L|].
  intros tss rho th F R T x. destruct (V inp out rho th R T) as (_ & S). rewrite <- S.
  unfold fseries. apply series_error; [rewrite length_freqs, L; reflexivity|].
  clear - EV EX R F. induction F; constructor; auto. apply C79_bound; auto.
Qed.
Print Assumptions C79_intensity.

(** 0.126 a^2 + 0.5 i a, rounded to two digits *)
Definition small_entry : expr := EAdd [EMul [ENum (126 # 1000) 0; EPow A_ 2]; EMul [ENum 0 (1 # 2); A_]].
Example C79_case : expanded_as 2 small_entry [((126 # 1000, 0%Q), [EPow A_ 2]); ((0%Q, 1 # 2), [A_])] /\
  round_expr (fun e => e) (fun e => e) 2 small_entry = EAdd [EMul [ENum (13 # 100) (0 # 100); EPow A_ 2]; EMul [ENum (0 # 100) (50 # 100); A_]].
Proof.
  split; [|reflexivity]. split; [reflexivity|]. intros c fs f [E|[E|[]]]; injection E as _ <-; intros [<-|[]]; repeat constructor.
Qed.
Example C79_short_case : short_numbers 2 (EMul [ENum (3 # 4) 0; A_]) /\ ~ short 1 (3 # 4).
Proof.
  split.
  - constructor. intros e [<-|[<-|[]]]; constructor; [exists 75%Z|exists 0%Z]; reflexivity.
  - intros [z E]. unfold Qeq in E. simpl in E. lia.
Qed.

(* ================================================================== *)
(** * C80 *)

(** Rounded intensities can be negative: a crystal with the one element yyy, both
    polarizers at S, two digits, a quarter turn. *)
Theorem C80_negative_refuted : forall ev prefix fs, sound_ev ev ->
  exists d q fs' expand D0 D r0 r rho x, good_tensors d q /\ sound_ev expand /\
    generate_uncontracted_fourier_transforms_symb ev prefix 16 fs = Ok fs' /\
    contracted_dict ev expand prefix fs' d q 16 None = Ok D0 /\ dget (key Sin Sin) D0 = Some r0 /\
    (exists tss, Forall2 (fun e ts => expanded_as 2 (expand e) ts) r0 tss) /\
    contracted_dict ev expand prefix fs' d q 16 (Some 2) = Ok D /\ dget (key Sin Sin) D = Some r /\ respects rho /\
    (Re (fseries 16 (map (eval rho) r) (RtoC x)) < 0)%R.
Proof.
  intros ev prefix fs EV.
  destruct (C50_intensity ev (fun e => e) prefix fs only_yyy no_quad EV only_yyy_good) as (fs' & row & E & (D & ED & KD & GD & _) & W).
  set (r := row Sin Sin).
  assert (L : length r = 33) by apply (W Sin Sin rho1 0%R rho1_respects eq_refl).
  assert (V : forall rho m, respects rho -> In m (freqs 16) -> cell rho r m = Cmult (RtoC (Q2R (c6 m))) (Cpow (rho yyy) 2)).
  { intros rho m R I.
    assert (T : rho theta_sym = RtoC (Re (rho theta_sym))) by (apply C_ext; [reflexivity|apply R; reflexivity]).
    assert (Y : rho yyy = RtoC (Re (rho yyy))) by (apply C_ext; [reflexivity|apply R; reflexivity]).
    destruct (W Sin Sin rho _ R T) as (_ & S).
    rewrite (cell_fourier rho r m L I).
    rewrite (fourier_coefficient_ext _ (fun x => Csum (fun n => Cmult (Cmult (RtoC (Q2R (c6 n))) (Cpow (rho yyy) 2)) (cis (IZR n * x))) (freqs 16)) m).
    - rewrite coefficient_trig by apply NoDup_freqs. destruct (in_dec Z.eq_dec m (freqs 16)); [reflexivity|contradiction].
    - intros x. unfold series_function, r. rewrite S. rewrite (yyy_intensity _ _ x _ Y).
      transitivity (Cmult (Cpow (rho yyy) 2) (Csum (fun n => Cmult (RtoC (Q2R (c6 n))) (cis (IZR n * x))) (freqs 16))).
      + rewrite cos6, Y. apply C_ext; unfold Re, Im; simpl; ring.
      + rewrite <- Csum_mult_l. apply Csum_ext_in. intros n _. ring. }
  assert (ED' : contracted_dict ev (expand6 r) prefix fs' only_yyy no_quad 16 None = Ok D) by exact ED.
  set (rho := fun _ : sym => RtoC 1). assert (R : respects rho) by (intros s _; reflexivity).
  exists only_yyy, no_quad, fs', (expand6 r), D, (dmap (map (round_expr ev (expand6 r) 2)) D), r, (map (round_expr ev (expand6 r) 2) r), rho, (PI / 2)%R.
  assert (GD' : dget (key Sin Sin) (dmap (map (round_expr ev (expand6 r) 2)) D) = Some (map (round_expr ev (expand6 r) 2) r)) by (rewrite dget_dmap, GD; reflexivity).
  split; [exact only_yyy_good|]. split; [apply expand6_sound; auto|]. split; [exact E|].
  split; [exact ED'|]. split; [apply GD|]. split; [apply expand6_expanded; auto|].
  split; [rewrite C79_entries, ED'; reflexivity|]. split; [exact GD'|]. split; [exact R|].
  { rewrite fseries_R, synth_series by (rewrite !map_length; exact L). unfold series.
    rewrite (Csum_ext_in _ (fun m => Cmult (RtoC (Q2R (qround 2 (c6 m)))) (cis (IZR m * (PI / 2))))).
    + rewrite rounded_value. unfold Re, RtoC. cbn [fst]. lra.
    + intros m I. f_equal. unfold coef. rewrite map_map.
      rewrite (nth_indep _ _ (eval rho (round_expr ev (expand6 r) 2 (num 0)))) by (rewrite map_length, L; apply In_freqs in I; lia).
      rewrite (map_nth (fun e => eval rho (round_expr ev (expand6 r) 2 e))). rewrite expand6_rounded; auto.
      unfold rho. apply C_ext; unfold Re, Im; simpl; ring. }
Qed.
Print Assumptions C80_negative_refuted.

(** How negative: not below the error bound. *)
Theorem C80_bound_partial : forall ev expand prefix fs d q nd, sound_ev ev -> sound_ev expand -> good_tensors d q ->
  exists fs' D D', generate_uncontracted_fourier_transforms_symb ev prefix 16 fs = Ok fs' /\
    contracted_dict ev expand prefix fs' d q 16 None = Ok D /\ contracted_dict ev expand prefix fs' d q 16 (Some nd) = Ok D' /\
    forall inp out, exists r r', dget (key inp out) D = Some r /\ dget (key inp out) D' = Some r' /\
    forall tss rho th, Forall2 (fun e ts => expanded_as nd (expand e) ts) r tss -> respects rho -> rho theta_sym = RtoC th ->
    forall x, (- (2 * half_unit nd * fold_right Rplus 0 (map (spread rho) tss)) <= Re (fseries 16 (map (eval rho) r') (RtoC x)))%R.
Proof.
  intros ev expand prefix fs d q nd EV EX G.
  destruct (C79_intensity ev expand prefix fs d q nd EV EX G) as (fs' & D & D' & E & ED & ED' & _ & H).
  exists fs', D, D'. split; [exact E|]. split; [exact ED|]. split; [exact ED'|]. intros inp out.
  destruct (H inp out) as (r & r' & X & X' & _ & B). exists r, r'. split; [exact X|]. split; [exact X'|].
  intros tss rho th F R T x. specialize (B tss rho th F R T x).
  set (I := setup_intensity _ _ _ _ _ _) in *. assert (P : (0 <= I)%R).
  { unfold I, setup_intensity, detected. destruct out; [apply Rplus_le_le_0_compat|]; apply pow2_ge_0. }
  set (z := fseries 16 _ _) in *. pose proof (Rmax_Cmod (Cminus z (RtoC I))) as M.
  assert (Q : (Rabs (Re z - I) <= Cmod (Cminus z (RtoC I)))%R).
  { eapply Rle_trans; [|exact M]. eapply Rle_trans; [|apply Rmax_l]. right. f_equal. }
  pose proof (Rle_abs (- (Re z - I))) as A. rewrite Rabs_Ropp in A. lra.
Qed.
Print Assumptions C80_bound_partial.
