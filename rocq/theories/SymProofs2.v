(** Proofs for C87: the overall sign and phase of the tensors cannot be fitted. *)
From Coq Require Import String List Arith ZArith Bool Lia Reals QArith Qreals Lra.
From Coquelicot Require Import Complex.
Import ListNotations.
From Verif Require Import PyBase DataProofs2 CBase FourierBase Expr ExprProofs SpecForm SpecFData FDataModel FDataProofs FormModel FormProofs3 LookupTable TableProofs
  TensorInst TensorProofs UtilModel SpecUtil UtilProofs SpecFormgen TrigPoly FormgenModel FformgenModel SpecFformgen TensorDefs SpecGroups
  FormgenProofs FormgenProofs2 FormgenProofs3 FormgenProofs4 FormgenPhys FormgenThms FormgenThms2 FormgenTables
  FformgenProofs FformgenProofs2 FformgenProofs3 FformgenProofs4 FformgenProofs5 FformgenThms PropertiesFformgen SpecPhys PhysProofs PhysThms
  FitModel SpecFit FitProofs FitProofs2 FitProofs3.
From Verif Require Import SpecTensor TensorModel.
Local Open Scope nat_scope.

(** ** Linear entries *)
Fixpoint linear (e : expr) : bool :=
  match e with
  | ENum a b => Qeq_bool a 0 && Qeq_bool b 0
  | ESym _ => true
  | EAdd l => (fix go l := match l with [] => true | a :: l' => linear a && go l' end) l
  | EMul [ENum _ _; e] => linear e
  | _ => false
  end.

Lemma linear_odd rho rho' (c : C) e : (forall s, In s (syms e) -> rho' s = (c * rho s)%C) -> linear e = true -> eval rho' e = (c * eval rho e)%C.
Proof.
  induction e as [a b|y|l IH|l IH|b n IH|e IH|e IH|e IH|e IH|e IH] using expr_ind'; intros H L; try discriminate.
  - cbn in L. apply andb_true_iff in L as [A B]. apply Qeq_bool_iff, Qeq_eqR in A. apply Qeq_bool_iff, Qeq_eqR in B.
    cbn [eval]. rewrite A, B. rewrite RMicromega.Q2R_0. apply C_ext; unfold Re, Im; simpl; ring.
  - apply H. left. reflexivity.
  - rewrite !ExprProofs.eval_add. induction IH as [|x l Hx F IHl]; [cbn; ring|].
    cbn [linear] in L. apply andb_true_iff in L as [L1 L2]. cbn [map fold_right]. rewrite Hx, IHl; [ring| | |  |exact L1].
    + intros s I. apply H. cbn [syms flat_map]. apply in_app_iff. right. exact I.
    + exact L2.
    + intros s I. apply H. cbn [syms flat_map]. apply in_app_iff. left. exact I.
  - destruct l as [|[a b| | | | | | | | |] [|x [|]]]; try discriminate. cbn [linear] in L.
    rewrite !ExprProofs.eval_mul. cbn [map fold_right]. apply Forall_inv_tail, Forall_inv in IH. rewrite IH; [cbn [eval]; ring| |exact L].
    intros s I. apply H. cbn. rewrite app_nil_r. exact I.
Qed.

Definition linear_table (table : list (string * list expr)) : bool := forallb (fun kv => forallb linear (snd kv)) table.
Lemma linear_tables : linear_table dipole_table = true /\ linear_table surface_table = true /\ linear_table quadrupole_table = true.
Proof. vm_compute. auto. Qed.
Lemma linear_lookup table rank name t : linear_table table = true -> lookup table rank name = Ok t -> forall i, linear (at_ t i) = true.
Proof.
  unfold lookup. intros P. destruct (dget name table) as [l|] eqn:D; [|discriminate]. intros E. injection E as <-. intros i.
  cbn [table_tensor at_]. destruct (nth_in_or_default (position i) l nul) as [I| ->]; [|reflexivity].
  unfold linear_table in P. rewrite forallb_forall in P. apply dget_In in D. specialize (P _ D). cbn [snd] in P.
  rewrite forallb_forall in P. apply P. exact I.
Qed.

(** Negating all parameters negates a prepared tensor. *)
Lemma prepared_odd order t u n rho rho' : iterates order -> FormgenTables.plain t -> shape t = repeat 3 n -> (forall i, linear (at_ t i) = true) ->
  prepared order t u -> (forall s, rho' s = (- rho s)%C) ->
  forall i, fits (shape t) i -> eval rho' (at_ u i) = (- RtoC 1 * eval rho (at_ u i))%C.
Proof.
  intros Ho P S L U H i F. destruct U as [E0|E0]; [apply (real_inv order t u P) in E0|apply (complex_inv order t u P) in E0]; subst u.
  - pose proof (real_instance order t rho Ho P) as [_ E]. pose proof (real_instance order t rho' Ho P) as [_ E'].
    assert (J : In i (indices (shape t))) by (apply TensorProofs.in_indices; exact F).
    specialize (E i J). specialize (E' i J). cbn [instance tmap at_] in E, E'. rewrite E, E'.
    apply linear_odd; [|apply L]. intros s _. unfold with_real. destruct (sreal s); rewrite H; ring.
  - pose proof (complex_instance order t rho Ho P) as [_ E]. pose proof (complex_instance order t rho' Ho P) as [_ E'].
    assert (J : In i (indices (shape t))) by (apply TensorProofs.in_indices; exact F).
    specialize (E i J). specialize (E' i J). cbn [instance tmap at_] in E, E'. rewrite E, E'.
    apply linear_odd; [|apply L]. intros s _. unfold with_complex. destruct (sreal s); rewrite !H; ring.
Qed.

(** ** Costs *)
Lemma misfit_same F D rho rho' :
  (forall k r m, In (k, r) (ff_rows F) -> In m (freqs (ff_M F)) -> eval rho (fcell (ff_M F) r m) = eval rho' (fcell (ff_M F) r m)) ->
  misfit F D rho = misfit F D rho'.
Proof.
  intros H. unfold misfit. apply rsum_ext. intros [k r] I. apply rsum_ext. intros m J. cbn [fst snd].
  rewrite (H k r m I J). reflexivity.
Qed.

Lemma setup_intensity_scale th E Q E' Q' c inp out x :
  (forall i j k, i < 3 -> j < 3 -> k < 3 -> E' i j k = (c * E i j k)%C) ->
  (forall i j k h, i < 3 -> j < 3 -> k < 3 -> h < 3 -> Q' i j k h = (c * Q i j k h)%C) ->
  setup_intensity (fformgen_setup th) E' Q' inp out x = (Cmod c ^ 2 * setup_intensity (fformgen_setup th) E Q inp out x)%R.
Proof.
  intros HE HQ. rewrite !intensity_half. apply intensity_scale; auto. intros. ring.
Qed.

(** The rows of the loaded file. *)
Definition row_entry (rows : pol -> pol -> list expr) (F : fform) : Prop :=
  ff_M F = 16 /\ forall k r, In (k, r) (ff_rows F) -> exists inp out, r_cells r = rows inp out.

Lemma yields_rows ev expand prefix fs d q row srepr parse : yields ev expand prefix fs d q row ->
  (forall inp out, length (row inp out) = 33) -> (forall e, parse (srepr e) = Ok e) ->
  exists file F, generate_contracted_fourier_transforms ev expand srepr prefix fs d q 16 None = Ok file /\
    load_fform parse file = Ok F /\ row_entry row F /\ dkeys (ff_rows F) = ["PP"; "PS"; "SP"; "SS"]%string.
Proof.
  intros (D & E & K & G & _) L P.
  exists (dmap (map srepr) D), (mkff (dmap (mkrow true) D) 16). split; [unfold generate_contracted_fourier_transforms; rewrite E; reflexivity|].
  assert (W : wf_dict D). { unfold wf_dict. rewrite K. repeat constructor; simpl; intuition discriminate. }
  assert (Z : forall k r, In (k, r) D -> exists inp out, r = row inp out).
  { intros k r I. assert (Ik : In k (dkeys D)) by (apply (in_map fst) in I; exact I). rewrite K in Ik.
    assert (X : exists inp out, key inp out = k).
    { destruct Ik as [<-|[<-|[<-|[<-|[]]]]]; [exists Pin, Pin|exists Pin, Sin|exists Sin, Pin|exists Sin, Sin]; reflexivity. }
    destruct X as (inp & out & <-). exists inp, out. apply (In_dget _ _ _ W) in I. rewrite G in I. injection I as <-. reflexivity. }
  split.
  - apply loaded_rows; auto. intros k r I. destruct (Z k r I) as (inp & out & ->). apply L.
  - split; [|cbn [ff_rows]; rewrite dkeys_dmap; exact K]. split; [reflexivity|]. intros k r I. cbn [ff_rows] in I. apply In_dmap in I as (r' & I & ->).
    destruct (Z k r' I) as (inp & out & ->). exists inp, out. reflexivity.
Qed.

Lemma same_series_misfit row F D rho rho' : row_entry row F -> (forall inp out, length (row inp out) = 33) ->
  (forall inp out x, series_function rho (row inp out) x = series_function rho' (row inp out) x) ->
  misfit F D rho = misfit F D rho'.
Proof.
  intros [M H] L S. apply misfit_same. intros k r m I J. destruct (H k r I) as (inp & out & E). rewrite M in *.
  unfold fcell. rewrite E. change (Z.of_nat 16) with 16%Z.
  change (cell rho (row inp out) m = cell rho' (row inp out) m). rewrite !cell_fourier by auto.
  apply fourier_coefficient_ext. intros x. apply S.
Qed.

Lemma reading_opp free xs s : reading free (map Ropp xs) s = (- reading free xs s)%C.
Proof.
  revert xs. induction free as [|f free IH]; intros [|x xs]; cbn [reading map]; try (apply C_ext; unfold Re, Im; simpl; ring).
  destruct (sym_eqb s f); [apply RtoC_opp|apply IH].
Qed.
Lemma reading_respects free xs : respects (reading free xs).
Proof.
  intros s _. revert xs. induction free as [|f free IH]; intros [|x xs]; cbn [reading]; try reflexivity.
  destruct (sym_eqb s f); [reflexivity|apply IH].
Qed.

Section Chain.
Variable ev expand : expr -> expr.
Hypothesis EV : sound_ev ev.

Lemma chain_phase aoi prefix fs d q srepr parse : good_tensors d q -> (forall e, parse (srepr e) = Ok e) ->
  exists fs' file F, generate_uncontracted_fourier_transforms ev aoi prefix 16 fs = Ok fs' /\
    generate_contracted_fourier_transforms ev expand srepr prefix fs' d q 16 None = Ok file /\ load_fform parse file = Ok F /\
    ff_M F = 16 /\ dkeys (ff_rows F) = ["PP"; "PS"; "SP"; "SS"]%string /\ formula_ok F /\
    forall D c rho rho', respects rho -> respects rho' -> Cmod c = 1%R ->
      (forall i j k, i < 3 -> j < 3 -> k < 3 -> val3 rho' (Some d) i j k = (c * val3 rho (Some d) i j k)%C) ->
      (forall i j k h, i < 3 -> j < 3 -> k < 3 -> h < 3 -> val4 rho' (Some q) i j k h = (c * val4 rho (Some q) i j k h)%C) ->
      misfit F D rho' = misfit F D rho.
Proof.
  intros Gd P. destruct (C50_intensity_numeric ev expand aoi prefix fs d q EV Gd) as (fs' & row & E & Y & V).
  assert (L : forall inp out, length (row inp out) = 33) by (intros inp out; apply (V inp out rho1 rho1_respects)).
  destruct (yields_rows ev expand prefix fs' d q row srepr parse Y L P) as (file & F & EF & LF & RE & KF).
  exists fs', file, F. split; [exact E|]. split; [exact EF|]. split; [exact LF|].
  assert (M : ff_M F = 16) by apply RE. split; [exact M|]. split; [exact KF|]. split.
  { split.
    - change (NoDup (dkeys (ff_rows F))). rewrite KF. repeat constructor; cbn; intuition discriminate.
    - intros k r I. destruct (proj2 RE k r I) as (inp & out & ->). rewrite L, M. reflexivity. }
  intros D c rho rho' R R' U H3 H4. apply (same_series_misfit row F D rho' rho RE L).
  intros inp out x. unfold series_function. rewrite (proj2 (V inp out rho' R')), (proj2 (V inp out rho R)). f_equal.
  rewrite (setup_intensity_scale _ (val3 rho (Some d)) (val4 rho (Some q)) _ _ c) by assumption. rewrite U. ring.
Qed.
End Chain.
