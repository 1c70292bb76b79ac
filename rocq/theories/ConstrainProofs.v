(** Proofs for C120 and C121: fixed and constrained parameters, and the scale variable. *)
From Coq Require Import String List Arith ZArith Bool Lia Reals QArith Qreals Lra.
From Coquelicot Require Import Complex.
Import ListNotations.
From Verif Require Import PyBase DataProofs2 CBase FourierBase Expr ExprProofs SpecForm SpecFData FDataModel FDataProofs FormModel FormProofs2 FormProofs3 LookupTable TableProofs
  TensorInst TensorProofs UtilModel SpecUtil UtilProofs SpecFormgen TrigPoly FormgenModel FformgenModel SpecFformgen TensorDefs SpecGroups
  FormgenProofs FormgenProofs2 FormgenProofs3 FormgenProofs4 FormgenPhys FormgenThms FormgenThms2 FormgenTables
  FformgenProofs FformgenProofs2 FformgenProofs3 FformgenProofs4 FformgenProofs5 FformgenThms PropertiesFformgen SpecPhys PhysProofs PhysThms
  FitModel SpecFit FitProofs FitProofs2 FitProofs3 LsqProofs LsqProofs2 SymProofs2 OrderProofs SpecSubs SubsProofs NestProofs TurnProofs.
From Verif Require Import SpecTensor TensorModel.
Local Open Scope nat_scope.

(** A formula whose entries are rewritten one by one. *)
Lemma misfit_map f F D rho rho' : formula_ok F ->
  (forall k r m, In (k, r) (ff_rows F) -> In m (freqs (ff_M F)) -> eval rho (f m (fcell (ff_M F) r m)) = eval rho' (fcell (ff_M F) r m)) ->
  misfit (map_rows f F) D rho = misfit F D rho'.
Proof.
  intros O H. pose proof (map_rows_related f F O) as A. unfold misfit. change (ff_M (map_rows f F)) with (ff_M F).
  set (l' := ff_rows (map_rows f F)) in *. clearbody l'. revert H. induction A as [|[k r] [k' r'] l l' [E X] A IH]; intros H; [reflexivity|].
  specialize (IH (fun k r m I J => H k r m (or_intror I) J)).
  cbn [fst snd] in E, X. subst k'. unfold rsum at 1 3. cbn [fold_right fst snd]. unfold rsum at 1 3 in IH. cbn [fst snd] in IH. f_equal; [|exact IH].
  apply rsum_ext. intros m J. rewrite (X m J), (H k r m (or_introl eq_refl) J). reflexivity.
Qed.
Lemma matching_map f F D : matching F D -> matching (map_rows f F) D.
Proof.
  intros (FO & DO & EM & K). split; [apply map_rows_ok; exact FO|]. split; [exact DO|]. split; [exact EM|].
  intros k J. apply K. change (In k (dkeys (ff_rows (map_rows f F)))) in J. cbn [map_rows ff_rows] in J. rewrite dkeys_dmap in J. exact J.
Qed.
Lemma rows_map f F : ff_rows F <> [] -> ff_rows (map_rows f F) <> [].
Proof. intros N E. apply N. cbn in E. destruct (ff_rows F); [reflexivity|discriminate E]. Qed.

Lemma values_on w free : (forall s, In s free -> Im (w s) = 0%R) -> assigns free (map (fun s => Re (w s)) free) w.
Proof.
  intros H i s E. rewrite (nth_error_nth (map (fun s => Re (w s)) free) i 0%R (x := Re (w s))).
  - specialize (H s (nth_error_In _ _ E)). destruct (w s) as [x y]. unfold Im, Re in *. cbn [fst snd] in *. subst y. reflexivity.
  - exact (map_nth_error (fun s => Re (w s)) i free E).
Qed.

(** ** Fixed and constrained parameters *)
Section Subs.
Variable ev : expr -> expr.
Hypothesis EV : sound_ev ev.
Variable kev : code -> code.
Hypothesis KEV : sound_kev kev.

Lemma subs_inv F sa F' : ff_subs ev F sa = Ok F' -> F' = map_rows (fun _ e => subs_seq ev sa e) F.
Proof. unfold ff_subs. destruct (all_cells (ff_rows F)); cbn [bind]; congruence. Qed.

Lemma in_map_rows f F s : formula_ok F -> in_formula (map_rows f F) s -> exists m e, In s (syms (f m e)) /\ forall u, In u (syms e) -> in_formula F u.
Proof.
  intros O (k & r & e & I & J & S). cbn [map_rows ff_rows] in I. apply In_dmap in I as (r0 & I & ->). cbn [r_cells] in J.
  apply in_map_iff in J as ([m e0] & <- & J). cbn [fst snd] in S. exists m, e0. split; [exact S|].
  intros u U. exists k, r0, e0. split; [exact I|]. split; [apply (in_combine_r _ _ _ _ J)|exact U].
Qed.

Lemma fixed_cost F D sa F' free free' chunk chunk' save save' lfs lfs' : matching F D -> ff_rows F <> [] ->
  ff_subs ev F (dmap number sa) = Ok F' -> argument_list F free -> argument_list F' free' ->
  (forall s, in_formula F' s -> in_formula F s /\ ~ In s (map fst sa)) /\
  exists lib lib', gen_cost_func kev F D (Some free) chunk save lfs = (save_lib save lib lfs, Ok lib) /\
    gen_cost_func kev F' D (Some free') chunk' save' lfs' = (save_lib save' lib' lfs', Ok lib') /\
    forall rho xs xs', respects rho -> (forall s q, In (s, q) sa -> rho s = qval q) -> length free <= length xs -> length free' <= length xs' ->
      assigns free xs rho -> assigns free' xs' rho -> exists c, call lib xs = Some c /\ call lib' xs' = Some c.
Proof.
  intros Ma NE S A A'. apply subs_inv in S. subst F'. split.
  { intros s I. destruct (in_map_rows _ F s (proj1 Ma) I) as (m & e & J & U). apply (subs_seq_syms ev EV) in J as [J N]. split; [apply U; exact J|exact N]. }
  destruct (cost_ok kev KEV F D free chunk save lfs Ma A (fun _ => NE)) as (lib & G & Cp).
  destruct (cost_ok kev KEV _ D free' chunk' save' lfs' (matching_map _ F D Ma) A' (fun _ => rows_map _ F NE)) as (lib' & G' & Cp').
  exists lib, lib'. split; [exact G|]. split; [exact G'|]. intros rho xs xs' R H L L' As As'.
  exists (misfit F D rho). split; [exact (Cp xs rho L As)|]. rewrite (Cp' xs' rho L' As'). f_equal.
  apply misfit_map; [apply Ma|]. intros k r m _ _. apply (subs_seq_eval ev EV); assumption.
Qed.

Lemma constrained_cost F D sa F' free free' chunk chunk' save save' lfs lfs' : matching F D -> ff_rows F <> [] -> declared_subs sa ->
  ff_subs ev F sa = Ok F' -> argument_list F free -> argument_list F' free' -> (forall s, In s free -> sreal s = Some true) ->
  exists lib lib', gen_cost_func kev F D (Some free) chunk save lfs = (save_lib save lib lfs, Ok lib) /\
    gen_cost_func kev F' D (Some free') chunk' save' lfs' = (save_lib save' lib' lfs', Ok lib') /\
    forall xs', length xs' = length free' -> exists xs c, length xs = length free /\ call lib' xs' = Some c /\ call lib xs = Some c.
Proof.
  intros Ma NE De S A A' Re_. apply subs_inv in S. subst F'.
  destruct (cost_ok kev KEV F D free chunk save lfs Ma A (fun _ => NE)) as (lib & G & Cp).
  destruct (cost_ok kev KEV _ D free' chunk' save' lfs' (matching_map _ F D Ma) A' (fun _ => rows_map _ F NE)) as (lib' & G' & Cp').
  exists lib, lib'. split; [exact G|]. split; [exact G'|]. intros xs' L.
  set (rho := reading free' xs'). assert (R : respects rho) by apply reading_respects.
  set (w := after_subs sa rho). assert (W : respects w) by (apply after_respects; assumption).
  exists (map (fun s => Re (w s)) free), (misfit F D w). rewrite map_length. split; [reflexivity|]. split.
  - rewrite (Cp' xs' rho); [|lia|apply reading_assigns; [apply A'|lia]]. f_equal.
    apply misfit_map; [apply Ma|]. intros k r m _ _. apply (after_eval ev EV); assumption.
  - apply Cp; [rewrite map_length; lia|]. apply values_on. intros s I. apply W, Re_, I.
Qed.
End Subs.

(** ** The scale variable *)
Lemma prepared_scaled order t u n rho rho' (c : C) : iterates order -> FormgenTables.plain t -> shape t = repeat 3 n -> (forall i, linear (at_ t i) = true) ->
  prepared order t u -> (forall s, rho' s = (c * rho s)%C) ->
  forall i, fits (shape t) i -> eval rho' (at_ u i) = (c * eval rho (at_ u i))%C.
Proof.
  intros Ho P S L U H i F. destruct U as [E0|E0]; [apply (real_inv order t u P) in E0|apply (complex_inv order t u P) in E0]; subst u.
  - pose proof (real_instance order t rho Ho P) as [_ E]. pose proof (real_instance order t rho' Ho P) as [_ E'].
    assert (J : In i (indices (shape t))) by (apply TensorProofs.in_indices; exact F).
    specialize (E i J). specialize (E' i J). cbn [instance tmap at_] in E, E'. rewrite E, E'.
    apply linear_odd; [|apply L]. intros s _. unfold with_real. destruct (sreal s); rewrite H; ring.
  - pose proof (complex_instance order t rho Ho P) as [_ E]. pose proof (complex_instance order t rho' Ho P) as [_ E'].
    assert (J : In i (indices (shape t))) by (apply TensorProofs.in_indices; exact F).
    specialize (E i J). specialize (E' i J). cbn [instance tmap at_] in E, E'. rewrite E, E'.
    apply linear_odd; [|apply L]. intros s _. unfold with_complex. destruct (sreal s); rewrite !H; ring.
Qed.

Lemma cells_scaled rho rho' row (c : C) m : length row = 33 -> In m (freqs 16) ->
  (forall x, series_function rho' row x = (c * series_function rho row x)%C) -> cell rho' row m = (c * cell rho row m)%C.
Proof.
  intros L I H. rewrite cell_fourier by assumption.
  rewrite (fourier_coefficient_ext _ (fun x => Csum (fun n => (c * cell rho row n) * cis (IZR n * x))%C (freqs 16)) m).
  - rewrite coefficient_trig by apply NoDup_freqs. destruct (in_dec Z.eq_dec m (freqs 16)); [reflexivity|contradiction].
  - intros x. rewrite H, series_cells, <- Csum_mult_l by exact L. apply Csum_ext_in. intros n _. ring.
Qed.

Section Scale.
Variable ev expand : expr -> expr.
Hypothesis EV : sound_ev ev.
Variable order : list sym -> list sym.
Hypothesis Ho : iterates order.

Lemma scale_chain aoi prefix fs d0 q0 d q srepr parse : FormgenTables.plain d0 -> FormgenTables.plain q0 -> shape d0 = repeat 3 3 -> shape q0 = repeat 3 4 ->
  (forall i, linear (at_ d0 i) = true) -> (forall i, linear (at_ q0 i) = true) ->
  prepared order d0 d -> prepared order q0 q -> (forall e, parse (srepr e) = Ok e) ->
  exists fs' file F, generate_uncontracted_fourier_transforms ev aoi prefix 16 fs = Ok fs' /\
    generate_contracted_fourier_transforms ev expand srepr prefix fs' d q 16 None = Ok file /\ load_fform parse file = Ok F /\
    ff_M F = 16 /\ dkeys (ff_rows F) = ["PP"; "PS"; "SP"; "SS"]%string /\ formula_ok F /\
    forall (c : R) rho rho', respects rho -> (forall s, rho' s = (RtoC c * rho s)%C) -> forall k r m, In (k, r) (ff_rows F) -> In m (freqs 16) ->
      eval rho' (fcell 16 r m) = (RtoC (c ^ 2) * eval rho (fcell 16 r m))%C.
Proof.
  intros Pd Pq Sd Sq Ld Lq Ed Eq P.
  destruct (prepared_ready order d0 d 3 Ho Pd Sd Ed) as (A1 & A2 & _ & _).
  destruct (prepared_ready order q0 q 4 Ho Pq Sq Eq) as (B1 & B2 & _ & _).
  assert (G : good_tensors d q) by (repeat split; assumption).
  destruct (C50_intensity_numeric ev expand aoi prefix fs d q EV G) as (fs' & row & E & Y & V).
  assert (L : forall inp out, length (row inp out) = 33) by (intros inp out; apply (V inp out rho1 rho1_respects)).
  destruct (yields_rows ev expand prefix fs' d q row srepr parse Y L P) as (file & F & EF & LF & RE & KF).
  exists fs', file, F. split; [exact E|]. split; [exact EF|]. split; [exact LF|].
  assert (M : ff_M F = 16) by apply RE. split; [exact M|]. split; [exact KF|]. split.
  { split.
    - change (NoDup (dkeys (ff_rows F))). rewrite KF. repeat constructor; cbn; intuition discriminate.
    - intros k r I. destruct (proj2 RE k r I) as (inp & out & ->). rewrite L, M. reflexivity. }
  intros c rho rho' R U k r m I J. destruct (proj2 RE k r I) as (inp & out & E1).
  assert (R' : respects rho'). { intros s Hs. rewrite U. specialize (R s Hs). destruct (rho s) as [x y]. unfold Im in *. cbn in *. subst y. ring. }
  unfold fcell. rewrite E1. change (Z.of_nat 16) with 16%Z.
  change (cell rho' (row inp out) m = (RtoC (c ^ 2) * cell rho (row inp out) m)%C).
  apply cells_scaled; [apply L|exact J|]. intros x. unfold series_function. rewrite (proj2 (V inp out rho' R')), (proj2 (V inp out rho R)).
  rewrite <- RtoC_mult. f_equal.
  rewrite (setup_intensity_scale _ (val3 rho (Some d)) (val4 rho (Some q)) _ _ (RtoC c)).
  - rewrite Cmod_R, <- Rsqr_pow2, <- Rsqr_abs, Rsqr_pow2. reflexivity.
  - intros i j l Hi Hj Hl. cbn [val3]. apply (prepared_scaled order d0 d 3 rho rho' (RtoC c) Ho Pd Sd Ld Ed U). rewrite Sd. apply fits3; assumption.
  - intros i j l h Hi Hj Hl Hh. cbn [val4]. apply (prepared_scaled order q0 q 4 rho rho' (RtoC c) Ho Pq Sq Lq Eq U). rewrite Sq. apply fits4; assumption.
Qed.

Lemma scale_cost kev F D s free free' chunk chunk' save save' lfs lfs' : sound_kev kev -> ff_M F = 16 -> matching F D -> ff_rows F <> [] ->
  (forall (c : R) rho rho', respects rho -> (forall s, rho' s = (RtoC c * rho s)%C) -> forall k r m, In (k, r) (ff_rows F) -> In m (freqs 16) ->
      eval rho' (fcell 16 r m) = (RtoC (c ^ 2) * eval rho (fcell 16 r m))%C) ->
  ~ in_formula F s -> argument_list F free -> argument_list (ff_scale ev F (ESym s)) free' ->
  exists lib lib', gen_cost_func kev F D (Some free) chunk save lfs = (save_lib save lib lfs, Ok lib) /\
    gen_cost_func kev (ff_scale ev F (ESym s)) D (Some free') chunk' save' lfs' = (save_lib save' lib' lfs', Ok lib') /\
    (forall xs', length xs' = length free' -> (forall i, nth_error free' i = Some s -> (0 <= nth i xs' 0)%R) ->
       exists xs c, length xs = length free /\ call lib' xs' = Some c /\ call lib xs = Some c) /\
    (forall xs, length xs = length free ->
       exists xs' c, length xs' = length free' /\ (forall i, nth_error free' i = Some s -> nth i xs' 0%R = 1%R) /\ call lib' xs' = Some c /\ call lib xs = Some c).
Proof.
  intros KEV M Ma NE Sc N A A'.
  destruct (cost_ok kev KEV F D free chunk save lfs Ma A (fun _ => NE)) as (lib & G & Cp).
  destruct (cost_ok kev KEV _ D free' chunk' save' lfs' (matching_map _ F D Ma) A' (fun _ => rows_map _ F NE)) as (lib' & G' & Cp').
  exists lib, lib'. split; [exact G|]. split; [exact G'|].
  assert (Fr : forall rho rho' k r m, In (k, r) (ff_rows F) -> In m (freqs (ff_M F)) -> (forall u, u <> s -> rho u = rho' u) -> eval rho (fcell (ff_M F) r m) = eval rho' (fcell (ff_M F) r m)).
  { intros rho rho' k r m I J H. apply eval_ext. intros u U. apply H. intros ->. apply N. exists k, r, (fcell (ff_M F) r m). split; [exact I|]. split; [|exact U].
    unfold fcell. apply nth_In. rewrite (proj2 (proj1 Ma) k r I). apply In_freqs in J. lia. }
  split.
  - intros xs' L H. set (rho := reading free' xs'). assert (R : respects rho) by apply reading_respects.
    assert (As : assigns free' xs' rho) by (apply reading_assigns; [apply A'|lia]).
    assert (X : exists v, rho s = RtoC v /\ (0 <= v)%R).
    { destruct (in_dec (fun a b => match sym_eqb_spec a b with ReflectT e => left e | ReflectF n => right n end) s free') as [I|I].
      - apply In_nth_error in I as (i & I). exists (nth i xs' 0%R). split; [apply As; exact I|apply H; exact I].
      - exists 0%R. split; [|lra]. unfold rho. clear - I. revert xs'. induction free' as [|f l IH]; intros [|x xs]; cbn [reading]; try reflexivity.
        destruct (sym_eqb_spec s f) as [->|]; [destruct I; left; reflexivity|]. apply IH. intros J. apply I. right. exact J. }
    destruct X as (v & Ev & Pv). set (w := fun u => (RtoC (sqrt v) * rho u)%C).
    exists (map (fun s => Re (w s)) free), (misfit F D w). rewrite map_length. split; [reflexivity|]. split.
    + rewrite (Cp' xs' rho) by (auto; lia). f_equal. apply misfit_map; [apply Ma|]. intros k r m I J.
      rewrite (proj1 EV) by exact R. rewrite ExprProofs.eval_mul. cbn [map fold_right eval]. rewrite Ev. rewrite M in J |- *.
      rewrite (Sc (sqrt v) rho w R (fun u => eq_refl) k r m I J). rewrite <- Rsqr_pow2, Rsqr_sqrt by exact Pv. ring.
    + apply Cp; [rewrite map_length; lia|]. apply values_on. intros u _. unfold w, rho. destruct (reading_real free' xs' u) as (x & ->). unfold Im. simpl. ring.
  - intros xs L. set (rho := reading free xs). assert (R : respects rho) by apply reading_respects.
    assert (As : assigns free xs rho) by (apply reading_assigns; [apply A|lia]).
    set (w := fun u => if sym_eqb u s then RtoC 1 else rho u).
    exists (map (fun s => Re (w s)) free'), (misfit F D rho). rewrite map_length. split; [reflexivity|]. split; [|split].
    + intros i I. rewrite (nth_error_nth _ i 0%R (map_nth_error (fun s => Re (w s)) i free' I)). unfold w. destruct (sym_eqb_spec s s) as [_|Z]; [reflexivity|contradiction].
    + rewrite (Cp' _ w).
      * f_equal. apply misfit_map; [apply Ma|]. intros k r m I J. rewrite (proj1 EV).
        -- rewrite ExprProofs.eval_mul. cbn [map fold_right eval]. replace (w s) with (RtoC 1) by (unfold w; destruct (sym_eqb_spec s s) as [_|Z]; [reflexivity|contradiction]).
           rewrite (Fr w rho k r m I J); [ring|]. intros u U. unfold w. destruct (sym_eqb_spec u s); [contradiction|reflexivity].
        -- intros u U. unfold w. destruct (sym_eqb u s); [reflexivity|apply R; exact U].
      * rewrite map_length. lia.
      * apply values_on. intros u _. unfold w. destruct (sym_eqb u s); [reflexivity|]. destruct (reading_real free xs u) as (x & E). unfold rho. rewrite E. reflexivity.
    + apply Cp; [lia|exact As].
Qed.
End Scale.
