(** C142: fits in stages, first with parameters held, then with all of them free. *)
From Coq Require Import String List Arith ZArith QArith Qreals Bool Lia Reals Lra.
From Coquelicot Require Import Complex.
From Verif Require Import PyBase CBase Expr ExprProofs SpecForm SpecFData FDataModel FormModel FitModel SpecFit FitProofs FitProofs2 FitProofs3 FormgenProofs PropertiesFit
  LookupTable TableProofs TensorInst UtilModel SpecUtil SpecFormgen FormgenModel FformgenModel SpecFformgen TensorDefs FormgenTables FformgenProofs4 FformgenThms PropertiesFformgen SpecPhys
  SpecSym PropertiesSym SpecSymmetry NestProofs PropertiesNest ParamProofs4
  SpecSubs ConstrainProofs SpecChain ChainProofs PropertiesChain SpecFree FreeProofs.
From Verif Require Import SpecTensor TensorModel.
Import ListNotations.
Local Open Scope nat_scope.

(* ================================================================== *)
(** * C142 *)

(** The fit of the whole formula, started from the result for the formula with numbers
    put in and these numbers ([{**xdict, **fixed}]), is no worse than that result. *)
Theorem C142_fixed : forall ev kev F D fixed F' free xd c fs fs' x xd', sound_ev ev -> sound_kev kev -> matching F D -> ff_free_symbols F = Ok free -> NoDup (map fst fixed) ->
  ff_subs ev F (dmap number (held fixed)) = Ok F' -> improves (optimiser_of c) -> fit kev F D (with_fixed xd fixed) c fs = (fs', Ok (Fitted x xd')) ->
  (misfit F D (valued xd') <= misfit F' D (valued xd))%R.
Proof. intros ev kev F D fixed F' free xd c fs fs' x xd' EV KEV. exact (free_step ev EV kev KEV F D fixed F' free xd c fs fs' x xd'). Qed.
Print Assumptions C142_fixed.

(** This start has a value for every parameter, if putting the numbers in has removed
    no other parameter. *)
Theorem C142_complete : forall ev kev F D fixed F' free free' guess xd c fs fs' x, sound_ev ev -> sound_kev kev -> matching F D ->
  ff_free_symbols F = Ok free -> ff_free_symbols F' = Ok free' -> NoDup (map fst fixed) ->
  ff_subs ev F (dmap number (held fixed)) = Ok F' -> (forall s, In s free -> In s free' \/ In s (map fst fixed)) ->
  improves (optimiser_of c) -> fit kev F' D guess c fs = (fs', Ok (Fitted x xd)) -> exists x0, in_order free (with_fixed xd fixed) x0.
Proof. intros ev kev F D fixed F' free free' guess xd c fs fs' x EV KEV. exact (free_complete ev kev KEV F D fixed F' free free' guess xd c fs fs' x). Qed.
Print Assumptions C142_complete.

(** The same for parameters tied to others by expressions, started from the values of
    these expressions. *)
Theorem C142_tied : forall ev kev F D sa F' free xd g c fs fs' x xd', sound_ev ev -> sound_kev kev -> matching F D -> ff_free_symbols F = Ok free -> declared_subs sa ->
  ff_subs ev F sa = Ok F' -> (forall s, In s free -> valued g s = after_subs sa (valued xd) s) ->
  improves (optimiser_of c) -> fit kev F D g c fs = (fs', Ok (Fitted x xd')) -> (misfit F D (valued xd') <= misfit F' D (valued xd))%R.
Proof. intros ev kev F D sa F' free xd g c fs fs' x xd' EV KEV. exact (tied_step ev EV kev KEV F D sa F' free xd g c fs fs' x xd'). Qed.
Print Assumptions C142_tied.

(** Crystals from the tables with nested symmetry: whatever was found for the more symmetric
    crystal, there is a start for the less symmetric one from which no fit ends worse. *)
Theorem C142_crystal_complex : forall ev expand kev order aoi prefix fs nd nq nd' nq' d0 q0 d0' q0' d q d' q' srepr parse,
  sound_ev ev -> sound_kev kev -> iterates order -> (forall e, parse (srepr e) = Ok e) ->
  dipole nd = Ok d0 -> quadrupole nq = Ok q0 -> dipole nd' = Ok d0' -> quadrupole nq' = Ok q0' -> lower_symmetry nd nq nd' nq' ->
  make_tensor_complex order ("real_", "imag_")%string ("", "")%string d0 = Ok d ->
  make_tensor_complex order ("real_", "imag_")%string ("", "")%string q0 = Ok q ->
  prepared order d0' d' -> prepared order q0' q' ->
  exists fs' file F file' F', generate_uncontracted_fourier_transforms ev aoi prefix 16 fs = Ok fs' /\
    generate_contracted_fourier_transforms ev expand srepr prefix fs' d q 16 None = Ok file /\ load_fform parse file = Ok F /\
    generate_contracted_fourier_transforms ev expand srepr prefix fs' d' q' 16 None = Ok file' /\ load_fform parse file' = Ok F' /\
    exists free, ff_free_symbols F = Ok free /\ forall D xd, matching F D -> matching F' D ->
      exists g x0, in_order free g x0 /\ forall c cfs cfs' x xd1, improves (optimiser_of c) -> fit kev F D g c cfs = (cfs', Ok (Fitted x xd1)) ->
        (misfit F D (valued xd1) <= misfit F' D (valued xd))%R.
Proof.
  intros ev expand kev order aoi prefix fs nd nq nd' nq' d0 q0 d0' q0' d q d' q' srepr parse EV KEV Ho P D Q D' Q' Low Ed Eq Ed' Eq'.
  destruct (C117_complex ev expand kev order aoi prefix fs nd nq nd' nq' d0 q0 d0' q0' d q d' q' srepr parse EV KEV Ho P D Q D' Q' Low Ed Eq Ed' Eq')
    as (fs' & file & F & file' & F' & E1 & E2 & E3 & E4 & E5 & _ & _ & H).
  exists fs', file, F, file', F'. do 5 (split; [assumption|]).
  destruct (symbolic_free F (ParamProofs4.loaded_symbolic ev expand srepr parse prefix fs' d q 16 None file F P E2 E3)) as (free & FF).
  exists free. split; [exact FF|]. intros Da xd Ma Ma'. pose proof (free_argument_list F free FF) as A.
  destruct (some_arguments F') as (free' & A'). destruct (H Da free free' false false None None [] [] Ma Ma' A A') as (lib & lib' & G & G' & V).
  destruct (start_found kev F F' Da free free' lib lib' xd KEV Ma Ma' A A' G G' V) as (g & x0 & Io & E). exists g, x0. split; [exact Io|].
  intros c cfs cfs' x xd1 O X. rewrite <- E. exact (proj2 (fit_improves kev KEV F Da free Ma FF g c cfs cfs' x xd1 O X)).
Qed.
Print Assumptions C142_crystal_complex.

(** The same with real parameters. *)
Theorem C142_crystal_real : forall ev expand kev order aoi prefix fs nd nq nd' nq' d0 q0 d0' q0' d q d' q' srepr parse,
  sound_ev ev -> sound_kev kev -> iterates order -> (forall e, parse (srepr e) = Ok e) ->
  dipole nd = Ok d0 -> quadrupole nq = Ok q0 -> dipole nd' = Ok d0' -> quadrupole nq' = Ok q0' -> lower_symmetry nd nq nd' nq' ->
  make_tensor_real order d0 = Ok d -> make_tensor_real order q0 = Ok q ->
  make_tensor_real order d0' = Ok d' -> make_tensor_real order q0' = Ok q' ->
  exists fs' file F file' F', generate_uncontracted_fourier_transforms ev aoi prefix 16 fs = Ok fs' /\
    generate_contracted_fourier_transforms ev expand srepr prefix fs' d q 16 None = Ok file /\ load_fform parse file = Ok F /\
    generate_contracted_fourier_transforms ev expand srepr prefix fs' d' q' 16 None = Ok file' /\ load_fform parse file' = Ok F' /\
    exists free, ff_free_symbols F = Ok free /\ forall D xd, matching F D -> matching F' D ->
      exists g x0, in_order free g x0 /\ forall c cfs cfs' x xd1, improves (optimiser_of c) -> fit kev F D g c cfs = (cfs', Ok (Fitted x xd1)) ->
        (misfit F D (valued xd1) <= misfit F' D (valued xd))%R.
Proof.
  intros ev expand kev order aoi prefix fs nd nq nd' nq' d0 q0 d0' q0' d q d' q' srepr parse EV KEV Ho P D Q D' Q' Low Ed Eq Ed' Eq'.
  destruct (C117_real ev expand kev order aoi prefix fs nd nq nd' nq' d0 q0 d0' q0' d q d' q' srepr parse EV KEV Ho P D Q D' Q' Low Ed Eq Ed' Eq')
    as (fs' & file & F & file' & F' & E1 & E2 & E3 & E4 & E5 & _ & _ & H).
  exists fs', file, F, file', F'. do 5 (split; [assumption|]).
  destruct (symbolic_free F (ParamProofs4.loaded_symbolic ev expand srepr parse prefix fs' d q 16 None file F P E2 E3)) as (free & FF).
  exists free. split; [exact FF|]. intros Da xd Ma Ma'. pose proof (free_argument_list F free FF) as A.
  destruct (some_arguments F') as (free' & A'). destruct (H Da free free' false false None None [] [] Ma Ma' A A') as (lib & lib' & G & G' & V).
  destruct (start_found kev F F' Da free free' lib lib' xd KEV Ma Ma' A A' G G' V) as (g & x0 & Io & E). exists g, x0. split; [exact Io|].
  intros c cfs cfs' x xd1 O X. rewrite <- E. exact (proj2 (fit_improves kev KEV F Da free Ma FF g c cfs cfs' x xd1 O X)).
Qed.
Print Assumptions C142_crystal_real.

(** The fit of [Fx] by an optimiser that compares its start with (3, 1). *)
Lemma Fx_fit a b : (3 * (b - 1) ^ 2 + (a - 3) ^ 2 >= 0)%R ->
  fit (fun e => e) PropertiesFit.Fx Dx [(sb, b); (sa, a)] (DualAnnealing (greedy [3; 1]%R) None true None []) [] = ([], Ok (Fitted [3; 1]%R [(sa, 3%R); (sb, 1%R)])).
Proof.
  intros P. pose proof (free_argument_list PropertiesFit.Fx [sa; sb] Fx_free) as A.
  destruct (cost_ok (fun e => e) FitProofs5.id_sound PropertiesFit.Fx Dx [sa; sb] true None [] Fx_matching A ltac:(intros _; discriminate)) as (lib & G & V0).
  assert (V : forall a b, call lib [a; b] = Some (3 * (b - 1) ^ 2 + (a - 3) ^ 2)%R) by (intros u v; rewrite <- Fx_value; apply V0; [cbn; lia|]; apply reading_assigns; [apply A|cbn; lia]).
  cbn [fit]. unfold dual_annealing_fit. rewrite Fx_free. change (cost_of (fun e => e) PropertiesFit.Fx Dx [sa; sb] true None None []) with (gen_cost_func (fun e => e) PropertiesFit.Fx Dx (Some [sa; sb]) true None []). rewrite G. cbn [bind save_lib].
  change (x0_of [sa; sb] [(sb, b); (sa, a)]) with (Ok [a; b]). cbn [bind]. unfold greedy. cbn [value]. rewrite !V. cbn [length Nat.eqb].
  destruct (Rle_dec _ _) as [_|N]; [reflexivity|]. exfalso. apply N. lra.
Qed.
(** a held at 2 while b is fitted, then both fitted; b tied to twice a. *)
Example C142_case : exists F' F2 xd x', ff_subs (fun e => e) PropertiesFit.Fx (dmap number (held [(sa, 2%Q)])) = Ok F' /\ ff_free_symbols F' = Ok [sb] /\
  fit (fun e => e) F' Dx [(sb, 0%R)] (LeastSquares (greedy [(/ 2)%R]) None false None []) [] = ([], Ok (Fitted [(/ 2)%R] xd)) /\
  fit (fun e => e) PropertiesFit.Fx Dx (with_fixed xd [(sa, 2%Q)]) (DualAnnealing (greedy [3; 1]%R) None true None []) [] = ([], Ok (Fitted [3; 1]%R x')) /\
  (misfit PropertiesFit.Fx Dx (valued x') <= misfit F' Dx (valued xd))%R /\
  declared_subs [(sb, EMul [num 2; ESym sa])] /\ ff_subs (fun e => e) PropertiesFit.Fx [(sb, EMul [num 2; ESym sa])] = Ok F2 /\
  (misfit PropertiesFit.Fx Dx (valued x') <= misfit F2 Dx (valued [(sa, 1%R)]))%R.
Proof.
  destruct (ff_subs (fun e => e) PropertiesFit.Fx (dmap number (held [(sa, 2%Q)]))) as [F'|] eqn:E; [|discriminate E].
  destruct (ff_subs (fun e => e) PropertiesFit.Fx [(sb, EMul [num 2; ESym sa])]) as [F2|] eqn:E2; [|discriminate E2].
  assert (FF : ff_free_symbols F' = Ok [sb]) by (injection E as <-; reflexivity).
  assert (Ma : matching F' Dx) by (pose proof (subs_inv (fun e => e) _ _ _ E) as ->; apply matching_map; exact Fx_matching).
  assert (N : NoDup (map fst [(sa, 2%Q)])) by (repeat constructor; intros []).
  assert (Q2 : Q2R 2 = 2%R) by (unfold Q2R; cbn; field).
  assert (V0 : forall b, misfit F' Dx (reading [sb] [b]) = (3 * (b - 1) ^ 2 + (2 - 3) ^ 2)%R).
  { intros b. pose proof (free_argument_list F' [sb] FF) as A. rewrite (misfit_same F' Dx [sb] _ (valued [(sb, b)]) (proj1 Ma) A) by (intros s [<-|[]]; reflexivity).
    rewrite (fixed_misfit (fun e => e) PropertiesForm.id_sound PropertiesFit.Fx Dx [(sa, 2%Q)] F' _ Fx_matching N E).
    change (with_fixed [(sb, b)] [(sa, 2%Q)]) with [(sb, b); (sa, Q2R 2)]. rewrite Q2, <- Fx_value.
    apply (misfit_same PropertiesFit.Fx Dx [sa; sb]); [apply Fx_matching|exact (free_argument_list PropertiesFit.Fx [sa; sb] Fx_free)|]. intros s [<-|[<-|[]]]; reflexivity. }
  assert (X1 : fit (fun e => e) F' Dx [(sb, 0%R)] (LeastSquares (greedy [(/ 2)%R]) None false None []) [] = ([], Ok (Fitted [(/ 2)%R] [(sb, (/ 2)%R)]))).
  { pose proof (free_argument_list F' [sb] FF) as A. destruct (cost_ok (fun e => e) FitProofs5.id_sound F' Dx [sb] false None [] Ma A ltac:(discriminate)) as (lib & G & Cp).
    assert (V : forall b, call lib [b] = Some (3 * (b - 1) ^ 2 + (2 - 3) ^ 2)%R) by (intros b; rewrite <- V0; apply Cp; [cbn; lia|]; apply reading_assigns; [apply A|cbn; lia]).
    cbn [fit]. unfold least_squares_fit. rewrite FF. change (cost_of (fun e => e) F' Dx [sb] false None None []) with (gen_cost_func (fun e => e) F' Dx (Some [sb]) false None []). rewrite G. cbn [bind save_lib].
    change (x0_of [sb] [(sb, 0%R)]) with (Ok [0%R]). cbn [bind]. change (no_clash ["fun"; "x0"]%string []) with (Ok tt). cbn [bind].
    unfold greedy. cbn [value]. unfold root. rewrite !V. cbn [option_map length Nat.eqb].
    destruct (Rle_dec _ _) as [_|L]; [reflexivity|]. exfalso. apply L. apply sqrt_le_1_alt. lra. }
  assert (X2 : fit (fun e => e) PropertiesFit.Fx Dx (with_fixed [(sb, (/ 2)%R)] [(sa, 2%Q)]) (DualAnnealing (greedy [3; 1]%R) None true None []) [] = ([], Ok (Fitted [3; 1]%R [(sa, 3%R); (sb, 1%R)]))).
  { change (with_fixed [(sb, (/ 2)%R)] [(sa, 2%Q)]) with [(sb, (/ 2)%R); (sa, Q2R 2)]. apply Fx_fit. rewrite Q2. lra. }
  assert (De : declared_subs [(sb, EMul [num 2; ESym sa])]).
  { intros s a [I|[]]. injection I as <- <-. split; [discriminate|]. split; [intros [H|[]]; discriminate H|]. split; [intros u [<-|[]]; reflexivity|].
    intros _ rho Re. specialize (Re sa eq_refl). cbn [eval map fold_right]. destruct (rho sa) as [p q]. unfold Im in *. cbn in *. subst q. unfold Q2R. cbn. lra. }
  exists F', F2, [(sb, (/ 2)%R)], [(sa, 3%R); (sb, 1%R)]. split; [reflexivity|]. split; [exact FF|]. split; [exact X1|]. split; [exact X2|]. split; [|split; [exact De|split; [reflexivity|]]].
  - exact (C142_fixed (fun e => e) (fun e => e) PropertiesFit.Fx Dx [(sa, 2%Q)] F' [sa; sb] _ (DualAnnealing (greedy [3; 1]%R) None true None []) [] [] _ _ PropertiesForm.id_sound FitProofs5.id_sound Fx_matching Fx_free N E (greedy_improves _) X2).
  - refine (C142_tied (fun e => e) (fun e => e) PropertiesFit.Fx Dx [(sb, EMul [num 2; ESym sa])] F2 [sa; sb] [(sa, 1%R)] [(sb, 2%R); (sa, 1%R)] (DualAnnealing (greedy [3; 1]%R) None true None []) [] [] _ _ PropertiesForm.id_sound FitProofs5.id_sound Fx_matching Fx_free De E2 _ (greedy_improves _) (Fx_fit 1 2 _)).
    + intros s [<-|[<-|[]]]; [reflexivity|]. unfold valued. cbn -[RtoC Cmult Q2R]. unfold RtoC, Cmult. cbn [fst snd]. unfold Q2R. cbn. f_equal; lra.
    + lra.
Qed.

(** Crystals C_2v and C_4v with real parameters, and dark data. *)
Example C142_case_crystal : exists fs' file F file' F' free, generate_uncontracted_fourier_transforms (fun e => e) (1 # 10) "u" 16 [] = Ok fs' /\
  (exists d q, generate_contracted_fourier_transforms (fun e => e) (fun e => e) Printer.show "u" fs' d q 16 None = Ok file) /\ load_fform Printer.read file = Ok F /\
  (exists d q, generate_contracted_fourier_transforms (fun e => e) (fun e => e) Printer.show "u" fs' d q 16 None = Ok file') /\ load_fform Printer.read file' = Ok F' /\
  ff_free_symbols F = Ok free /\
  forall xd, exists g x0, in_order free g x0 /\ forall c cfs cfs' x xd1, improves (optimiser_of c) -> fit (fun e => e) F dark g c cfs = (cfs', Ok (Fitted x xd1)) ->
    (misfit F dark (valued xd1) <= misfit F' dark (valued xd))%R.
Proof.
  assert (Low : lower_symmetry "C_2v" "C_2v" "C_4v" "C_4v").
  { do 8 eexists. do 4 (split; [reflexivity|]). split; apply SymmetryProofs.sub_check_ok; vm_compute; reflexivity. }
  assert (D : exists d0, dipole "C_2v" = Ok d0) by (eexists; reflexivity).
  assert (Q : exists q0, quadrupole "C_2v" = Ok q0) by (eexists; reflexivity).
  assert (D' : exists d0, dipole "C_4v" = Ok d0) by (eexists; reflexivity).
  assert (Q' : exists q0, quadrupole "C_4v" = Ok q0) by (eexists; reflexivity).
  destruct D as (d0 & D), Q as (q0 & Q), D' as (d0' & D'), Q' as (q0' & Q'). destruct plain_tables as (T1 & _ & T3).
  pose proof (real_is (fun l => l) d0 (proj1 (plain_lookup _ _ _ _ T1 D))) as Md.
  pose proof (real_is (fun l => l) q0 (proj1 (plain_lookup _ _ _ _ T3 Q))) as Mq.
  pose proof (real_is (fun l => l) d0' (proj1 (plain_lookup _ _ _ _ T1 D'))) as Md'.
  pose proof (real_is (fun l => l) q0' (proj1 (plain_lookup _ _ _ _ T3 Q'))) as Mq'.
  set (d := real_tensor (fun l => l) d0) in *. set (q := real_tensor (fun l => l) q0) in *.
  set (d' := real_tensor (fun l => l) d0') in *. set (q' := real_tensor (fun l => l) q0') in *. clearbody d q d' q'.
  assert (Ho : iterates (fun l : list sym => l)) by (intros l; apply Permutation.Permutation_refl).
  destruct (C117_real (fun e => e) (fun e => e) (fun e => e) (fun l => l) (1 # 10) "u" [] "C_2v" "C_2v" "C_4v" "C_4v" d0 q0 d0' q0'
    d q d' q' Printer.show Printer.read PropertiesForm.id_sound FitProofs5.id_sound Ho Printer.read_show D Q D' Q' Low Md Mq Md' Mq')
    as (fs1 & file1 & F1 & file1' & F1' & E1 & E2 & E3 & E4 & E5 & (M & K & OK) & (M' & K' & OK') & _).
  destruct (C142_crystal_real (fun e => e) (fun e => e) (fun e => e) (fun l => l) (1 # 10) "u" [] "C_2v" "C_2v" "C_4v" "C_4v" d0 q0 d0' q0'
    d q d' q' Printer.show Printer.read PropertiesForm.id_sound FitProofs5.id_sound Ho Printer.read_show D Q D' Q' Low Md Mq Md' Mq')
    as (fs' & file & F & file' & F' & G1 & G2 & G3 & G4 & G5 & free & FF & H).
  assert (fs' = fs1) by congruence. subst fs1. assert (file1 = file) by congruence. assert (file1' = file') by congruence. subst file1 file1'.
  assert (F1 = F) by congruence. assert (F1' = F') by congruence. subst F1 F1'.
  exists fs', file, F, file', F', free. split; [exact G1|]. split; [exists d, q; exact G2|]. split; [exact G3|]. split; [exists d', q'; exact G4|]. split; [exact G5|].
  split; [exact FF|]. intros xd. exact (H dark xd (dark_matching F M K OK) (dark_matching F' M' K' OK')).
Qed.
