(** C118: a turned crystal fits turned data equally well. *)
From Coq Require Import String List Arith ZArith Bool Lia Reals QArith Qreals Lra Permutation.
From Coquelicot Require Import Complex.
Import ListNotations.
From Verif Require Import PyBase CBase Expr ExprProofs SpecForm SpecFData FDataModel FormModel LookupTable TableProofs
  TensorInst TensorProofs UtilModel SpecUtil SpecFormgen FormgenModel FformgenModel SpecFformgen TensorDefs SpecGroups GroupProofs
  FormgenProofs FormgenProofs2 FormgenProofs4 FormgenThms FormgenTables FformgenProofs4 FformgenThms PropertiesFformgen SpecPhys PhysThms PropertiesPhys
  FitModel SpecFit FitProofs FitProofs2 PropertiesFit Printer SpecSym SymProofs2 PropertiesSym NestProofs TurnProofs.
From Verif Require Import SpecTensor TensorModel.
Local Open Scope nat_scope.

(** The Fourier formulas of a crystal turned by the angle a about the surface normal
    are those of the crystal shifted by a, and its cost for data shifted by a is the
    cost of the crystal for the data. *)
Theorem C118_cost : forall ev expand kev aoi prefix fs d q R srepr parse, sound_ev ev -> sound_kev kev ->
  good_tensors d q -> shape R = [3; 3] -> real_params (Some R) -> (forall e, parse (srepr e) = Ok e) ->
  exists d' q' fs' file F file' F', @transform expr (Sig_ev ev) d R = Ok d' /\ @transform expr (Sig_ev ev) q R = Ok q' /\
    generate_uncontracted_fourier_transforms ev aoi prefix 16 fs = Ok fs' /\
    generate_contracted_fourier_transforms ev expand srepr prefix fs' d q 16 None = Ok file /\ load_fform parse file = Ok F /\
    generate_contracted_fourier_transforms ev expand srepr prefix fs' d' q' 16 None = Ok file' /\ load_fform parse file' = Ok F' /\
    (ff_M F = 16 /\ dkeys (ff_rows F) = ["PP"; "PS"; "SP"; "SS"]%string /\ formula_ok F) /\
    (forall rho a, respects rho -> teq (instance rho R) (rot_z a) ->
       forall inp out, exists r r', ff_get_pc F (key inp out) = Ok r /\ ff_get_pc F' (key inp out) = Ok r' /\
         forall m, In m (freqs 16) -> cell rho r' m = (cell rho r m * cis (IZR m * a))%C) /\
    forall D a np free free' chunk chunk' save save' lfs lfs', matching F D -> argument_list F free -> argument_list F' free' ->
      exists lib lib', gen_cost_func kev F D (Some free) chunk save lfs = (save_lib save lib lfs, Ok lib) /\
        gen_cost_func kev F' (fst (phase_shift_fdata D a np "radians")) (Some free') chunk' save' lfs' = (save_lib save' lib' lfs', Ok lib') /\
        forall rho xs xs', respects rho -> teq (instance rho R) (rot_z a) -> length free <= length xs -> length free' <= length xs' ->
          assigns free xs rho -> assigns free' xs' rho -> exists c, call lib xs = Some c /\ call lib' xs' = Some c.
Proof.
  intros ev expand kev aoi prefix fs d q R srepr parse EV KEV G SR RR P.
  destruct (turned_chain ev expand EV aoi prefix fs d q R srepr parse G SR RR P)
    as (d' & q' & fs' & file & F & file' & F' & Td & Tq & E1 & E2 & E3 & E4 & E5 & (M & K & OK) & (M' & K' & OK') & H).
  exists d', q', fs', file, F, file', F'. do 7 (split; [assumption|]). split; [auto|].
  split; [intros rho a Rs HR; apply (proj1 (H rho a Rs HR))|].
  intros D a np free free' chunk chunk' save save' lfs lfs' Ma A A'.
  destruct (cost_ok kev KEV F D free chunk save lfs Ma A) as (lib & Gl & Cp).
  { intros _ Z. rewrite Z in K. discriminate K. }
  assert (Ma' : matching F' (fst (phase_shift_fdata D a np "radians"))) by (apply (matching_shift F); congruence || auto).
  destruct (cost_ok kev KEV F' _ free' chunk' save' lfs' Ma' A') as (lib' & Gl' & Cp').
  { intros _ Z. rewrite Z in K'. discriminate K'. }
  exists lib, lib'. split; [exact Gl|]. split; [exact Gl'|]. intros rho xs xs' Rs HR L L' As As'. exists (misfit F D rho).
  split; [apply Cp; assumption|]. rewrite (Cp' xs' rho L' As'). f_equal. apply (proj2 (H rho a Rs HR)). exact Ma.
Qed.
Print Assumptions C118_cost.

(** The orientation can be fitted: with a rotation by a new parameter s, data shifted
    by any angle are fitted as well as the data themselves. *)
Theorem C118_orientation : forall ev expand kev aoi prefix fs d q R s srepr parse, sound_ev ev -> sound_kev kev ->
  good_tensors d q -> shape R = [3; 3] -> real_params (Some R) -> (forall e, parse (srepr e) = Ok e) ->
  (forall rho a, respects rho -> rho s = RtoC a -> teq (instance rho R) (rot_z a)) ->
  exists d' q' fs' file F file' F', @transform expr (Sig_ev ev) d R = Ok d' /\ @transform expr (Sig_ev ev) q R = Ok q' /\
    generate_uncontracted_fourier_transforms ev aoi prefix 16 fs = Ok fs' /\
    generate_contracted_fourier_transforms ev expand srepr prefix fs' d q 16 None = Ok file /\ load_fform parse file = Ok F /\
    generate_contracted_fourier_transforms ev expand srepr prefix fs' d' q' 16 None = Ok file' /\ load_fform parse file' = Ok F' /\
    (ff_M F = 16 /\ dkeys (ff_rows F) = ["PP"; "PS"; "SP"; "SS"]%string /\ formula_ok F) /\
    forall D a np free free' chunk chunk' save save' lfs lfs', matching F D -> argument_list F free -> argument_list F' free' -> ~ In s free ->
      exists lib lib', gen_cost_func kev F D (Some free) chunk save lfs = (save_lib save lib lfs, Ok lib) /\
        gen_cost_func kev F' (fst (phase_shift_fdata D a np "radians")) (Some free') chunk' save' lfs' = (save_lib save' lib' lfs', Ok lib') /\
        forall xs, length xs = length free -> exists xs' c, length xs' = length free' /\ call lib xs = Some c /\ call lib' xs' = Some c.
Proof.
  intros ev expand kev aoi prefix fs d q R s srepr parse EV KEV G SR RR P HR.
  destruct (C118_cost ev expand kev aoi prefix fs d q R srepr parse EV KEV G SR RR P)
    as (d' & q' & fs' & file & F & file' & F' & Td & Tq & E1 & E2 & E3 & E4 & E5 & M & _ & H).
  exists d', q', fs', file, F, file', F'. do 8 (split; [assumption|]).
  intros D a np free free' chunk chunk' save save' lfs lfs' Ma A A' Ns.
  destruct (H D a np free free' chunk chunk' save save' lfs lfs' Ma A A') as (lib & lib' & Gl & Gl' & S). exists lib, lib'.
  split; [exact Gl|]. split; [exact Gl'|]. intros xs L.
  set (w := fun t => if sym_eqb t s then RtoC a else reading free xs t).
  assert (W : all_real w).
  { intros t. unfold w. destruct (sym_eqb t s); [eexists; reflexivity|]. apply reading_real. }
  destruct (S w xs (map (fun t => Re (w t)) free')) as (c & C1 & C2).
  - apply all_real_respects, W.
  - apply HR; [apply all_real_respects, W|]. unfold w. destruct (sym_eqb_spec s s); [reflexivity|congruence].
  - lia.
  - rewrite map_length. lia.
  - intros i t E. unfold w. destruct (sym_eqb_spec t s) as [->|_].
    + exfalso. apply Ns. apply nth_error_In in E. exact E.
    + apply (reading_assigns free xs (proj1 A)); [lia|exact E].
  - apply values_assigned, W.
  - exists (map (fun t => Re (w t)) free'), c. split; [apply map_length|]. auto.
Qed.
Print Assumptions C118_orientation.

(** The hypotheses are met: rotation by a real symbol, crystal C_3v, dark data. *)
Lemma rot_alpha_turns rho a : respects rho -> rho (mksym "alpha" (Some true)) = RtoC a -> teq (instance rho rot_alpha) (rot_z a).
Proof.
  intros Rs H. split; [reflexivity|]. intros i Ii. cbn in Ii.
  assert (X : eval rho (ECos alpha_) = RtoC (cos a)) by (change (Ccos (rho (mksym "alpha" (Some true))) = RtoC (cos a)); rewrite H; apply Ccos_R).
  assert (Y : eval rho (ESin alpha_) = RtoC (sin a)) by (change (Csin (rho (mksym "alpha" (Some true))) = RtoC (sin a)); rewrite H; apply Csin_R).
  repeat destruct Ii as [<-|Ii]; try contradiction; cbn [instance tmap at_ rot_alpha rot_z]; try exact X; try exact Y;
    rewrite ?ExprProofs.eval_mul; cbn [map fold_right]; rewrite ?Y; cbn [eval num]; unfold Q2R; cbn;
    apply C_ext; unfold Re, Im; simpl; field.
Qed.
Example C118_case : (forall rho a, respects rho -> rho (mksym "alpha" (Some true)) = RtoC a -> teq (instance rho rot_alpha) (rot_z a)) /\
  shape rot_alpha = [3; 3] /\ real_params (Some rot_alpha) /\
  exists d0 q0 d q d' q' fs' file F file' F' free free' lib lib',
    dipole "C_3v" = Ok d0 /\ quadrupole "C_3v" = Ok q0 /\ has_parameter d0 /\ has_parameter q0 /\
    make_tensor_real (fun l => l) d0 = Ok d /\ make_tensor_complex (fun l => l) ("real_", "imag_")%string ("", "")%string q0 = Ok q /\
    @transform expr (Sig_ev (fun e => e)) d rot_alpha = Ok d' /\ @transform expr (Sig_ev (fun e => e)) q rot_alpha = Ok q' /\
    generate_uncontracted_fourier_transforms (fun e => e) (1 # 10) "u" 16 [] = Ok fs' /\
    generate_contracted_fourier_transforms (fun e => e) (fun e => e) show "u" fs' d q 16 None = Ok file /\ load_fform read file = Ok F /\
    generate_contracted_fourier_transforms (fun e => e) (fun e => e) show "u" fs' d' q' 16 None = Ok file' /\ load_fform read file' = Ok F' /\
    gen_cost_func (fun e => e) F dark (Some free) false None [] = ([], Ok lib) /\
    gen_cost_func (fun e => e) F' (fst (phase_shift_fdata dark 1 true "radians")) (Some free') false None [] = ([], Ok lib') /\
    forall rho xs xs', respects rho -> teq (instance rho rot_alpha) (rot_z 1) -> length free <= length xs -> length free' <= length xs' ->
      assigns free xs rho -> assigns free' xs' rho -> exists c, call lib xs = Some c /\ call lib' xs' = Some c.
Proof.
  split; [exact rot_alpha_turns|]. split; [reflexivity|].
  assert (RA : real_params (Some rot_alpha)).
  { intros i s Ii. cbn in Ii. repeat destruct Ii as [<-|Ii]; try contradiction; cbn; intuition; subst; reflexivity. }
  split; [exact RA|].
  assert (D : exists d0, dipole "C_3v" = Ok d0 /\ has_parameter d0).
  { eexists. split; [reflexivity|]. exists [2; 2; 2]. eexists. split; [apply fits3; lia|]. left. reflexivity. }
  assert (Q : exists q0, quadrupole "C_3v" = Ok q0 /\ has_parameter q0).
  { eexists. split; [reflexivity|]. exists [2; 2; 2; 2]. eexists. split; [apply fits4; lia|]. left. reflexivity. }
  destruct D as (d0 & D & Nd), Q as (q0 & Q & Nq).
  destruct plain_tables as (T1 & _ & T3).
  destruct (plain_lookup _ _ _ _ T1 D) as (Pd & Sd). destruct (plain_lookup _ _ _ _ T3 Q) as (Pq & Sq).
  pose proof (real_is (fun l => l) d0 Pd) as Md. pose proof (complex_is (fun l => l) q0 Pq) as Mq.
  set (d := real_tensor (fun l => l) d0) in *. set (q := complex_tensor (fun l => l) q0) in *. clearbody d q.
  assert (Ho : iterates (fun l : list sym => l)) by (intros l; apply Permutation.Permutation_refl).
  destruct (prepared_ready (fun l => l) d0 d 3 Ho Pd Sd (or_introl Md)) as (Sd' & Rd & _ & _).
  destruct (prepared_ready (fun l => l) q0 q 4 Ho Pq Sq (or_intror Mq)) as (Sq' & Rq & _ & _).
  assert (G : good_tensors d q) by (split; [exact Sd'|split; [exact Sq'|split; [exact Rd|exact Rq]]]).
  destruct (C118_cost (fun e => e) (fun e => e) (fun e => e) (1 # 10) "u" [] d q rot_alpha show read PropertiesForm.id_sound FitProofs5.id_sound
    G eq_refl RA read_show)
    as (d' & q' & fs' & file & F & file' & F' & Td & Tq & E & EF & LF & EF' & LF' & (M & K & OK) & _ & H).
  destruct (some_arguments F) as (free & A). destruct (some_arguments F') as (free' & A').
  destruct (H dark 1%R true free free' false false None None [] [] (dark_matching F M K OK) A A') as (lib & lib' & Gl & Gl' & S).
  exists d0, q0, d, q, d', q', fs', file, F, file', F', free, free', lib, lib'. repeat (split; [assumption|]). exact S.
Qed.
