(** C117: crystals of lower symmetry fit at least as well. *)
From Coq Require Import String List Arith ZArith Bool Lia Reals QArith Permutation.
From Coquelicot Require Import Complex.
Import ListNotations.
From Verif Require Import PyBase CBase Expr ExprProofs SpecForm SpecFData FDataModel FormModel LookupTable TableProofs
  TensorInst UtilModel SpecUtil SpecFormgen FormgenModel FformgenModel SpecFformgen TensorDefs SpecGroups GroupProofs
  FormgenProofs FormgenProofs2 FormgenProofs4 FormgenThms FormgenTables FformgenProofs4 FformgenThms PropertiesFformgen SpecPhys PhysThms
  FitModel SpecFit PropertiesFit Printer SpecSym PropertiesSym SpecSymmetry SymmetryProofs PropertiesSymmetry NestProofs.
From Verif Require Import SpecTensor TensorModel.
Local Open Scope nat_scope.

(** The crystal of lower symmetry has complex parameters; those of the other one
    may be real or complex.  Both formulas are fitted to the same data: each value
    of the second cost function is a value of the first. *)
Theorem C117_complex : forall ev expand kev order aoi prefix fs nd nq nd' nq' d0 q0 d0' q0' d q d' q' srepr parse,
  sound_ev ev -> sound_kev kev -> iterates order -> (forall e, parse (srepr e) = Ok e) ->
  dipole nd = Ok d0 -> quadrupole nq = Ok q0 -> dipole nd' = Ok d0' -> quadrupole nq' = Ok q0' -> lower_symmetry nd nq nd' nq' ->
  make_tensor_complex order ("real_", "imag_")%string ("", "")%string d0 = Ok d ->
  make_tensor_complex order ("real_", "imag_")%string ("", "")%string q0 = Ok q ->
  prepared order d0' d' -> prepared order q0' q' ->
  exists fs' file F file' F', generate_uncontracted_fourier_transforms ev aoi prefix 16 fs = Ok fs' /\
    generate_contracted_fourier_transforms ev expand srepr prefix fs' d q 16 None = Ok file /\ load_fform parse file = Ok F /\
    generate_contracted_fourier_transforms ev expand srepr prefix fs' d' q' 16 None = Ok file' /\ load_fform parse file' = Ok F' /\
    (ff_M F = 16 /\ dkeys (ff_rows F) = ["PP"; "PS"; "SP"; "SS"]%string /\ formula_ok F) /\
    (ff_M F' = 16 /\ dkeys (ff_rows F') = ["PP"; "PS"; "SP"; "SS"]%string /\ formula_ok F') /\
    forall D free free' chunk chunk' save save' lfs lfs', matching F D -> matching F' D -> argument_list F free -> argument_list F' free' ->
      exists lib lib', gen_cost_func kev F D (Some free) chunk save lfs = (save_lib save lib lfs, Ok lib) /\
        gen_cost_func kev F' D (Some free') chunk' save' lfs' = (save_lib save' lib' lfs', Ok lib') /\
        forall xs', length xs' = length free' -> exists xs c, length xs = length free /\ call lib' xs' = Some c /\ call lib xs = Some c.
Proof.
  intros ev expand kev order aoi prefix fs nd nq nd' nq' d0 q0 d0' q0' d q d' q' srepr parse EV KEV Ho P D Q D' Q' Low Ed Eq Ed' Eq'.
  destruct Low as (gd & o1 & gq & o2 & gd' & o3 & gq' & o4 & Hd & Hq & Hd' & Hq' & Sd & Sq).
  destruct plain_tables as (T1 & _ & T3).
  destruct (plain_lookup _ _ _ _ T1 D) as (Pd & Shd). destruct (plain_lookup _ _ _ _ T3 Q) as (Pq & Shq).
  destruct (plain_lookup _ _ _ _ T1 D') as (Pd' & Shd'). destruct (plain_lookup _ _ _ _ T3 Q') as (Pq' & Shq').
  pose proof (C113_dipole nd nd' d0 d0' gd gd' o1 o3 D D' Hd Hd' Sd) as Cd.
  pose proof (C113_quadrupole nq nq' q0 q0' gq gq' o2 o4 Q Q' Hq Hq' Sq) as Cq.
  apply (nested_cost order d0 q0 d0' q0' d q d' q'); auto; try (right; assumption).
  exact (nested_complex order d0 q0 d0' q0' d q d' q' Ho Pd Pq Pd' Pq' Shd Shq Shd' Shq'
    (named_lookup _ _ _ _ _ (proj1 named_tables) D) (named_lookup _ _ _ _ _ (proj2 named_tables) Q) Cd Cq Ed' Eq' Ed Eq).
Qed.
Print Assumptions C117_complex.

(** Both crystals have real parameters. *)
Theorem C117_real : forall ev expand kev order aoi prefix fs nd nq nd' nq' d0 q0 d0' q0' d q d' q' srepr parse,
  sound_ev ev -> sound_kev kev -> iterates order -> (forall e, parse (srepr e) = Ok e) ->
  dipole nd = Ok d0 -> quadrupole nq = Ok q0 -> dipole nd' = Ok d0' -> quadrupole nq' = Ok q0' -> lower_symmetry nd nq nd' nq' ->
  make_tensor_real order d0 = Ok d -> make_tensor_real order q0 = Ok q ->
  make_tensor_real order d0' = Ok d' -> make_tensor_real order q0' = Ok q' ->
  exists fs' file F file' F', generate_uncontracted_fourier_transforms ev aoi prefix 16 fs = Ok fs' /\
    generate_contracted_fourier_transforms ev expand srepr prefix fs' d q 16 None = Ok file /\ load_fform parse file = Ok F /\
    generate_contracted_fourier_transforms ev expand srepr prefix fs' d' q' 16 None = Ok file' /\ load_fform parse file' = Ok F' /\
    (ff_M F = 16 /\ dkeys (ff_rows F) = ["PP"; "PS"; "SP"; "SS"]%string /\ formula_ok F) /\
    (ff_M F' = 16 /\ dkeys (ff_rows F') = ["PP"; "PS"; "SP"; "SS"]%string /\ formula_ok F') /\
    forall D free free' chunk chunk' save save' lfs lfs', matching F D -> matching F' D -> argument_list F free -> argument_list F' free' ->
      exists lib lib', gen_cost_func kev F D (Some free) chunk save lfs = (save_lib save lib lfs, Ok lib) /\
        gen_cost_func kev F' D (Some free') chunk' save' lfs' = (save_lib save' lib' lfs', Ok lib') /\
        forall xs', length xs' = length free' -> exists xs c, length xs = length free /\ call lib' xs' = Some c /\ call lib xs = Some c.
Proof.
  intros ev expand kev order aoi prefix fs nd nq nd' nq' d0 q0 d0' q0' d q d' q' srepr parse EV KEV Ho P D Q D' Q' Low Ed Eq Ed' Eq'.
  destruct Low as (gd & o1 & gq & o2 & gd' & o3 & gq' & o4 & Hd & Hq & Hd' & Hq' & Sd & Sq).
  destruct plain_tables as (T1 & _ & T3). destruct real_linear_tables as (R1 & R2).
  destruct (plain_lookup _ _ _ _ T1 D) as (Pd & Shd). destruct (plain_lookup _ _ _ _ T3 Q) as (Pq & Shq).
  destruct (plain_lookup _ _ _ _ T1 D') as (Pd' & Shd'). destruct (plain_lookup _ _ _ _ T3 Q') as (Pq' & Shq').
  pose proof (C113_dipole nd nd' d0 d0' gd gd' o1 o3 D D' Hd Hd' Sd) as Cd.
  pose proof (C113_quadrupole nq nq' q0 q0' gq gq' o2 o4 Q Q' Hq Hq' Sq) as Cq.
  apply (nested_cost order d0 q0 d0' q0' d q d' q'); auto; try (left; assumption).
  exact (nested_real order d0 q0 d0' q0' d q d' q' Ho Pd Pq Pd' Pq' Shd Shq Shd' Shq'
    (named_lookup _ _ _ _ _ (proj1 named_tables) D) (named_lookup _ _ _ _ _ (proj2 named_tables) Q) Cd Cq
    (real_linear_lookup _ _ _ _ R1 D) (real_linear_lookup _ _ _ _ R2 Q) (real_linear_lookup _ _ _ _ R1 D') (real_linear_lookup _ _ _ _ R2 Q')
    Ed' Eq' Ed Eq).
Qed.
Print Assumptions C117_real.

(** The hypotheses are met: crystals C_2v and C_4v, complex parameters. *)
Example C117_case : lower_symmetry "C_2v" "C_2v" "C_4v" "C_4v" /\
  exists d0 q0 d0' q0' d q d' q' fs' file F file' F' free free' lib lib',
    dipole "C_2v" = Ok d0 /\ quadrupole "C_2v" = Ok q0 /\ dipole "C_4v" = Ok d0' /\ quadrupole "C_4v" = Ok q0' /\
    has_parameter d0' /\ has_parameter q0' /\
    make_tensor_complex (fun l => l) ("real_", "imag_")%string ("", "")%string d0 = Ok d /\
    make_tensor_complex (fun l => l) ("real_", "imag_")%string ("", "")%string q0 = Ok q /\
    make_tensor_real (fun l => l) d0' = Ok d' /\
    make_tensor_complex (fun l => l) ("real_", "imag_")%string ("", "")%string q0' = Ok q' /\
    generate_uncontracted_fourier_transforms (fun e => e) (1 # 10) "u" 16 [] = Ok fs' /\
    generate_contracted_fourier_transforms (fun e => e) (fun e => e) show "u" fs' d q 16 None = Ok file /\ load_fform read file = Ok F /\
    generate_contracted_fourier_transforms (fun e => e) (fun e => e) show "u" fs' d' q' 16 None = Ok file' /\ load_fform read file' = Ok F' /\
    gen_cost_func (fun e => e) F dark (Some free) false None [] = ([], Ok lib) /\
    gen_cost_func (fun e => e) F' dark (Some free') true None [] = ([], Ok lib') /\
    forall xs', length xs' = length free' -> exists xs c, length xs = length free /\ call lib' xs' = Some c /\ call lib xs = Some c.
Proof.
  assert (Low : lower_symmetry "C_2v" "C_2v" "C_4v" "C_4v").
  { do 8 eexists. do 4 (split; [reflexivity|]). split; apply sub_check_ok; vm_compute; reflexivity. }
  split; [exact Low|].
  assert (D : exists d0, dipole "C_2v" = Ok d0) by (eexists; reflexivity).
  assert (Q : exists q0, quadrupole "C_2v" = Ok q0) by (eexists; reflexivity).
  assert (D' : exists d0, dipole "C_4v" = Ok d0 /\ has_parameter d0).
  { eexists. split; [reflexivity|]. exists [2; 2; 2]. eexists. split; [apply fits3; lia|]. left. reflexivity. }
  assert (Q' : exists q0, quadrupole "C_4v" = Ok q0 /\ has_parameter q0).
  { eexists. split; [reflexivity|]. exists [0; 0; 0; 0]. eexists. split; [apply fits4; lia|]. left. reflexivity. }
  destruct D as (d0 & D), Q as (q0 & Q), D' as (d0' & D' & Nd), Q' as (q0' & Q' & Nq).
  destruct plain_tables as (T1 & _ & T3).
  pose proof (complex_is (fun l => l) d0 (proj1 (plain_lookup _ _ _ _ T1 D))) as Md.
  pose proof (complex_is (fun l => l) q0 (proj1 (plain_lookup _ _ _ _ T3 Q))) as Mq.
  pose proof (real_is (fun l => l) d0' (proj1 (plain_lookup _ _ _ _ T1 D'))) as Md'.
  pose proof (complex_is (fun l => l) q0' (proj1 (plain_lookup _ _ _ _ T3 Q'))) as Mq'.
  set (d := complex_tensor (fun l => l) d0) in *. set (q := complex_tensor (fun l => l) q0) in *.
  set (d' := real_tensor (fun l => l) d0') in *. set (q' := complex_tensor (fun l => l) q0') in *. clearbody d q d' q'.
  destruct (C117_complex (fun e => e) (fun e => e) (fun e => e) (fun l => l) (1 # 10) "u" [] "C_2v" "C_2v" "C_4v" "C_4v" d0 q0 d0' q0'
    d q d' q' show read PropertiesForm.id_sound FitProofs5.id_sound)
    as (fs' & file & F & file' & F' & E & EF & LF & EF' & LF' & (M & K & OK) & (M' & K' & OK') & H); auto.
  { intros l. apply Permutation.Permutation_refl. }
  { exact read_show. }
  { left; exact Md'. }
  { right; exact Mq'. }
  destruct (some_arguments F) as (free & A). destruct (some_arguments F') as (free' & A').
  destruct (H dark free free' false true None None [] [] (dark_matching F M K OK) (dark_matching F' M' K' OK') A A') as (lib & lib' & G & G' & S).
  exists d0, q0, d0', q0', d, q, d', q', fs', file, F, file', F', free, free', lib, lib'. repeat (split; [assumption|]). exact S.
Qed.
