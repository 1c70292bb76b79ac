(** C136: the unit of the intensity. *)
From Coq Require Import String Ascii List Arith ZArith Bool Lia Reals QArith Lra Permutation.
From Coquelicot Require Import Complex.
Import ListNotations.
From Verif Require Import PyBase CBase Expr ExprProofs SpecForm SpecData SpecFData DataModel FDataModel SpecLin PropertiesLin FormModel LookupTable TableProofs
  TensorInst UtilModel SpecUtil SpecFormgen FormgenModel FformgenModel SpecFformgen TensorDefs
  FormgenProofs FormgenProofs2 FormgenProofs4 FormgenThms FormgenTables FformgenProofs4 FformgenThms PropertiesFformgen SpecPhys PhysThms
  FitModel SpecFit PropertiesFit Printer SpecSym SymProofs2 PropertiesSym ConstrainProofs SpecUnit UnitProofs.
From Verif Require Import SpecTensor TensorModel.
Local Open Scope nat_scope.

(* ================================================================== *)
(** * C136 *)

(** Crystals from the tables.  Data scaled or normalized: the cost of tensors
    that are larger by the square root of the factor is the cost before, times
    the square of the factor; so the best fits are the best fits before, times
    the square root. *)
Theorem C136_cost : forall ev expand kev order aoi prefix fs name name' d0 q0 d q srepr parse, sound_ev ev -> sound_kev kev -> iterates order ->
  dipole_entry name d0 -> quadrupole name' = Ok q0 -> prepared order d0 d -> prepared order q0 q -> (forall e, parse (srepr e) = Ok e) ->
  exists fs' file F, generate_uncontracted_fourier_transforms ev aoi prefix 16 fs = Ok fs' /\
    generate_contracted_fourier_transforms ev expand srepr prefix fs' d q 16 None = Ok file /\ load_fform parse file = Ok F /\
    ff_M F = 16 /\ dkeys (ff_rows F) = ["PP"; "PS"; "SP"; "SS"]%string /\ formula_ok F /\
    (forall D o free chunk chunk' save save' lfs lfs', matching F D -> argument_list F free ->
      (exists x, o = FScale x \/ o = FNormalize x) -> snd (fstep D o) = Ok tt ->
      exists u lib lib', (0 <= u)%R /\ fget_scale (fst (fstep D o)) = (fget_scale D * u)%R /\
        gen_cost_func kev F D (Some free) chunk save lfs = (save_lib save lib lfs, Ok lib) /\
        gen_cost_func kev F (fst (fstep D o)) (Some free) chunk' save' lfs' = (save_lib save' lib' lfs', Ok lib') /\
        (forall xs, length xs = length free -> exists c, call lib xs = Some c /\ call lib' (times (sqrt u) xs) = Some (u ^ 2 * c)%R) /\
        ((0 < u)%R -> forall xs, minimises lib (length free) xs <-> minimises lib' (length free) (times (sqrt u) xs))) /\
    (forall interp dc D u free chunk chunk' save save' lfs lfs', linear_interp interp -> reachable dc -> dat_to_fdat interp dc 16 = Ok D -> matching F D ->
      argument_list F free -> (0 < u)%R ->
      exists D' lib lib', dat_to_fdat interp (fst (scale_data dc u)) 16 = Ok D' /\
        gen_cost_func kev F D (Some free) chunk save lfs = (save_lib save lib lfs, Ok lib) /\
        gen_cost_func kev F D' (Some free) chunk' save' lfs' = (save_lib save' lib' lfs', Ok lib') /\
        forall xs, minimises lib (length free) xs <-> minimises lib' (length free) (times (sqrt u) xs)).
Proof.
  intros ev expand kev order aoi prefix fs name name' d0 q0 d q srepr parse EV KEV Ho Ed Eq Pd Pq P.
  destruct (dipole_entry_plain name d0 Ed) as (Pl & Sd).
  assert (Ld : forall i, linear (at_ d0 i) = true).
  { destruct linear_tables as (T1 & T2 & _). destruct Ed as [Ed|Ed]; [exact (linear_lookup _ _ _ _ T1 Ed)|exact (linear_lookup _ _ _ _ T2 Ed)]. }
  destruct plain_tables as (_ & _ & T3). destruct (plain_lookup _ _ _ _ T3 Eq) as (Plq & Sq).
  assert (Lq : forall i, linear (at_ q0 i) = true) by (exact (linear_lookup _ _ _ _ (proj2 (proj2 linear_tables)) Eq)).
  destruct (scale_chain ev expand EV order Ho aoi prefix fs d0 q0 d q srepr parse Pl Plq Sd Sq Ld Lq Pd Pq P) as (fs' & file & F & E & EF & LF & M & K & OK & H).
  exists fs', file, F. do 6 (split; [assumption|]).
  assert (NE : ff_rows F <> []) by (intros Z; rewrite Z in K; discriminate K).
  split.
  - intros D o free chunk chunk' save save' lfs lfs' Ma A T G.
    destruct (units_step D o T G) as (u & Pu & Sc & Re).
    destruct (unit_cost kev F D _ u free chunk chunk' save save' lfs lfs' KEV M Ma NE Re Pu H A) as (lib & lib' & G1 & G2 & C).
    exists u, lib, lib'. do 5 (split; [assumption|]). intros Pos.
    exact (unit_minimises lib lib' (length free) (sqrt u) (u ^ 2) (sqrt_lt_R0 u Pos) (pow_lt u 2 Pos) C).
  - intros interp dc D u free chunk chunk' save save' lfs lfs' Li Rc ED Ma A Pos.
    destruct (C89_scale interp dc 16 D u Li Rc (Rlt_le _ _ Pos) ED) as (D' & ED' & M' & It).
    destruct (scaled_facts D u (Rlt_le _ _ Pos)) as (_ & S1 & S2).
    assert (Re : rescaled u D D').
    { split; [change (fget_items D' = dmap (map (Cmult (RtoC u))) (fd_data D)); rewrite It; exact S1|]. change (fget_M D' = fd_M D). rewrite M'. symmetry. rewrite (proj1 (proj2 (proj2 Ma))). exact M. }
    destruct (unit_cost kev F D D' u free chunk chunk' save save' lfs lfs' KEV M Ma NE Re (Rlt_le _ _ Pos) H A) as (lib & lib' & G1 & G2 & C).
    exists D', lib, lib'. do 3 (split; [assumption|]).
    exact (unit_minimises lib lib' (length free) (sqrt u) (u ^ 2) (sqrt_lt_R0 u Pos) (pow_lt u 2 Pos) C).
Qed.
Print Assumptions C136_cost.

(** Data whose coefficients are all 1. *)
Definition flash : fdat := mkfdat (map (fun k => (k, repeat (RtoC 1) 33)) ["PP"; "PS"; "SP"; "SS"]%string) 1 (PNum 0) 16.

(** C_3v dipole and O_h quadrupole; data four times as large, tensors twice. *)
Example C136_case : exists d0 q0 d q fs' file F free lib lib', dipole_entry "C_3v" d0 /\ quadrupole "O_h" = Ok q0 /\
  make_tensor_real (fun l => l) d0 = Ok d /\ make_tensor_complex (fun l => l) ("real_", "imag_")%string ("", "")%string q0 = Ok q /\ has_parameter d0 /\ has_parameter q0 /\
  generate_uncontracted_fourier_transforms (fun e => e) (1 # 10) "u" 16 [] = Ok fs' /\
  generate_contracted_fourier_transforms (fun e => e) (fun e => e) show "u" fs' d q 16 None = Ok file /\
  load_fform read file = Ok F /\ matching F flash /\ argument_list F free /\
  gen_cost_func (fun e => e) F flash (Some free) false None [] = ([], Ok lib) /\
  gen_cost_func (fun e => e) F (fst (scale_fdata flash 4)) (Some free) true None [] = ([], Ok lib') /\
  forall xs, minimises lib (length free) xs <-> minimises lib' (length free) (times 2 xs).
Proof.
  assert (D : exists d0, dipole_entry "C_3v" d0 /\ has_parameter d0).
  { eexists. split; [left; reflexivity|]. exists [2; 2; 2]. eexists. split; [apply fits3; lia|]. left. reflexivity. }
  assert (Q : exists q0, quadrupole "O_h" = Ok q0 /\ has_parameter q0).
  { eexists. split; [reflexivity|]. exists [0; 0; 0; 0]. eexists. split; [apply fits4; lia|]. left. reflexivity. }
  destruct D as (d0 & Ed & Nd), Q as (q0 & Eq & Nq).
  destruct (dipole_entry_plain _ d0 Ed) as (Pl & _). destruct plain_tables as (_ & _ & T3). destruct (plain_lookup _ _ _ _ T3 Eq) as (Plq & _).
  pose proof (real_is (fun l => l) d0 Pl) as Md. pose proof (complex_is (fun l => l) q0 Plq) as Mq.
  set (d := real_tensor (fun l => l) d0) in *. set (q := complex_tensor (fun l => l) q0) in *. clearbody d q.
  destruct (C136_cost (fun e => e) (fun e => e) (fun e => e) (fun l => l) (1 # 10) "u" [] "C_3v" "O_h" d0 q0 d q show read PropertiesForm.id_sound FitProofs5.id_sound)
    as (fs' & file & F & E & EF & LF & M & K & OK & H & _); auto.
  { intros l. apply Permutation.Permutation_refl. }
  { left; exact Md. }
  { right; exact Mq. }
  { exact read_show. }
  destruct (some_arguments F) as (free & A).
  assert (Ma : matching F flash).
  { split; [exact OK|]. split; [|split; [symmetry; exact M|intros k I; change (In k (dkeys (ff_rows F))) in I; rewrite K in I; exact I]].
    split; [repeat constructor; cbn; intuition discriminate|]. intros k v I. cbn in I. destruct I as [I|[I|[I|[I|[]]]]]; injection I as <- <-; reflexivity. }
  assert (Pos : (0 <= 4)%R) by lra. destruct (scaled_facts flash 4 Pos) as (Ok4 & _).
  destruct (H flash (FScale 4) free false true None None [] [] Ma A (ex_intro _ 4%R (or_introl eq_refl)) Ok4) as (u & lib & lib' & _ & Su & G & G' & _ & S).
  assert (u = 4%R).
  { cbn [fstep] in Su. unfold scale_fdata in Su. destruct (RMod.Rltb 4 0) eqn:N; [rewrite (proj2 (RMod.Rltb_false 4 0)) in N by exact Pos; discriminate N|].
    unfold fget_scale, flash in Su. cbn [fst fd_scale] in Su. lra. }
  subst u. assert (Sq4 : sqrt 4 = 2%R). { replace 4%R with (2 * 2)%R by ring. apply sqrt_square. lra. }
  rewrite Sq4 in S. exists d0, q0, d, q, fs', file, F, free, lib, lib'. do 13 (split; [assumption|]). apply S. lra.
Qed.
