(** C119: what a crystal cannot produce cannot be fitted. *)
From Coq Require Import String List Arith ZArith Bool Lia Reals QArith Qreals Lra Permutation.
From Coquelicot Require Import Complex.
Import ListNotations.
From Verif Require Import PyBase CBase Expr ExprProofs SpecForm SpecFData FDataModel FormModel LookupTable TableProofs
  TensorInst TensorProofs UtilModel SpecUtil SpecFormgen FormgenModel FformgenModel SpecFformgen TensorDefs SpecGroups GroupProofs
  FormgenProofs FormgenProofs2 FormgenProofs4 FormgenThms FormgenThms2 FormgenTables FformgenProofs4 FformgenThms PropertiesTensor PropertiesFformgen SpecPhys PhysThms
  FitModel SpecFit FitProofs FitProofs2 PropertiesFit Printer SpecSym SymProofs2 PropertiesSym NestProofs TurnProofs SpecForbid ForbidProofs.
From Verif Require Import SpecTensor TensorModel.
Local Open Scope nat_scope.

(** Fourier formulas of tensors invariant under an n-th of a turn about z contain
    multiples of n up to 8 only.  Whatever the parameters, the misfit is at least the
    power of the data in the other orders. *)
Theorem C119_orders : forall ev expand aoi prefix fs d q srepr parse, sound_ev ev -> good_tensors d q -> (forall e, parse (srepr e) = Ok e) ->
  exists fs' file F, generate_uncontracted_fourier_transforms ev aoi prefix 16 fs = Ok fs' /\
    generate_contracted_fourier_transforms ev expand srepr prefix fs' d q 16 None = Ok file /\ load_fform parse file = Ok F /\
    (ff_M F = 16 /\ dkeys (ff_rows F) = ["PP"; "PS"; "SP"; "SS"]%string /\ formula_ok F) /\
    forall rho n, respects rho -> (0 < n)%Z -> opt_invariant rho (Some d) (rot_z (2 * PI / IZR n)) -> opt_invariant rho (Some q) (rot_z (2 * PI / IZR n)) ->
      (forall inp out r m, ff_get_pc F (key inp out) = Ok r -> In m (freqs 16) -> (~ (n | m) \/ 8 < Z.abs m)%Z -> cell rho r m = RtoC 0) /\
      forall D, (lost D n <= misfit F D rho)%R.
Proof. intros ev expand aoi prefix fs d q srepr parse EV. exact (forbidden_chain ev expand EV aoi prefix fs d q srepr parse). Qed.
Print Assumptions C119_orders.

(** Crystals of the tables with an n-fold axis along z: no value of the cost is below
    this power. *)
Theorem C119_cost : forall ev expand kev order aoi prefix fs nd nq n d0 q0 d q gens gens' ord ord' srepr parse, sound_ev ev -> sound_kev kev -> iterates order ->
  dipole nd = Ok d0 -> quadrupole nq = Ok q0 ->
  dget nd dipole_groups = Some (gens, ord) -> dget nq quadrupole_groups = Some (gens', ord') -> (0 < n)%Z -> has_axis n gens -> has_axis n gens' ->
  prepared order d0 d -> prepared order q0 q -> (forall e, parse (srepr e) = Ok e) ->
  exists fs' file F, generate_uncontracted_fourier_transforms ev aoi prefix 16 fs = Ok fs' /\
    generate_contracted_fourier_transforms ev expand srepr prefix fs' d q 16 None = Ok file /\ load_fform parse file = Ok F /\
    (ff_M F = 16 /\ dkeys (ff_rows F) = ["PP"; "PS"; "SP"; "SS"]%string /\ formula_ok F) /\
    forall D free chunk save lfs, matching F D -> argument_list F free ->
      exists lib, gen_cost_func kev F D (Some free) chunk save lfs = (save_lib save lib lfs, Ok lib) /\
        forall xs, length xs = length free -> exists c, call lib xs = Some c /\ (lost D n <= c)%R.
Proof.
  intros ev expand kev order aoi prefix fs nd nq n d0 q0 d q gens gens' ord ord' srepr parse EV KEV Ho D0 Q0 G G' Pn A A' Pd Pq P.
  destruct (prepared_axis order nd nq n d0 q0 d q gens gens' ord ord' rho1 Ho D0 Q0 G G' A A' Pd Pq) as (Gd & _).
  destruct (C119_orders ev expand aoi prefix fs d q srepr parse EV Gd P) as (fs' & file & F & E1 & E2 & E3 & (M & K & OK) & H).
  exists fs', file, F. do 3 (split; [assumption|]). split; [auto|]. intros D free chunk save lfs Ma Ar.
  destruct (cost_ok kev KEV F D free chunk save lfs Ma Ar) as (lib & Gl & Cp).
  { intros _ Z. rewrite Z in K. discriminate K. }
  exists lib. split; [exact Gl|]. intros xs L. exists (misfit F D (reading free xs)).
  split; [apply Cp; [lia|apply reading_assigns; [apply Ar|lia]]|].
  destruct (prepared_axis order nd nq n d0 q0 d q gens gens' ord ord' (reading free xs) Ho D0 Q0 G G' A A' Pd Pq) as (_ & I1 & I2).
  apply (proj2 (H (reading free xs) n (reading_respects free xs) Pn I1 I2)).
Qed.
Print Assumptions C119_cost.

(** The hypotheses are met, and the bound is not trivial: a crystal C_4, and data
    with a threefold pattern in PP. *)
Definition threefold : fdat := mkfdat [("PP"%string, map (fun m => if (Z.abs m =? 3)%Z then RtoC 1 else RtoC 0) (freqs 16)); ("PS"%string, repeat (RtoC 0) 33);
  ("SP"%string, repeat (RtoC 0) 33); ("SS"%string, repeat (RtoC 0) 33)] 1 (PNum 0) 16.
Lemma threefold_matching F : ff_M F = 16 -> dkeys (ff_rows F) = ["PP"; "PS"; "SP"; "SS"]%string -> formula_ok F -> matching F threefold.
Proof.
  intros M K OK. split; [exact OK|]. split; [|split; [symmetry; exact M|]].
  - split; [cbn [threefold fd_data map fst]; repeat constructor; cbn; intuition discriminate|]. intros k v I. cbn [threefold fd_data In] in I.
    repeat destruct I as [I|I]; try contradiction; injection I as _ <-; reflexivity.
  - intros k I. change (In k (dkeys (ff_rows F))) in I. rewrite K in I. exact I.
Qed.
Lemma threefold_lost : lost threefold 4 = 2%R.
Proof.
  assert (E : filter (forbidden 4) (freqs 16) =
    ([-16; -15; -14; -13; -12; -11; -10; -9; -7; -6; -5; -3; -2; -1; 1; 2; 3; 5; 6; 7; 9; 10; 11; 12; 13; 14; 15; 16])%Z) by reflexivity.
  assert (Z0 : forall k m, In k ["PS"; "SP"; "SS"]%string -> (Cmod (dvalue threefold k m) ^ 2 = 0)%R).
  { intros k m I. assert (X : dvalue threefold k m = RtoC 0).
    { repeat destruct I as [<-|I]; try contradiction; apply nth_repeat. }
    rewrite X, Cmod_0. ring. }
  assert (Z1 : forall m, In m (filter (forbidden 4) (freqs 16)) -> (Cmod (dvalue threefold "PP" m) ^ 2 = if (Z.abs m =? 3)%Z then 1 else 0)%R).
  { intros m I. apply filter_In in I as [I _]. change (dvalue threefold "PP" m) with (coef 16 (map (fun m => if (Z.abs m =? 3)%Z then RtoC 1 else RtoC 0) (freqs 16)) m).
    rewrite (FDataProofs.coef_map_freqs 16 (fun m => if (Z.abs m =? 3)%Z then RtoC 1 else RtoC 0)) by (apply In_freqs in I; lia).
    destruct (Z.abs m =? 3)%Z; rewrite ?Cmod_1, ?Cmod_0; ring. }
  unfold lost. unfold rsum at 1. cbn [fold_right].
  rewrite (rsum_ext _ _ _ Z1). do 3 (rewrite (rsum_ext (fun m => (Cmod (dvalue threefold _ m) ^ 2)%R) (fun _ => 0%R)) by (intros m _; apply Z0; cbn; auto)).
  rewrite E. unfold rsum. simpl. ring.
Qed.
Example C119_case : lost threefold 4 = 2%R /\ has_axis 4 [C4z] /\
  exists d0 q0 d q fs' file F free lib, dipole "C_4" = Ok d0 /\ quadrupole "C_4" = Ok q0 /\
    make_tensor_real (fun l => l) d0 = Ok d /\ make_tensor_complex (fun l => l) ("real_", "imag_")%string ("", "")%string q0 = Ok q /\
    generate_uncontracted_fourier_transforms (fun e => e) (1 # 10) "u" 16 [] = Ok fs' /\
    generate_contracted_fourier_transforms (fun e => e) (fun e => e) show "u" fs' d q 16 None = Ok file /\ load_fform read file = Ok F /\
    gen_cost_func (fun e => e) F threefold (Some free) false None [] = ([], Ok lib) /\
    forall xs, length xs = length free -> exists c, call lib xs = Some c /\ (2 <= c)%R.
Proof.
  split; [exact threefold_lost|].
  assert (A : has_axis 4 [C4z]).
  { exists (matmul 3 (identity 3) (mat C4z)). split; [apply gen_step; [apply gen_1|left; reflexivity]|].
    replace (2 * PI / 4)%R with (PI / 2)%R by field. apply (teq_trans _ (mat C4z)); [|apply C38_angles]. apply unit_left. }
  split; [exact A|].
  assert (D : exists d0, dipole "C_4" = Ok d0) by (eexists; reflexivity).
  assert (Q : exists q0, quadrupole "C_4" = Ok q0) by (eexists; reflexivity).
  destruct D as (d0 & D), Q as (q0 & Q). destruct plain_tables as (T1 & _ & T3).
  pose proof (real_is (fun l => l) d0 (proj1 (plain_lookup _ _ _ _ T1 D))) as Md.
  pose proof (complex_is (fun l => l) q0 (proj1 (plain_lookup _ _ _ _ T3 Q))) as Mq.
  set (d := real_tensor (fun l => l) d0) in *. set (q := complex_tensor (fun l => l) q0) in *. clearbody d q.
  destruct (C119_cost (fun e => e) (fun e => e) (fun e => e) (fun l => l) (1 # 10) "u" [] "C_4" "C_4" 4 d0 q0 d q [C4z] [C4z] 4 4 show read
    PropertiesForm.id_sound FitProofs5.id_sound) as (fs' & file & F & E1 & E2 & E3 & (M & K & OK) & H); auto; try reflexivity.
  { intros l. apply Permutation.Permutation_refl. }
  { left; exact Md. }
  { right; exact Mq. }
  { exact read_show. }
  destruct (some_arguments F) as (free & Ar).
  destruct (H threefold free false None [] (threefold_matching F M K OK) Ar) as (lib & Gl & S).
  exists d0, q0, d, q, fs', file, F, free, lib. do 8 (split; [assumption|]). intros xs L. destruct (S xs L) as (c & C1 & C2).
  exists c. split; [exact C1|]. rewrite <- threefold_lost. exact C2.
Qed.
