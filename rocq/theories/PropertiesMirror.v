(** C129: crystals with a mirror plane. *)
From Coq Require Import String List Arith ZArith Bool Lia Reals QArith Qreals Lra Permutation.
From Coquelicot Require Import Complex.
Import ListNotations.
From Verif Require Import PyBase CBase Expr ExprProofs SpecForm SpecFData FDataModel FormModel LookupTable TableProofs
  TensorInst TensorProofs UtilModel SpecUtil SpecFormgen FormgenModel FformgenModel SpecFformgen TensorDefs SpecGroups GroupProofs
  FormgenProofs FormgenProofs2 FormgenProofs4 FormgenThms FormgenThms2 FormgenTables FformgenProofs4 FformgenThms PropertiesTensor PropertiesFformgen SpecPhys PhysThms
  FitModel SpecFit FitProofs FitProofs2 PropertiesFit Printer SpecSym SymProofs2 PropertiesSym NestProofs TurnProofs SpecMirror ForbidProofs MirrorProofs.
From Verif Require PropertiesPhys.
From Verif Require Import SpecTensor TensorModel.
Local Open Scope nat_scope.

(** When both tensors are invariant under the mirror plane at the angle a, every
    Fourier coefficient, seen from that plane, is real.  Whatever the parameters, the
    misfit is at least the power of the odd part of the data. *)
Theorem C129_even : forall ev expand aoi prefix fs d q srepr parse, sound_ev ev -> good_tensors d q -> (forall e, parse (srepr e) = Ok e) ->
  exists fs' file F, generate_uncontracted_fourier_transforms ev aoi prefix 16 fs = Ok fs' /\
    generate_contracted_fourier_transforms ev expand srepr prefix fs' d q 16 None = Ok file /\ load_fform parse file = Ok F /\
    (ff_M F = 16 /\ dkeys (ff_rows F) = ["PP"; "PS"; "SP"; "SS"]%string /\ formula_ok F) /\
    forall rho a, respects rho -> opt_invariant rho (Some d) (mirror_z a) -> opt_invariant rho (Some q) (mirror_z a) ->
      (forall inp out r m, ff_get_pc F (key inp out) = Ok r -> In m (freqs 16) -> Im (cell rho r m * cis (- (IZR m * a)))%C = 0%R) /\
      forall D, (odd_power D a <= misfit F D rho)%R.
Proof. intros ev expand aoi prefix fs d q srepr parse EV. exact (mirror_chain ev expand EV aoi prefix fs d q srepr parse). Qed.
Print Assumptions C129_even.

(** Crystals of the tables with a mirror plane through z: no value of the cost is
    below this power. *)
Theorem C129_cost : forall ev expand kev order aoi prefix fs nd nq a d0 q0 d q gens gens' ord ord' srepr parse, sound_ev ev -> sound_kev kev -> iterates order ->
  dipole nd = Ok d0 -> quadrupole nq = Ok q0 ->
  dget nd dipole_groups = Some (gens, ord) -> dget nq quadrupole_groups = Some (gens', ord') -> has_mirror a gens -> has_mirror a gens' ->
  prepared order d0 d -> prepared order q0 q -> (forall e, parse (srepr e) = Ok e) ->
  exists fs' file F, generate_uncontracted_fourier_transforms ev aoi prefix 16 fs = Ok fs' /\
    generate_contracted_fourier_transforms ev expand srepr prefix fs' d q 16 None = Ok file /\ load_fform parse file = Ok F /\
    (ff_M F = 16 /\ dkeys (ff_rows F) = ["PP"; "PS"; "SP"; "SS"]%string /\ formula_ok F) /\
    forall D free chunk save lfs, matching F D -> argument_list F free ->
      exists lib, gen_cost_func kev F D (Some free) chunk save lfs = (save_lib save lib lfs, Ok lib) /\
        forall xs, length xs = length free -> exists c, call lib xs = Some c /\ (odd_power D a <= c)%R.
Proof.
  intros ev expand kev order aoi prefix fs nd nq a d0 q0 d q gens gens' ord ord' srepr parse EV KEV Ho D0 Q0 G G' A A' Pd Pq P.
  destruct (prepared_mirror order nd nq a d0 q0 d q gens gens' ord ord' rho1 Ho D0 Q0 G G' A A' Pd Pq) as (Gd & _).
  destruct (C129_even ev expand aoi prefix fs d q srepr parse EV Gd P) as (fs' & file & F & E1 & E2 & E3 & (M & K & OK) & H).
  exists fs', file, F. do 3 (split; [assumption|]). split; [auto|]. intros D free chunk save lfs Ma Ar.
  destruct (cost_ok kev KEV F D free chunk save lfs Ma Ar) as (lib & Gl & Cp).
  { intros _ Z. rewrite Z in K. discriminate K. }
  exists lib. split; [exact Gl|]. intros xs L. exists (misfit F D (reading free xs)).
  split; [apply Cp; [lia|apply reading_assigns; [apply Ar|lia]]|].
  destruct (prepared_mirror order nd nq a d0 q0 d q gens gens' ord ord' (reading free xs) Ho D0 Q0 G G' A A' Pd Pq) as (_ & I1 & I2).
  apply (proj2 (H (reading free xs) a (reading_respects free xs) I1 I2)).
Qed.
Print Assumptions C129_cost.

(** The hypotheses are met, and the bound is not trivial: a crystal C_4v, whose
    mirror plane is at 90 degrees, and an intensity -2 sin(2 phi) in PP. *)
Definition sine2 (m : Z) : C := if (m =? 2)%Z then Ci else if (m =? -2)%Z then Copp Ci else RtoC 0.
Definition sine_data : fdat := mkfdat [("PP"%string, map sine2 (freqs 16)); ("PS"%string, repeat (RtoC 0) 33);
  ("SP"%string, repeat (RtoC 0) 33); ("SS"%string, repeat (RtoC 0) 33)] 1 (PNum 0) 16.
Lemma sine_matching F : ff_M F = 16 -> dkeys (ff_rows F) = ["PP"; "PS"; "SP"; "SS"]%string -> formula_ok F -> matching F sine_data.
Proof.
  intros M K OK. split; [exact OK|]. split; [|split; [symmetry; exact M|]].
  - split; [cbn [sine_data fd_data map fst]; repeat constructor; cbn; intuition discriminate|]. intros k v I. cbn [sine_data fd_data In] in I.
    repeat destruct I as [I|I]; try contradiction; injection I as _ <-; reflexivity.
  - intros k I. change (In k (dkeys (ff_rows F))) in I. rewrite K in I. exact I.
Qed.
Lemma sine_odd : odd_power sine_data (PI / 2) = 2%R.
Proof.
  assert (Z0 : forall k m, In k ["PS"; "SP"; "SS"]%string -> (Im (seen sine_data (PI / 2) k m) ^ 2 = 0)%R).
  { intros k m I. assert (X : dvalue sine_data k m = RtoC 0) by (repeat destruct I as [<-|I]; try contradiction; apply nth_repeat).
    unfold seen. rewrite X. unfold Im. cbn. ring. }
  assert (Z1 : forall m, In m (freqs 16) -> (Im (seen sine_data (PI / 2) "PP" m) ^ 2 = if (Z.abs m =? 2)%Z then 1 else 0)%R).
  { intros m I. unfold seen. change (dvalue sine_data "PP" m) with (coef 16 (map sine2 (freqs 16)) m).
    rewrite (FDataProofs.coef_map_freqs 16 sine2) by (apply In_freqs in I; lia). unfold sine2.
    destruct (Z.eqb_spec m 2) as [->|N1]; [|destruct (Z.eqb_spec m (-2)) as [->|N2]].
    - replace (- (2 * (PI / 2)))%R with (- PI)%R by field. unfold cis. rewrite cos_neg, sin_neg, cos_PI, sin_PI. unfold Im, Ci, Copp, Cmult. cbn [fst snd].
      match goal with |- _ = (if ?b then _ else _) => change b with true end. cbn iota. ring.
    - replace (- (-2 * (PI / 2)))%R with PI by field. unfold cis. rewrite cos_PI, sin_PI. unfold Im, Ci, Copp, Cmult. cbn [fst snd].
      match goal with |- _ = (if ?b then _ else _) => change b with true end. cbn iota. ring.
    - replace (Z.abs m =? 2)%Z with false by (symmetry; apply Z.eqb_neq; lia). unfold Im. cbn. ring. }
  unfold odd_power. unfold rsum at 1. cbn [fold_right].
  rewrite (rsum_ext _ _ _ Z1). do 3 (rewrite (rsum_ext (fun m => (Im (seen sine_data (PI / 2) _ m) ^ 2)%R) (fun _ => 0%R)) by (intros m _; apply Z0; cbn; auto)).
  assert (E : freqs 16 = ([-16; -15; -14; -13; -12; -11; -10; -9; -8; -7; -6; -5; -4; -3; -2; -1; 0; 1; 2; 3; 4; 5; 6; 7; 8; 9; 10; 11; 12; 13; 14; 15; 16])%Z) by reflexivity.
  rewrite E. unfold rsum. simpl. ring.
Qed.
Example C129_case : odd_power sine_data (PI / 2) = 2%R /\ has_mirror (PI / 2) [C4z; mx] /\
  exists d0 q0 d q fs' file F free lib, dipole "C_4v" = Ok d0 /\ quadrupole "C_4v" = Ok q0 /\
    make_tensor_real (fun l => l) d0 = Ok d /\ make_tensor_complex (fun l => l) ("real_", "imag_")%string ("", "")%string q0 = Ok q /\
    generate_uncontracted_fourier_transforms (fun e => e) (1 # 10) "u" 16 [] = Ok fs' /\
    generate_contracted_fourier_transforms (fun e => e) (fun e => e) show "u" fs' d q 16 None = Ok file /\ load_fform read file = Ok F /\
    gen_cost_func (fun e => e) F sine_data (Some free) false None [] = ([], Ok lib) /\
    forall xs, length xs = length free -> exists c, call lib xs = Some c /\ (2 <= c)%R.
Proof.
  split; [exact sine_odd|].
  assert (A : has_mirror (PI / 2) [C4z; mx]) by (exact (proj1 (proj2 (proj2 PropertiesPhys.C72_case)))).
  split; [exact A|].
  assert (D : exists d0, dipole "C_4v" = Ok d0) by (eexists; reflexivity).
  assert (Q : exists q0, quadrupole "C_4v" = Ok q0) by (eexists; reflexivity).
  destruct D as (d0 & D), Q as (q0 & Q). destruct plain_tables as (T1 & _ & T3).
  pose proof (real_is (fun l => l) d0 (proj1 (plain_lookup _ _ _ _ T1 D))) as Md.
  pose proof (complex_is (fun l => l) q0 (proj1 (plain_lookup _ _ _ _ T3 Q))) as Mq.
  set (d := real_tensor (fun l => l) d0) in *. set (q := complex_tensor (fun l => l) q0) in *. clearbody d q.
  destruct (C129_cost (fun e => e) (fun e => e) (fun e => e) (fun l => l) (1 # 10) "u" [] "C_4v" "C_4v" (PI / 2) d0 q0 d q [C4z; mx] [C4z; mx] 8 8 show read
    PropertiesForm.id_sound FitProofs5.id_sound) as (fs' & file & F & E1 & E2 & E3 & (M & K & OK) & H); auto; try reflexivity.
  { intros l. apply Permutation.Permutation_refl. }
  { left; exact Md. }
  { right; exact Mq. }
  { exact read_show. }
  destruct (some_arguments F) as (free & Ar).
  destruct (H sine_data free false None [] (sine_matching F M K OK) Ar) as (lib & Gl & S).
  exists d0, q0, d, q, fs', file, F, free, lib. do 8 (split; [assumption|]). intros xs L. destruct (S xs L) as (c & C1 & C2).
  exists c. split; [exact C1|]. rewrite <- sine_odd. exact C2.
Qed.
