(** C132: data taken at normal incidence. *)
From Coq Require Import String List Arith ZArith Bool Lia Reals QArith Qreals Lra Permutation.
From Coquelicot Require Import Complex.
Import ListNotations.
From Verif Require Import PyBase CBase Expr ExprProofs SpecForm SpecFData FDataModel FormModel LookupTable TableProofs
  TensorInst TensorProofs UtilModel SpecUtil SpecFormgen FormgenModel FformgenModel SpecFformgen TensorDefs SpecGroups GroupProofs
  FormgenProofs FormgenProofs2 FormgenProofs4 FormgenThms FormgenThms2 FormgenTables FformgenProofs4 FformgenThms PropertiesTensor PropertiesFformgen SpecPhys PhysThms
  FitModel SpecFit FitProofs FitProofs2 PropertiesFit Printer SpecSym SymProofs2 PropertiesSym NestProofs TurnProofs SpecMirror PropertiesMirror SpecNormal NormalProofs.
From Verif Require Import SpecTensor TensorModel.
Local Open Scope nat_scope.

(** At an angle of incidence 0 every row of the formulas is the row of the crossed
    polarizations a quarter of a turn further, and the odd orders vanish.  Whatever the
    parameters, the misfit is at least the disagreement between the data and at least
    the power of their odd orders.  When the data of SS and SP are copies of those of PP and
    PS, the misfit is twice the misfit of PP and PS alone. *)
Theorem C132_normal : forall ev expand aoi prefix fs d q srepr parse, sound_ev ev -> Q2R aoi = 0%R -> good_tensors d q -> (forall e, parse (srepr e) = Ok e) ->
  exists fs' file F, generate_uncontracted_fourier_transforms ev aoi prefix 16 fs = Ok fs' /\
    generate_contracted_fourier_transforms ev expand srepr prefix fs' d q 16 None = Ok file /\ load_fform parse file = Ok F /\
    (ff_M F = 16 /\ dkeys (ff_rows F) = ["PP"; "PS"; "SP"; "SS"]%string /\ formula_ok F) /\
    forall rho, respects rho ->
      (forall inp out r r' m, ff_get_pc F (key inp out) = Ok r -> ff_get_pc F (key (opposite inp) (opposite out)) = Ok r' -> In m (freqs 16) ->
         cell rho r m = (cell rho r' m * cis (IZR m * (PI / 2)))%C /\ (Z.odd m = true -> cell rho r m = RtoC 0)) /\
      (forall D, (disagreement D <= misfit F D rho)%R /\ (odd_orders D <= misfit F D rho)%R) /\
      (forall D rp rs, copies D -> ff_get_pc F "PP" = Ok rp -> ff_get_pc F "PS" = Ok rs ->
         misfit F D rho = (2 * rsum (fun m => Cmod (cell rho rp m - dvalue D "PP" m)%C ^ 2 + Cmod (cell rho rs m - dvalue D "PS" m)%C ^ 2) (freqs 16))%R).
Proof. intros ev expand aoi prefix fs d q srepr parse EV. exact (normal_chain ev expand EV aoi prefix fs d q srepr parse). Qed.
Print Assumptions C132_normal.

(** The same for the compiled cost: no list of values has a cost below these bounds, and for
    copied data every cost is twice that of PP and PS alone. *)
Theorem C132_cost : forall ev expand kev aoi prefix fs d q srepr parse, sound_ev ev -> sound_kev kev -> Q2R aoi = 0%R -> good_tensors d q ->
  (forall e, parse (srepr e) = Ok e) ->
  exists fs' file F, generate_uncontracted_fourier_transforms ev aoi prefix 16 fs = Ok fs' /\
    generate_contracted_fourier_transforms ev expand srepr prefix fs' d q 16 None = Ok file /\ load_fform parse file = Ok F /\
    (ff_M F = 16 /\ dkeys (ff_rows F) = ["PP"; "PS"; "SP"; "SS"]%string /\ formula_ok F) /\
    forall D free chunk save lfs, matching F D -> argument_list F free ->
      exists lib, gen_cost_func kev F D (Some free) chunk save lfs = (save_lib save lib lfs, Ok lib) /\
        forall xs, length xs = length free -> exists c, call lib xs = Some c /\ (disagreement D <= c)%R /\ (odd_orders D <= c)%R /\
          forall rp rs, copies D -> ff_get_pc F "PP" = Ok rp -> ff_get_pc F "PS" = Ok rs ->
            c = (2 * rsum (fun m => Cmod (cell (reading free xs) rp m - dvalue D "PP" m)%C ^ 2 + Cmod (cell (reading free xs) rs m - dvalue D "PS" m)%C ^ 2) (freqs 16))%R.
Proof.
  intros ev expand kev aoi prefix fs d q srepr parse EV KEV A0 Gd P.
  destruct (C132_normal ev expand aoi prefix fs d q srepr parse EV A0 Gd P) as (fs' & file & F & E1 & E2 & E3 & (M & K & OK) & H).
  exists fs', file, F. do 3 (split; [assumption|]). split; [auto|]. intros D free chunk save lfs Ma Ar.
  destruct (cost_ok kev KEV F D free chunk save lfs Ma Ar) as (lib & Gl & Cp).
  { intros _ Z. rewrite Z in K. discriminate K. }
  exists lib. split; [exact Gl|]. intros xs L. exists (misfit F D (reading free xs)).
  split; [apply Cp; [lia|apply reading_assigns; [apply Ar|lia]]|].
  destruct (H (reading free xs) (reading_respects free xs)) as (_ & B & T). destruct (B D) as [B1 B2].
  split; [exact B1|]. split; [exact B2|]. intros rp rs. exact (T D rp rs).
Qed.
Print Assumptions C132_cost.

(** The hypotheses are met and the bound is not trivial: a crystal C_4v at normal
    incidence, an intensity -2 sin(2 phi) in PP and nothing in SS. *)
Lemma sine_disagreement : disagreement sine_data = 1%R.
Proof.
  assert (Z0 : forall k m, In k ["PS"; "SP"; "SS"]%string -> dvalue sine_data k m = RtoC 0).
  { intros k m I. repeat destruct I as [<-|I]; try contradiction; apply nth_repeat. }
  assert (Z1 : forall m, In m (freqs 16) -> (Cmod (dvalue sine_data "PP" m - turned_value sine_data "SS" m)%C ^ 2 / 2 +
    Cmod (dvalue sine_data "PS" m - turned_value sine_data "SP" m)%C ^ 2 / 2 = if (Z.abs m =? 2)%Z then / 2 else 0)%R).
  { intros m I. unfold turned_value. rewrite !(Z0 "PS"%string), !(Z0 "SP"%string), !(Z0 "SS"%string) by (cbn; auto).
    change (dvalue sine_data "PP" m) with (coef 16 (map sine2 (freqs 16)) m). rewrite (FDataProofs.coef_map_freqs 16 sine2) by (apply In_freqs in I; lia).
    rewrite !Cmod_sq. unfold sine2.
    destruct (Z.eqb_spec m 2) as [->|N1]; [|destruct (Z.eqb_spec m (-2)) as [->|N2]].
    - match goal with |- _ = (if ?b then _ else _) => change b with true end. cbn iota. unfold Ci, Cminus, Cplus, Copp, Cmult, RtoC. cbn [fst snd]. field.
    - match goal with |- _ = (if ?b then _ else _) => change b with true end. cbn iota. unfold Ci, Cminus, Cplus, Copp, Cmult, RtoC. cbn [fst snd]. field.
    - replace (Z.abs m =? 2)%Z with false by (symmetry; apply Z.eqb_neq; lia). unfold Ci, Cminus, Cplus, Copp, Cmult, RtoC. cbn [fst snd]. field. }
  unfold disagreement. rewrite (rsum_ext _ _ _ Z1).
  assert (E : freqs 16 = ([-16; -15; -14; -13; -12; -11; -10; -9; -8; -7; -6; -5; -4; -3; -2; -1; 0; 1; 2; 3; 4; 5; 6; 7; 8; 9; 10; 11; 12; 13; 14; 15; 16])%Z) by reflexivity.
  rewrite E. unfold rsum. simpl. field.
Qed.
Definition copied_data : fdat :=
  mkfdat [("PP"%string, map (fun m => if (Z.abs m =? 2)%Z then RtoC 1 else RtoC 0) (freqs 16)); ("PS"%string, repeat (RtoC 0) 33);
    ("SP"%string, repeat (RtoC 0) 33); ("SS"%string, map (fun m => if (Z.abs m =? 2)%Z then RtoC (-1) else RtoC 0) (freqs 16))] 1 (PNum 0) 16.
Lemma copied_copies : copies copied_data.
Proof.
  intros m I. unfold turned_value.
  change (dvalue copied_data "PP" m) with (coef 16 (map (fun m => if (Z.abs m =? 2)%Z then RtoC 1 else RtoC 0) (freqs 16)) m).
  change (dvalue copied_data "SS" m) with (coef 16 (map (fun m => if (Z.abs m =? 2)%Z then RtoC (-1) else RtoC 0) (freqs 16)) m).
  assert (Z0 : forall k, In k ["PS"; "SP"]%string -> dvalue copied_data k m = RtoC 0) by (intros k J; repeat destruct J as [<-|J]; try contradiction; apply nth_repeat).
  rewrite (Z0 "PS"%string), (Z0 "SP"%string) by (cbn; auto). rewrite !FDataProofs.coef_map_freqs by (apply In_freqs in I; lia).
  split; [|ring]. destruct (Z.eqb_spec (Z.abs m) 2) as [E|_]; [|ring].
  assert (W : cis (IZR m * (PI / 2)) = RtoC (-1)).
  { assert (X : m = 2%Z \/ m = (-2)%Z) by lia. destruct X as [-> | ->].
    - replace (2 * (PI / 2))%R with PI by field. unfold cis. rewrite cos_PI, sin_PI. reflexivity.
    - replace (-2 * (PI / 2))%R with (- PI)%R by field. unfold cis. rewrite cos_neg, sin_neg, cos_PI, sin_PI, Ropp_0. reflexivity. }
  rewrite W. apply C_ext; unfold Re, Im; simpl; ring.
Qed.
Example C132_case : disagreement sine_data = 1%R /\ copies copied_data /\ dvalue copied_data "PP" 2 = RtoC 1 /\
  exists d0 q0 d q fs' file F free lib, dipole "C_4v" = Ok d0 /\ quadrupole "C_4v" = Ok q0 /\
    make_tensor_real (fun l => l) d0 = Ok d /\ make_tensor_complex (fun l => l) ("real_", "imag_")%string ("", "")%string q0 = Ok q /\
    generate_uncontracted_fourier_transforms (fun e => e) 0 "u" 16 [] = Ok fs' /\
    generate_contracted_fourier_transforms (fun e => e) (fun e => e) show "u" fs' d q 16 None = Ok file /\ load_fform read file = Ok F /\
    gen_cost_func (fun e => e) F sine_data (Some free) false None [] = ([], Ok lib) /\
    forall xs, length xs = length free -> exists c, call lib xs = Some c /\ (1 <= c)%R.
Proof.
  split; [exact sine_disagreement|]. split; [exact copied_copies|]. split; [reflexivity|].
  assert (D : exists d0, dipole "C_4v" = Ok d0) by (eexists; reflexivity).
  assert (Q : exists q0, quadrupole "C_4v" = Ok q0) by (eexists; reflexivity).
  destruct D as (d0 & D), Q as (q0 & Q). destruct plain_tables as (T1 & _ & T3).
  destruct (plain_lookup _ _ _ _ T1 D) as [Pld Sd]. destruct (plain_lookup _ _ _ _ T3 Q) as [Plq Sq].
  pose proof (real_is (fun l => l) d0 Pld) as Md. pose proof (complex_is (fun l => l) q0 Plq) as Mq.
  assert (Ho : iterates (fun l => l)) by (intros l; apply Permutation.Permutation_refl).
  set (d := real_tensor (fun l => l) d0) in *. set (q := complex_tensor (fun l => l) q0) in *. clearbody d q.
  destruct (prepared_ready _ d0 d 3 Ho Pld Sd (or_introl Md)) as (Sd' & Rd & _ & _).
  destruct (prepared_ready _ q0 q 4 Ho Plq Sq (or_intror Mq)) as (Sq' & Rq & _ & _).
  assert (Gd : good_tensors d q) by (split; [exact Sd'|split; [exact Sq'|split; [exact Rd|exact Rq]]]).
  assert (A0 : Q2R 0 = 0%R) by (unfold Q2R; cbn [Qnum Qden]; field).
  destruct (C132_cost (fun e => e) (fun e => e) (fun e => e) 0 "u" [] d q show read
    PropertiesForm.id_sound FitProofs5.id_sound A0 Gd read_show) as (fs' & file & F & E1 & E2 & E3 & (M & K & OK) & H).
  destruct (some_arguments F) as (free & Ar).
  destruct (H sine_data free false None [] (sine_matching F M K OK) Ar) as (lib & Gl & S).
  exists d0, q0, d, q, fs', file, F, free, lib. do 8 (split; [assumption|]). intros xs L. destruct (S xs L) as (c & C1 & C2 & _).
  exists c. split; [exact C1|]. rewrite <- sine_disagreement. exact C2.
Qed.
