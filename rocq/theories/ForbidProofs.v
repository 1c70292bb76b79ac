(** Proofs for C119: Fourier orders a crystal cannot produce. *)
From Coq Require Import String List Arith ZArith Bool Lia Reals QArith Qreals Lra.
From Coquelicot Require Import Complex.
Import ListNotations.
From Verif Require Import PyBase DataProofs2 CBase FourierBase Expr ExprProofs SpecForm SpecFData FDataModel FDataProofs FormModel FormProofs3 LookupTable TableProofs
  TensorInst TensorProofs UtilModel SpecUtil UtilProofs SpecFormgen TrigPoly FormgenModel FformgenModel SpecFformgen TensorDefs SpecGroups GroupProofs PropertiesTensor
  FormgenProofs FormgenProofs2 FormgenProofs3 FormgenProofs4 FormgenPhys FormgenThms FormgenThms2 FormgenTables
  FformgenProofs FformgenProofs2 FformgenProofs3 FformgenProofs4 FformgenProofs5 FformgenThms PropertiesFformgen SpecPhys PhysProofs PhysThms
  FitModel SpecFit FitProofs FitProofs2 FitProofs3 LsqProofs2 SymProofs2 OrderProofs TurnProofs SpecForbid.
From Verif Require Import SpecTensor TensorModel.
Local Open Scope nat_scope.

Lemma forbidden_spec n m : (0 < n)%Z -> forbidden n m = true <-> (~ (n | m) \/ 8 < Z.abs m)%Z.
Proof.
  intros P. unfold forbidden. rewrite orb_true_iff, negb_true_iff, Z.ltb_lt, Z.eqb_neq.
  rewrite (Z.mod_divide m n) by lia. reflexivity.
Qed.

Lemma rsum_filter {A} (f g : A -> R) (P : A -> bool) l : (forall a, In a l -> P a = true -> f a = g a) -> (forall a, (0 <= g a)%R) ->
  (rsum f (filter P l) <= rsum g l)%R.
Proof.
  intros E N. induction l as [|a l IH]; [apply Rle_refl|].
  specialize (IH (fun b I => E b (or_intror I))). pose proof (N a) as Na. cbn [filter]. destruct (P a) eqn:Pa.
  - pose proof (E a (or_introl eq_refl) Pa) as Ea. unfold rsum in *. cbn [fold_right]. lra.
  - unfold rsum in *. cbn [fold_right]. lra.
Qed.
Lemma rsum_fst {A} (f : string -> R) (g : string * A -> R) l : (forall k r, In (k, r) l -> (f k <= g (k, r))%R) -> (rsum f (map fst l) <= rsum g l)%R.
Proof.
  intros H. induction l as [|[k r] l IH]; [apply Rle_refl|]. specialize (IH (fun k' r' I => H k' r' (or_intror I))).
  specialize (H k r (or_introl eq_refl)). unfold rsum in *. cbn [map fold_right fst]. lra.
Qed.

Lemma tp_shift n f a : trigpoly n f -> trigpoly n (fun x => f (x + a)%R).
Proof.
  intros (l & B & H). exists (map (fun kc => (fst kc, snd kc * cis (IZR (fst kc) * a))%C) l). split.
  - rewrite Forall_forall in *. intros kc I. apply in_map_iff in I as (kc0 & <- & I). cbn [fst]. apply (B kc0 I).
  - intros x. rewrite H. unfold mono. rewrite Csum_map. apply Csum_ext_in. intros [k c] _. cbn [fst snd].
    rewrite Rmult_plus_distr_l, cis_plus. ring.
Qed.

Section Chain.
Variable ev expand : expr -> expr.
Hypothesis EV : sound_ev ev.

Lemma forbidden_chain aoi prefix fs d q srepr parse : good_tensors d q -> (forall e, parse (srepr e) = Ok e) ->
  exists fs' file F, generate_uncontracted_fourier_transforms ev aoi prefix 16 fs = Ok fs' /\
    generate_contracted_fourier_transforms ev expand srepr prefix fs' d q 16 None = Ok file /\ load_fform parse file = Ok F /\
    (ff_M F = 16 /\ dkeys (ff_rows F) = ["PP"; "PS"; "SP"; "SS"]%string /\ formula_ok F) /\
    forall rho n, respects rho -> (0 < n)%Z -> opt_invariant rho (Some d) (rot_z (2 * PI / IZR n)) -> opt_invariant rho (Some q) (rot_z (2 * PI / IZR n)) ->
      (forall inp out r m, ff_get_pc F (key inp out) = Ok r -> In m (freqs 16) -> (~ (n | m) \/ 8 < Z.abs m)%Z -> cell rho r m = RtoC 0) /\
      forall D, (lost D n <= misfit F D rho)%R.
Proof.
  intros G P.
  destruct (chain_pair ev expand EV aoi prefix fs d q d q srepr parse G G P)
    as (fs' & file & F & file' & F' & row & row' & E1 & E2 & E3 & E4 & E5 & (M & K & OK) & _ & Rw & _ & V & _).
  exists fs', file, F. do 3 (split; [assumption|]). split; [auto|]. intros rho n Rs Pn Id Iq.
  assert (Z : forall inp out r m, ff_get_pc F (key inp out) = Ok r -> In m (freqs 16) -> (~ (n | m) \/ 8 < Z.abs m)%Z -> cell rho r m = RtoC 0).
  { intros inp out r m Er I Fb. destruct (Rw inp out) as (Er' & L). assert (r = row inp out) by congruence. subst r.
    rewrite cell_fourier by assumption.
    assert (T : trigpoly 8 (series_function rho (row inp out))).
    { assert (T0 := tp_intensity (Q2R aoi) (val3 rho (Some d)) (fun _ _ _ => RtoC 0) (val4 rho (Some q)) inp out).
      apply (tp_ext 8 (fun x => RtoC (intensity (Q2R aoi) (val3 rho (Some d)) (fun _ _ _ => RtoC 0) (val4 rho (Some q)) inp out (x + PI)))).
      - intros x. rewrite V by exact Rs. rewrite intensity_half. reflexivity.
      - apply (tp_shift 8 (fun x => RtoC (intensity (Q2R aoi) (val3 rho (Some d)) (fun _ _ _ => RtoC 0) (val4 rho (Some q)) inp out x))). exact T0. }
    destruct Fb as [Nd|B]; [|apply (tp_beyond 8 _ m T); lia].
    apply (tp_periodic 8 _ n m T Pn); [|exact Nd]. intros x. rewrite !V by exact Rs. f_equal. rewrite !intensity_half.
    replace (x + 2 * PI / IZR n + PI)%R with ((x + PI) + 2 * PI / IZR n)%R by ring. destruct G as (Sd & Sq & _).
    apply intensity_periodic.
    - exact (opt_invariant3 rho _ (Some d) Sd Id).
    - exact (opt_invariant3 rho _ None Logic.I Logic.I).
    - exact (opt_invariant4 rho _ (Some q) Sq Iq). }
  split; [exact Z|]. intros D. unfold lost, misfit. rewrite <- K. apply (rsum_fst _ _ (ff_rows F)). intros k r I. cbn [fst snd]. rewrite M.
  apply rsum_filter; [|intros m; apply pow2_ge_0].
  intros m Im B. apply forbidden_spec in B; [|exact Pn].
  assert (W : wf_dict (ff_rows F)) by (unfold wf_dict; rewrite K; repeat constructor; cbn; intuition discriminate).
  assert (X : exists inp out, key inp out = k).
  { assert (Ik : In k (dkeys (ff_rows F))) by (apply (in_map fst) in I; exact I). rewrite K in Ik.
    destruct Ik as [<-|[<-|[<-|[<-|[]]]]]; [exists Pin, Pin|exists Pin, Sin|exists Sin, Pin|exists Sin, Sin]; reflexivity. }
  destruct X as (inp & out & <-).
  assert (Er : ff_get_pc F (key inp out) = Ok (r_cells r)) by (unfold ff_get_pc, dgetr; rewrite (In_dget _ _ _ W I); reflexivity).
  specialize (Z inp out _ m Er Im B). unfold cell in Z. unfold fcell. change (Z.of_nat 16) with 16%Z. rewrite Z.
  replace (RtoC 0 - dvalue D (key inp out) m)%C with (- dvalue D (key inp out) m)%C by ring. rewrite Cmod_opp. reflexivity.
Qed.
End Chain.

(** Crystals of the tables. *)
Lemma prepared_instance order t u rho : iterates order -> FormgenTables.plain t -> prepared order t u -> exists rho', teq (instance rho u) (instance rho' t).
Proof.
  intros Ho P [E|E]; [apply (real_inv order t u P) in E|apply (complex_inv order t u P) in E]; subst u.
  - exists (with_real rho). apply real_instance; assumption.
  - exists (with_complex dprefix dsuffix rho). apply complex_instance; assumption.
Qed.
Lemma prepared_axis order nd nq n d0 q0 d q gens gens' ord ord' rho : iterates order -> dipole nd = Ok d0 -> quadrupole nq = Ok q0 ->
  dget nd dipole_groups = Some (gens, ord) -> dget nq quadrupole_groups = Some (gens', ord') -> has_axis n gens -> has_axis n gens' ->
  prepared order d0 d -> prepared order q0 q ->
  good_tensors d q /\ opt_invariant rho (Some d) (rot_z (2 * PI / IZR n)) /\ opt_invariant rho (Some q) (rot_z (2 * PI / IZR n)).
Proof.
  intros Ho D Q G G' A A' Pd Pq. destruct plain_tables as (T1 & _ & T3).
  destruct (plain_lookup _ _ _ _ T1 D) as [Pld Sd]. destruct (plain_lookup _ _ _ _ T3 Q) as [Plq Sq].
  destruct (C38_dipole nd d0 D) as (g1 & o1 & G1 & I1). rewrite G in G1. injection G1 as <- <-.
  assert (NI : nq <> "Isotropic"%string) by (intros ->; vm_compute in G'; discriminate).
  destruct (C40_invariant nq q0 Q NI) as (g2 & o2 & G2 & I2 & _). rewrite G' in G2. injection G2 as <- <-.
  destruct (prepared_ready order d0 d 3 Ho Pld Sd Pd) as (Sd' & Rd & _ & _).
  destruct (prepared_ready order q0 q 4 Ho Plq Sq Pq) as (Sq' & Rq & _ & _).
  split; [split; [exact Sd'|split; [exact Sq'|split; [exact Rd|exact Rq]]]|]. split.
  - exact (axis_invariant d0 2 gens _ rho d Sd I1 A (prepared_instance order d0 d rho Ho Pld Pd)).
  - exact (axis_invariant q0 3 gens' _ rho q Sq I2 A' (prepared_instance order q0 q rho Ho Plq Pq)).
Qed.
