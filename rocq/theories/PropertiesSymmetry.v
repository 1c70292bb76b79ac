(** Properties C113 and C114: subgroups, and permutation symmetry in other frames. *)
From Coq Require Import String List Arith Bool Lia Permutation QArith Reals Lra.
From Coquelicot Require Import Complex.
From Verif Require Import PyBase CBase Expr ExprProofs SpecForm TensorModel UtilModel SpecTensor TensorProofs TensorProofs2 TensorInst
  TensorNat TensorDefs SpecGroups SpecUtil GroupProofs GroupProofs2 UtilProofs PhysThms GroupProofs3 PropertiesTensor PropertiesUtil SpecSymmetry SymmetryProofs.
Import ListNotations.
Local Open Scope nat_scope.

(** *** C113 *)
Theorem C113_dipole : forall name name' t t' gens gens' order order',
  dipole name = Ok t -> dipole name' = Ok t' ->
  dget name dipole_groups = Some (gens, order) -> dget name' dipole_groups = Some (gens', order') ->
  subgroup gens gens' -> special_case t' t.
Proof.
  intros name name' t t' gens gens' order order' D D' G G' Sub.
  destruct (C39_dipole name t D) as (g1 & o1 & G1 & Co). destruct (C38_dipole name' t' D') as (g2 & o2 & G2 & Inv).
  assert (g1 = gens) by congruence. assert (g2 = gens') by congruence. subst g1 g2.
  apply (special_of_invariant t t' gens gens' 2); auto.
  - unfold dipole, lookup in D. destruct (dget name dipole_table); inversion D; reflexivity.
  - unfold dipole, lookup in D'. destruct (dget name' dipole_table); inversion D'; reflexivity.
Qed.
Print Assumptions C113_dipole.

Theorem C113_quadrupole : forall name name' t t' gens gens' order order',
  quadrupole name = Ok t -> quadrupole name' = Ok t' ->
  dget name quadrupole_groups = Some (gens, order) -> dget name' quadrupole_groups = Some (gens', order') ->
  subgroup gens gens' -> special_case t' t.
Proof.
  intros name name' t t' gens gens' order order' D D' G G' Sub.
  assert (N : name <> "Isotropic"%string) by (intros ->; vm_compute in G; discriminate).
  assert (N' : name' <> "Isotropic"%string) by (intros ->; vm_compute in G'; discriminate).
  destruct (C40_invariant name t D N) as (g1 & o1 & G1 & _ & Co). destruct (C40_invariant name' t' D' N') as (g2 & o2 & G2 & Inv & _).
  assert (g1 = gens) by congruence. assert (g2 = gens') by congruence. subst g1 g2.
  apply (special_of_invariant t t' gens gens' 3); auto.
  - unfold quadrupole, lookup in D. destruct (dget name quadrupole_table); inversion D; reflexivity.
  - unfold quadrupole, lookup in D'. destruct (dget name' quadrupole_table); inversion D'; reflexivity.
Qed.
Print Assumptions C113_quadrupole.

Lemma quadrupole_shape name t : quadrupole name = Ok t -> shape t = repeat 3 4.
Proof. unfold quadrupole, lookup. intros D. destruct (dget name quadrupole_table); inversion D; reflexivity. Qed.
Definition all_generators : list smat := [inv; C2x; C2y; C2z; mx; my; mz; C4z; S4z; C3z; C6z; C3d].
Lemma generators_orthogonal g : In g all_generators -> orthogonal (mat g).
Proof.
  assert (Q : (sqrt 3 * sqrt 3 = 3)%R) by (apply sqrt_sqrt; lra).
  intros I. cbn [all_generators In] in I. repeat destruct I as [<-|I]; try contradiction.
  all: repeat split; try (intros i j Li Lj; destruct i as [|[|[|i]]]; [..|lia]; destruct j as [|[|[|j]]]; try lia;
    try reflexivity; apply C_ext; cbn -[sqrt]; unfold sval; cbn -[sqrt]; nra).
Qed.
Lemma generators_listed name gens o g : dget name quadrupole_groups = Some (gens, o) -> In g gens -> In g all_generators.
Proof.
  assert (H : forallb (fun kv => forallb (fun g => mem g all_generators) (fst (snd kv))) quadrupole_groups = true) by (vm_compute; reflexivity).
  rewrite forallb_forall in H. intros D I. specialize (H _ (dget_In _ _ _ D)). cbn [fst snd] in H. rewrite forallb_forall in H.
  apply mem_In. exact (H g I).
Qed.

(** The isotropic tensor is a special case of the tensor of every crystal. *)
Theorem C113_isotropic : forall name t iso, quadrupole name = Ok t -> quadrupole "Isotropic" = Ok iso -> special_case iso t.
Proof.
  intros name t iso D Di. destruct C40_isotropic as (iso' & Di' & Inv & Co). assert (iso' = iso) by congruence. subst iso'.
  assert (Si : shape iso = repeat 3 4) by (apply (quadrupole_shape "Isotropic"); exact Di).
  destruct (String.eqb_spec name "Isotropic") as [->|N].
  - assert (t = iso) by congruence. subst t. intros rho'. apply Co; [reflexivity|]. intros g Ig. apply Inv.
    destruct Ig as [<-|[<-|[<-|[]]]]; apply generators_orthogonal; cbn; tauto.
  - destruct (C40_invariant name t D N) as (gens & o & G & _ & Cot). intros rho'. apply Cot.
    + cbn [instance tmap shape]. rewrite Si. symmetry. exact (quadrupole_shape name t D).
    + intros g Ig. apply Inv, generators_orthogonal. exact (generators_listed name gens o g G Ig).
Qed.
Print Assumptions C113_isotropic.

(** The orientation of the tables matters: D_3h contains the group D_3, in its other
    setting, but its dipole tensor is no special case of the tabulated one of D_3. *)
Theorem C113_setting : exists t t', dipole "D_3" = Ok t /\ dipole "D_3h" = Ok t' /\
  dget "D_3"%string other_setting = Some ([C3z; C2y], 6) /\ dget "D_3h"%string dipole_groups = Some ([C3z; mz; mx], 12) /\
  subgroup [C3z; C2y] [C3z; mz; mx] /\ ~ special_case t' t.
Proof.
  exists (table_tensor 3 (entries_of dipole_table "D_3")), (table_tensor 3 (entries_of dipole_table "D_3h")).
  do 4 (split; [reflexivity|]). split; [apply sub_check_ok; vm_compute; reflexivity|].
  intros S. destruct (S (ind "xyx")) as (rho & [_ T] & _). specialize (T [0; 0; 1]).
  assert (E : at_ (instance (ind "xyx") (table_tensor 3 (entries_of dipole_table "D_3h"))) [0; 0; 1] = RtoC 1) by reflexivity.
  assert (Z : at_ (instance rho (table_tensor 3 (entries_of dipole_table "D_3"))) [0; 0; 1] = RtoC 0).
  { change (eval rho (num 0%Q) = RtoC 0). apply eval_num_0. }
  rewrite E, Z in T. assert (X : RtoC 1 = RtoC 0) by (apply T; apply in_indices; repeat constructor).
  apply (f_equal Re) in X. cbn in X. lra.
Qed.
Print Assumptions C113_setting.

(** The hypotheses are met. *)
Example C113_case : subgroup [C2z; mx] [C4z; mx] /\ subgroup [S4z] [S4z; C2x] /\ subgroup [S4z; C2x] [S4z; C3d] /\
  subgroup [C3z] [C3z; mx] /\ subgroup [C3z; mx] [C3z; mz; mx].
Proof. repeat split; apply sub_check_ok; vm_compute; reflexivity. Qed.

(** *** C114 *)
(** Symmetry under the exchange of two neighbouring indices is seen in every frame,
    for tensors of any rank and dimension and matrices of any kind. *)
Theorem C114_exchange : forall (A : Type) (S : Sig A) (L : CSR A) (t R u : tensor A) d n,
  is_matrix d R -> is_cube d t -> 1 <= rank t -> transform t R = Ok u -> exchange_symmetric n t -> exchange_symmetric n u.
Proof. intros A S L. exact exchange_transform. Qed.
Print Assumptions C114_exchange.

Theorem C114_full : forall (A : Type) (S : Sig A) (L : CSR A) (t R u : tensor A) d,
  is_matrix d R -> is_cube d t -> 1 <= rank t -> transform t R = Ok u -> fully_symmetric t -> fully_symmetric u.
Proof. intros A S L. exact full_transform. Qed.
Print Assumptions C114_full.

(** So a tensor may be particularized before it is brought to the orientation of
    the sample. *)
Theorem C114_particularize : forall ev solve t exclude all u R v, sound_ev ev -> sound_solver solve ->
  is_cube 3 t -> 1 <= rank t -> shape R = [3; 3] ->
  particularize solve t exclude all = Ok u -> @transform expr (Sig_ev ev) u R = Ok v ->
  forall rho, respects rho ->
    if all then fully_symmetric (instance rho v) else forall n, n + 2 = rank t -> exchange_symmetric n (instance rho v).
Proof.
  intros ev solve t exclude all u R v EV SS Cu Rk SR P T rho Rs.
  destruct (transform_eval ev EV rho u R v Rs T) as (w & Tw & Sw & Hw).
  destruct all.
  - destruct (C33_all solve t 3 exclude u SS Cu P) as [Su Sy].
    assert (Cu' : is_cube 3 (instance rho u)) by (unfold is_cube, rank in *; cbn [instance tmap shape]; congruence).
    assert (F : fully_symmetric w).
    { apply (C114_full C _ _ (instance rho u) (instance rho R) w 3); auto.
      - unfold rank in *. cbn [instance tmap shape]. rewrite Su. exact Rk.
      - intros i j Fi Pm. cbn [instance tmap shape at_] in *. apply Sy; auto. }
    intros i j Fi Pm. cbn [instance tmap shape at_] in *. rewrite <- !Hw. apply F; [rewrite Sw; exact Fi|exact Pm].
  - destruct (C33_last_two solve t exclude u SS Cu P) as [Su Sy]. intros n En.
    assert (Cu' : is_cube 3 (instance rho u)) by (unfold is_cube, rank in *; cbn [instance tmap shape]; congruence).
    assert (F : exchange_symmetric n w).
    { apply (C114_exchange C _ _ (instance rho u) (instance rho R) w 3); auto.
      - unfold rank in *. cbn [instance tmap shape]. rewrite Su. exact Rk.
      - intros i a b j Li Fi. cbn [instance tmap shape at_] in *.
        pose proof (fits_length _ _ Fi) as Le. rewrite app_length in Le. cbn [length] in Le. rewrite Su in Le. unfold rank in En.
        destruct j as [|x j]; [|cbn in Le; lia]. apply Sy. exact Fi. }
    intros i a b j Li Fi. cbn [instance tmap shape at_] in *. rewrite <- !Hw. apply F; [exact Li|rewrite Sw; exact Fi].
Qed.
Print Assumptions C114_particularize.

(** A symmetric tensor that is not constant, and a frame in which it looks different. *)
Example C114_case : let t := mkT [3; 3] (fun i => match i with [0; 1] | [1; 0] => RtoC 1 | _ => RtoC 0 end) in
  fully_symmetric t /\ exists u, transform t (mat C3d) = Ok u /\ at_ u [1; 2] = RtoC 1 /\ at_ u [0; 1] = RtoC 0.
Proof.
  intros t. split.
  - apply (exchange_full t 3 eq_refl). intros [|n] i a b j Li Fi.
    + destruct i; [|discriminate]. pose proof (fits_length _ _ Fi) as Le. destruct j; [|discriminate].
      destruct a as [|[|a]]; destruct b as [|[|b]]; reflexivity.
    + pose proof (fits_length _ _ Fi) as Le. rewrite app_length in Le. cbn in Le. lia.
  - destruct (transform_ok t (mat C3d) 3 eq_refl eq_refl) as (u & E & Su & Hu); [cbn; lia|].
    exists u. split; [exact E|]. rewrite !Hu by (repeat constructor). unfold rotated. split.
    + cbn. apply C_ext; cbn; unfold sval; cbn; lra.
    + cbn. apply C_ext; cbn; unfold sval; cbn; lra.
Qed.
