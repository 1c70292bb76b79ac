(** Properties C38-C42: the tables of susceptibility tensors against the
    crystallographic point groups.  Beside each theorem a concrete case. *)
From Coq Require Import String List Arith Bool ZArith QArith Reals Lra Lia.
Import ListNotations.
From Coquelicot Require Import Complex.
From Verif Require Import PyBase CBase Expr ExprProofs TensorModel UtilModel SpecTensor SpecForm TensorProofs TensorProofs2
  TensorInst TensorNat TensorDefs SpecGroups GroupProofs GroupProofs2 GroupProofs3 GroupProofs4.
Local Open Scope nat_scope.

(** ** The groups are what they are called *)

(** Each list of generators generates a finite group of the stated order:
    exactly the matrices of a list of that many pairwise different matrices. *)
Theorem C38_orders : forall name gens order, In (name, (gens, order)) (point_groups ++ other_setting) ->
  exists els, length els = order /\ ForallOrdPairs (fun y z => ~ teq (mat y) (mat z)) els /\
    forall R, shape R = [3; 3] -> ((exists R', generated gens R' /\ teq R' R) <-> exists z, In z els /\ teq R (mat z)).
Proof.
  assert (H : forallb (fun x => group_check (fst (snd x)) (snd (snd x))) (point_groups ++ other_setting) = true)
    by (vm_compute; reflexivity).
  rewrite forallb_forall in H. intros name gens order I. specialize (H _ I). cbn [fst snd] in H.
  unfold group_check in H. cbv zeta in H. rewrite !andb_true_iff in H. destruct H as [[H1 H2] H3].
  exists (elements gens). split; [apply Nat.eqb_eq; exact H3|]. split; [apply all_distinct_ok; exact H2|].
  intros R Sh. split.
  - intros (R' & G & T). destruct (closed_all _ _ H1 R' G) as (z & Iz & Tz). exists z. split; [exact Iz|].
    exact (teq_trans _ _ _ (teq_sym _ _ T) Tz).
  - intros (z & Iz & T). destruct (elements_reached gens z Iz) as (R' & G & T'). exists R'. split; [exact G|].
    exact (teq_trans _ _ _ T' (teq_sym _ _ T)).
Qed.
Print Assumptions C38_orders.

(** The rotations among the generators turn by the angle in their name. *)
Theorem C38_angles : teq (mat C3z) (rot_z (2 * PI / 3)) /\ teq (mat C4z) (rot_z (PI / 2)) /\ teq (mat C6z) (rot_z (PI / 3)) /\
  teq (mat C2z) (rot_z PI).
Proof.
  assert (T : forall g a, (forall i j, i < 3 -> j < 3 -> at_ (mat g) [i; j] = at_ (rot_z a) [i; j]) -> teq (mat g) (rot_z a)).
  { intros g a H. split; [reflexivity|]. intros i I. apply in_indices in I. simpl in I.
    pose proof (fits_length _ _ I) as L. destruct i as [|i [|j [|]]]; try discriminate.
    pose proof (fits_nth _ _ 0 I). pose proof (fits_nth _ _ 1 I). simpl in *. apply H; lia. }
  assert (C3 : cos (2 * PI / 3) = (- / 2)%R).
  { replace (2 * PI / 3)%R with (2 * (PI / 3))%R by field. rewrite cos_2a_cos, cos_PI3. field. }
  assert (S3 : sin (2 * PI / 3) = (sqrt 3 / 2)%R).
  { replace (2 * PI / 3)%R with (2 * (PI / 3))%R by field. rewrite sin_2a, cos_PI3, sin_PI3. field. }
  repeat split; try (apply T; intros i j Li Lj; destruct i as [|[|[|i]]]; [..|lia]; destruct j as [|[|[|j]]]; try lia;
    cbn -[sqrt cos sin PI]; unfold sval; cbn -[sqrt cos sin PI];
    rewrite ?C3, ?S3, ?cos_PI2, ?sin_PI2, ?cos_PI3, ?sin_PI3, ?cos_PI, ?sin_PI; f_equal; field).
Qed.
Print Assumptions C38_angles.

(** *** C38 *)
Theorem C38_dipole : forall name t, dipole name = Ok t ->
  exists gens order, dget name dipole_groups = Some (gens, order) /\ invariant_table t gens.
Proof.
  intros name t D.
  assert (H : tables_check 2 dipole_table dipole_groups = true) by (vm_compute; reflexivity).
  destruct (tables_check_ok _ _ _ H name t D) as (gens & order & G & I & _). eauto.
Qed.
Print Assumptions C38_dipole.

Theorem C38_surface : forall name t, surface name = Ok t ->
  exists gens order, dget name dipole_groups = Some (gens, order) /\ invariant_table t gens.
Proof.
  intros name t D.
  assert (H : tables_check 2 surface_table dipole_groups = true) by (vm_compute; reflexivity).
  destruct (tables_check_ok _ _ _ H name t D) as (gens & order & G & I & _). eauto.
Qed.
Print Assumptions C38_surface.

(** All 32 names are there. *)
Theorem C38_names : forall name, In name (dkeys point_groups) -> (exists t, dipole name = Ok t) /\ (exists t, surface name = Ok t).
Proof.
  assert (H : forallb (fun n => match dget n dipole_table, dget n surface_table with Some _, Some _ => true | _, _ => false end)
    (dkeys point_groups) = true) by (vm_compute; reflexivity).
  rewrite forallb_forall in H. intros name I. specialize (H name I). unfold dipole, surface, lookup.
  destruct (dget name dipole_table), (dget name surface_table); try discriminate; eauto.
Qed.
Print Assumptions C38_names.

Example C38_case : length (dkeys point_groups) = 32 /\ In "T_d"%string (dkeys point_groups) /\
  generated [S4z; C3d] (matmul 3 (matmul 3 (identity 3) (mat S4z)) (mat C3d)).
Proof.
  split; [reflexivity|]. split; [simpl; tauto|].
  apply gen_step; [|simpl; auto]. apply gen_step; [constructor|simpl; auto].
Qed.

(** Applying [transform] to the symbolic table with a symbolic (or numeric)
    matrix of a group element gives expressions with the same values. *)
Lemma eval_num_0 rho : eval rho (num 0) = RtoC 0.
Proof. simpl. rewrite RMicromega.Q2R_0. reflexivity. Qed.

Lemma symbolic_invariant (ev : expr -> expr) (t : tensor expr) gens n : sound_ev ev -> shape t = repeat 3 (S n) ->
  invariant_table t gens -> forall rho (op : tensor expr), respects rho -> shape op = [3; 3] ->
  (exists R, generated gens R /\ teq R (instance rho op)) ->
  exists u, @transform expr (Sig_ev ev) t op = Ok u /\ teq (instance rho u) (instance rho t).
Proof.
  intros [EV _] St Inv rho op Rs So (R & G & T).
  assert (U : under_res (eval rho) (@transform expr (Sig_ev ev) t op) (transform (instance rho t) (instance rho op))).
  { apply (@transform_under expr C (Sig_ev ev) Sig_C (eval rho)).
    - apply eval_num_0.
    - intros a b. cbn [add Sig_ev]. rewrite EV by auto. simpl. ring.
    - intros a b. cbn [mul Sig_ev]. rewrite EV by auto. simpl. ring.
    - apply under_tmap.
    - apply under_tmap. }
  assert (I : invariant (instance rho t) (instance rho op)).
  { apply invariant_teq with (n := n) (R := R); auto. apply generated_shape with (1 := G). }
  destruct I as (v & Ev & Tv). rewrite Ev in U.
  destruct (@transform expr (Sig_ev ev) t op) as [u|]; simpl in U; [|contradiction].
  exists u. split; auto. destruct U as [Sv Hv]. destruct Tv as [Sv' Hv'].
  split; [simpl in *; congruence|]. intros i Ii. rewrite <- Hv' by (rewrite Sv; auto). rewrite Hv. reflexivity.
Qed.

Theorem C38_symbolic : forall ev name t, sound_ev ev -> dipole name = Ok t ->
  exists gens order, dget name dipole_groups = Some (gens, order) /\
  forall rho (op : tensor expr), respects rho -> shape op = [3; 3] ->
    (exists R, generated gens R /\ teq R (instance rho op)) ->
    exists u, @transform expr (Sig_ev ev) t op = Ok u /\ teq (instance rho u) (instance rho t).
Proof.
  intros ev name t EV D. destruct (C38_dipole name t D) as (gens & order & G & I). exists gens, order. split; auto.
  apply symbolic_invariant with (n := 2); auto.
  unfold dipole, lookup in D. destruct (dget name dipole_table); inversion D; reflexivity.
Qed.
Print Assumptions C38_symbolic.

(** *** C39 *)
Theorem C39_dipole : forall name t, dipole name = Ok t ->
  exists gens order, dget name dipole_groups = Some (gens, order) /\ complete_table t gens.
Proof.
  intros name t D.
  assert (H : tables_check 2 dipole_table dipole_groups = true) by (vm_compute; reflexivity).
  destruct (tables_check_ok _ _ _ H name t D) as (gens & order & G & _ & I). eauto.
Qed.
Print Assumptions C39_dipole.

Theorem C39_surface : forall name t, surface name = Ok t ->
  exists gens order, dget name dipole_groups = Some (gens, order) /\ complete_table t gens.
Proof.
  intros name t D.
  assert (H : tables_check 2 surface_table dipole_groups = true) by (vm_compute; reflexivity).
  destruct (tables_check_ok _ _ _ H name t D) as (gens & order & G & _ & I). eauto.
Qed.
Print Assumptions C39_surface.

(** A crystal without inversion symmetry has a non-zero dipole tensor; with
    inversion symmetry every invariant tensor vanishes. *)
Theorem C39_centrosymmetric : forall X : tensor C, shape X = [3; 3; 3] -> invariant X (mat inv) ->
  forall i, fits [3; 3; 3] i -> at_ X i = RtoC 0.
Proof.
  intros X Sh I i F.
  destruct (C39_dipole "S_2" _ eq_refl) as (gens & order & G & K).
  vm_compute in G. inversion G; subst gens order. clear G.
  destruct (K X Sh) as (rho & T & _). { intros g [<-|[]]. exact I. }
  rewrite (proj2 T) by (rewrite Sh; apply in_indices; auto).
  assert (N : nth (position i) (entries_of dipole_table "S_2") nul = nul).
  { assert (L : forallb (fun i => match nth (position i) (entries_of dipole_table "S_2") nul with ENum (0#1) (0#1) => true | _ => false end)
      (indices [3;3;3]) = true) by (vm_compute; reflexivity).
    rewrite forallb_forall in L. specialize (L i (proj2 (in_indices _ _) F)).
    destruct (nth (position i) (entries_of dipole_table "S_2") nul); try discriminate.
    destruct re as [[| |] [| |]]; try discriminate. destruct im as [[| |] [| |]]; try discriminate. reflexivity. }
  change (eval rho (nth (position i) (entries_of dipole_table "S_2") nul) = RtoC 0).
  rewrite N. apply eval_num_0.
Qed.
Print Assumptions C39_centrosymmetric.

(** A tensor that meets the hypotheses and is not zero. *)
Example C39_case : exists (X : tensor C) t, dipole "T_d" = Ok t /\ shape X = [3; 3; 3] /\
  (forall g, In g [S4z; C3d] -> invariant X (mat g)) /\ at_ X [0; 1; 2] = RtoC 1.
Proof.
  destruct (C38_dipole "T_d" _ eq_refl) as (gens & order & G & I). vm_compute in G. inversion G; subst gens order.
  exists (instance (ind "zyx") (table_tensor 3 (entries_of dipole_table "T_d"))), (table_tensor 3 (entries_of dipole_table "T_d")).
  split; [reflexivity|]. split; [reflexivity|]. split; [|reflexivity].
  intros g Ig.
  apply (invariant_teq _ (matmul 3 (identity 3) (mat g)) _ 2); auto.
  - split; [reflexivity|]. intros i Ii. apply in_indices in Ii. simpl in Ii.
    pose proof (fits_length _ _ Ii) as L. destruct i as [|i [|j [|]]]; try discriminate.
    pose proof (fits_nth _ _ 0 Ii). pose proof (fits_nth _ _ 1 Ii). simpl in *.
    assert (Li : i < 3) by lia. destruct i as [|[|[|i]]]; [..|lia]; simpl; ring.
  - apply I. apply gen_step; [constructor|auto].
Qed.

(** *** C40 *)
Definition crystals : list (string * list expr) :=
  filter (fun x => negb (String.eqb (fst x) "Isotropic")) quadrupole_table.

Lemma crystal_lookup name t : quadrupole name = Ok t -> name <> "Isotropic"%string -> lookup crystals 4 name = Ok t.
Proof.
  unfold quadrupole, lookup, crystals. intros H N.
  assert (E : dget name (filter (fun x => negb (String.eqb (fst x) "Isotropic")) quadrupole_table) = dget name quadrupole_table).
  { clear H. generalize quadrupole_table. induction l as [|[k v] l IH]; auto.
    cbn [filter fst dget]. destruct (String.eqb_spec k "Isotropic") as [->|Nk]; cbn [negb dget].
    - rewrite IH. destruct (eqb_spec name "Isotropic"%string); [contradiction|reflexivity].
    - destruct (eqb name k); auto. }
  rewrite E. exact H.
Qed.

Theorem C40_invariant : forall name t, quadrupole name = Ok t -> name <> "Isotropic"%string ->
  exists gens order, dget name quadrupole_groups = Some (gens, order) /\ invariant_table t gens /\ complete_table t gens.
Proof.
  intros name t D N. apply crystal_lookup in D; auto.
  assert (H : tables_check 3 crystals quadrupole_groups = true) by (vm_compute; reflexivity).
  destruct (tables_check_ok _ _ _ H name t D) as (gens & order & G & I). eauto.
Qed.
Print Assumptions C40_invariant.

(** The isotropic tensor is invariant under every orthogonal matrix, and every
    tensor invariant under all rotations (these three are enough) is an
    instance. *)
Theorem C40_isotropic : exists t, quadrupole "Isotropic" = Ok t /\
  (forall rho R, orthogonal R -> invariant (instance rho t) R) /\
  complete_table t [C4z; C3d; C6z].
Proof.
  exists (table_tensor 4 qiso). split; [reflexivity|]. split; [exact iso_invariant|exact iso_complete].
Qed.
Print Assumptions C40_isotropic.

(** The three rotations are orthogonal. *)
Example C40_case : orthogonal (mat C4z) /\ orthogonal (mat C3d) /\ orthogonal (mat C6z).
Proof.
  assert (Q : (sqrt 3 * sqrt 3 = 3)%R) by (apply sqrt_sqrt; lra).
  repeat split; try (intros i j Li Lj; destruct i as [|[|[|i]]]; [..|lia]; destruct j as [|[|[|j]]]; try lia;
    try reflexivity; apply C_ext; cbn -[sqrt]; unfold sval; cbn -[sqrt]; nra).
Qed.

(** Every documented name but one is present; 'S_2' is documented and missing. *)
Theorem C40_names_refuted : quadrupole "S_2" = Raise KeyError /\ In "S_2"%string (dkeys point_groups).
Proof. split; [reflexivity|simpl; tauto]. Qed.
Print Assumptions C40_names_refuted.

Theorem C40_names_partial : forall name, In name (dkeys point_groups) -> name <> "S_2"%string -> exists t, quadrupole name = Ok t.
Proof.
  assert (H : forallb (fun n => String.eqb n "S_2" || match dget n quadrupole_table with Some _ => true | _ => false end)
    (dkeys point_groups) = true) by (vm_compute; reflexivity).
  rewrite forallb_forall in H. intros name I N. specialize (H name I). unfold quadrupole, lookup.
  destruct (String.eqb_spec name "S_2"); [contradiction|]. cbn [orb] in H.
  destruct (dget name quadrupole_table); try discriminate; eauto.
Qed.
Print Assumptions C40_names_partial.

(** *** C41 *)
Theorem C41_same_axes_partial : forall name d q, dipole name = Ok d -> quadrupole name = Ok q ->
  name <> "C_3v"%string -> name <> "D_3"%string ->
  exists gens order, dget name point_groups = Some (gens, order) /\
    invariant_table d gens /\ complete_table d gens /\ invariant_table q gens /\ complete_table q gens.
Proof.
  intros name d q D Q N1 N2.
  destruct (C38_dipole name d D) as (gens & order & G & I). destruct (C39_dipole name d D) as (gens' & order' & G' & K).
  unfold dipole_groups in *. rewrite G in G'. inversion G'; subst gens' order'.
  destruct (string_dec name "Isotropic") as [->|Ni]; [discriminate|].
  destruct (C40_invariant name q Q Ni) as (gens' & order' & Gq & Iq & Kq).
  assert (E : dget name quadrupole_groups = dget name point_groups).
  { unfold quadrupole_groups. cbn [other_setting app dget].
    destruct (eqb_spec name "D_3"%string); [contradiction|]. destruct (eqb_spec name "C_3v"%string); [contradiction|]. reflexivity. }
  rewrite E, G in Gq. inversion Gq; subst gens' order'. exists gens, order. auto.
Qed.
Print Assumptions C41_same_axes_partial.

(** For C_3v and D_3 no rotation or reflection of the axes makes both tables
    invariant under the group. *)
Theorem C41_same_axes_refuted : forall name gens order d q, name = "C_3v"%string \/ name = "D_3"%string ->
  dget name point_groups = Some (gens, order) -> dipole name = Ok d -> quadrupole name = Ok q ->
  ~ common_orientation d q gens.
Proof.
  intros name gens order d q [->| ->] G D Q (Q0 & O & H).
  - vm_compute in G. inversion G; subst gens order; clear G.
    assert (D' : dipole "C_3v" = Ok (table_tensor 3 d3v)) by reflexivity.
    assert (Q' : quadrupole "C_3v" = Ok (table_tensor 4 q3v)) by reflexivity.
    rewrite D' in D. rewrite Q' in Q. clear D' Q'.
    assert (D' : table_tensor 3 d3v = d) by congruence. assert (Q' : table_tensor 4 q3v = q) by congruence.
    clear D Q. subst d q.
    assert (Gn : generated [C3z; mx] (matmul 3 (identity 3) (mat (diag (-1) (- -1) (- -1))))).
    { apply gen_step; [constructor|simpl; auto]. }
    specialize (H _ Gn). cbv zeta in H. fold (conj_diag Q0 (-1)) in H.
    apply (no_C_3v (conj_diag Q0 (-1)) _ eq_refl (conj_entry Q0 O (-1))).
    + apply conj_mirror_like; auto.
    + intros rho. exact (proj1 (H rho)).
    + intros rho. exact (proj2 (H rho)).
  - vm_compute in G. inversion G; subst gens order; clear G.
    assert (D' : dipole "D_3" = Ok (table_tensor 3 d3)) by reflexivity.
    assert (Q' : quadrupole "D_3" = Ok (table_tensor 4 q3)) by reflexivity.
    rewrite D' in D. rewrite Q' in Q. clear D' Q'.
    assert (D' : table_tensor 3 d3 = d) by congruence. assert (Q' : table_tensor 4 q3 = q) by congruence.
    clear D Q. subst d q.
    assert (Gn : generated [C3z; C2x] (matmul 3 (identity 3) (mat (diag 1 (- 1) (- 1))))).
    { apply gen_step; [constructor|simpl; auto]. }
    specialize (H _ Gn). cbv zeta in H. fold (conj_diag Q0 1) in H.
    apply (no_D_3 (conj_diag Q0 1) _ eq_refl (conj_entry Q0 O 1)).
    + apply conj_mirror_like; auto.
    + intros rho. exact (proj1 (H rho)).
    + intros rho. exact (proj2 (H rho)).
Qed.
Print Assumptions C41_same_axes_refuted.

(** *** C42 *)
Definition renamed (s : sym) : sym := mksym ("s" ++ sname s)%string (sreal s).
Fixpoint rename (e : expr) : expr :=
  match e with
  | ENum a b => ENum a b
  | ESym s => ESym (renamed s)
  | EAdd l => EAdd (map rename l)
  | EMul l => EMul (map rename l)
  | EPow b n => EPow (rename b) n
  | ECos e => ECos (rename e)
  | ESin e => ESin (rename e)
  | EConj e => EConj (rename e)
  | ERe e => ERe (rename e)
  | EIm e => EIm (rename e)
  end.

Theorem C42_surface : forall name, surface name = match dipole name with
  | Ok d => Ok (mkT (shape d) (fun i => rename (at_ d i)))
  | Raise e => Raise e
  end.
Proof.
  intros name.
  assert (D : dget name surface_table = option_map (map rename) (dget name dipole_table)).
  { assert (A : Forall (fun n => dget n surface_table = option_map (map rename) (dget n dipole_table)) (map fst dipole_table)).
    { vm_compute. repeat (constructor; [reflexivity|]). constructor. }
    assert (I : incl (map fst surface_table) (map fst dipole_table)).
    { vm_compute. intros x X. repeat (destruct X as [<-|X]; [tauto|]). destruct X. }
    assert (N : forall (t : list (string * list expr)), ~ In name (map fst t) -> dget name t = None).
    { induction t as [|[k v] t IH]; intros X; [reflexivity|]. cbn [dget]. destruct (eqb name k) eqn:B.
      - exfalso. apply X. left. symmetry. apply String.eqb_eq. exact B.
      - apply IH. intros Y. apply X. right. exact Y. }
    destruct (in_dec string_dec name (map fst dipole_table)) as [Y|Y].
    - exact (proj1 (Forall_forall _ _) A name Y).
    - rewrite (N dipole_table Y), (N surface_table); [reflexivity|]. intros Z. apply Y. apply I. exact Z. }
  unfold surface, dipole, lookup. rewrite D. destruct (dget name dipole_table) as [l|]; [|reflexivity].
  cbn [option_map]. unfold table_tensor. f_equal. f_equal.
  apply FunctionalExtensionality.functional_extensionality. intros i. cbn [at_].
  change nul with (rename nul) at 1. apply map_nth.
Qed.
Print Assumptions C42_surface.

Example C42_case : exists d, dipole "C_3v" = Ok d /\ at_ d [0; 1; 0] = par "xyx" /\ rename (par "xyx") = par "sxyx".
Proof. eexists. split; [reflexivity|]. split; reflexivity. Qed.
