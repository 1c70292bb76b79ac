(** Proofs for C60 and C62. *)
From Coq Require Import String List ZArith Reals Lra Lia Bool.
From Coquelicot Require Import Complex.
From Verif Require Import PyBase RMod DataModel SpecData DataProofs DataProofs2 DataProofs3 CBase FDataModel SpecFData FDataProofs FDataProofs2 MiscModel SpecMisc.
Import ListNotations.
Open Scope R_scope.

Lemma view_keys d u v : view d u = Ok v -> dkeys v = get_keys d.
Proof.
  unfold view. destruct (check_angle_units (lower u)); simpl; [|discriminate].
  destruct (String.eqb _ _); intros E; injection E as <-; auto. apply dkeys_dmap.
Qed.

Lemma over_pcs {B} d u v (g : string -> list (R * R) -> B) : wf_dict (dc_data d) -> view d u = Ok v ->
  mapM (fun k => do p <- get_pc d k u; Ok (g k p)) (get_keys d) = Ok (map (fun kv => g (fst kv) (snd kv)) v).
Proof.
  intros W V. rewrite <- (view_keys d u v V). unfold dkeys.
  assert (Wv : wf_dict v) by (unfold wf_dict; rewrite (view_keys d u v V); exact W).
  assert (G : forall l, incl l v -> mapM (fun k => do p <- get_pc d k u; Ok (g k p)) (map fst l) = Ok (map (fun kv => g (fst kv) (snd kv)) l)).
  { induction l as [|[k p] l IH]; intros I; [reflexivity|]. cbn [map fst mapM].
    unfold get_pc at 1. rewrite V. cbn [bind]. unfold dgetr. rewrite (In_dget _ _ _ Wv (I _ (or_introl eq_refl))). cbn [bind].
    rewrite IH by (intros z Z; apply I; right; auto). reflexivity. }
  apply G, incl_refl.
Qed.

Definition tab (a2 : list R) (kp : string * list (R * R)) : list (string * R * R) :=
  combine (map (pair (fst kp)) a2) (map snd (snd kp)).
Definition labelled (kv : string * list (R * R)) : list (string * R * R) :=
  map (fun q => (fst kv, fst q, snd q)) (snd kv).

Lemma tab_length a2 kp : length (snd kp) = length a2 -> length (tab a2 kp) = length a2.
Proof. intros L. unfold tab. rewrite combine_length, !map_length. lia. Qed.
Lemma labelled_length kv : length (labelled kv) = length (snd kv).
Proof. apply map_length. Qed.

Lemma tab_labelled a2 kp : length (snd kp) = length a2 -> (tab a2 kp = labelled kp <-> map fst (snd kp) = a2).
Proof.
  destruct kp as [k p]; unfold tab, labelled; simpl. revert a2. induction p as [|[x y] p IH]; intros [|a a2] L; simpl in *; try lia; try tauto.
  specialize (IH a2 ltac:(lia)). split; intros E.
  - injection E as -> E. f_equal. apply IH; auto.
  - injection E as -> E. f_equal. apply IH; auto.
Qed.

Lemma app_inj_length {A} (a b c d : list A) : length a = length c -> a ++ b = c ++ d -> a = c /\ b = d.
Proof.
  revert c. induction a as [|x a IH]; intros [|y c] L E; simpl in *; try lia; auto.
  injection E as -> E. destruct (IH c ltac:(lia) E). subst; auto.
Qed.

Lemma table_iff a2 v : (forall kv, In kv v -> length (snd kv) = length a2) ->
  (flat_map (tab a2) v = flat_map labelled v <-> forall kv, In kv v -> map fst (snd kv) = a2).
Proof.
  induction v as [|kv v IH]; intros L; simpl; [split; intros; [destruct H0|reflexivity]|].
  assert (L0 := L kv (or_introl eq_refl)).
  specialize (IH (fun z Z => L z (or_intror Z))). split.
  - intros E. apply app_inj_length in E as [E1 E2]; [|rewrite tab_length, labelled_length; auto].
    intros z [<-|Z]; [apply (tab_labelled a2 kv L0); auto|apply IH; auto].
  - intros H. f_equal; [apply (tab_labelled a2 kv L0); auto|apply IH; auto].
Qed.

Lemma product_length {A B} (a : list A) (b : list B) : length (from_product a b) = (length a * length b)%nat.
Proof. induction a; simpl; auto. rewrite app_length, map_length, IHa. reflexivity. Qed.

Lemma combine_app {A B} (a1 a2 : list A) (b1 b2 : list B) : length a1 = length b1 ->
  combine (a1 ++ a2) (b1 ++ b2) = combine a1 b1 ++ combine a2 b2.
Proof. revert b1. induction a1; intros [|y b1] L; simpl in *; try lia; auto. f_equal. apply IHa1; lia. Qed.

Lemma table_combine a2 v : (forall kv, In kv v -> length (snd kv) = length a2) ->
  combine (from_product (map fst v) a2) (concat (map (fun kv : string * list (R * R) => map snd (snd kv)) v)) = flat_map (tab a2) v /\
  length (concat (map (fun kv : string * list (R * R) => map snd (snd kv)) v)) = (length v * length a2)%nat.
Proof.
  induction v as [|kv v IH]; intros L; simpl; auto.
  destruct IH as [I1 I2]; [intros z Z; apply L; right; auto|].
  assert (L0 := L kv (or_introl eq_refl)). split.
  - rewrite combine_app by (rewrite !map_length; auto). rewrite I1. reflexivity.
  - rewrite app_length, map_length, I2. lia.
Qed.

Lemma forallb_ext_map (rest : list (string * list (R * R))) (p0 : list (R * R)) :
  forallb (fun s => Nat.eqb (length s) (length (map snd p0))) (map (fun kv => map snd (snd kv)) rest) =
  forallb (fun kv => Nat.eqb (length (snd kv)) (length p0)) rest.
Proof. induction rest; simpl; auto. rewrite IHrest, !map_length. reflexivity. Qed.

Lemma as_pandas_multi d u k0 p0 rest : wf_dict (dc_data d) -> get_items d u = Ok ((k0, p0) :: rest) ->
  as_pandas d u "multi" =
  if forallb (fun kv => Nat.eqb (length (snd kv)) (length p0)) rest
  then Ok (flat_map (tab (map fst p0)) ((k0, p0) :: rest)) else Raise ValueError.
Proof.
  intros W V. unfold as_pandas, get_values. unfold get_items in V. rewrite V. cbn [bind].
  change (py_nth (dvals ((k0, p0) :: rest)) 0) with (Ok p0). cbn [bind].
  rewrite (String.eqb_refl "multi").
  rewrite (over_pcs d u _ (fun _ p => map snd p) W V). cbn [bind map fst snd np_stack].
  set (v := (k0, p0) :: rest) in *. rewrite (forallb_ext_map rest p0).
  destruct (forallb _ rest) eqn:F; [|reflexivity]. cbn [bind].
  rewrite forallb_forall in F.
  assert (L : forall kv, In kv v -> length (snd kv) = length (map fst p0)).
  { intros kv [<-|I]; rewrite map_length; auto. apply Nat.eqb_eq, F; auto. }
  destruct (table_combine (map fst p0) v L) as [C1 C2]. unfold frame.
  rewrite <- (view_keys d u v V). unfold dkeys. rewrite product_length, map_length.
  change (map snd p0 :: map (fun kv => map snd (snd kv)) rest) with (map (fun kv : string * list (R * R) => map snd (snd kv)) v).
  rewrite C2, map_length, Nat.eqb_refl, C1. reflexivity.
Qed.

Lemma as_pandas_none d u v : wf_dict (dc_data d) -> get_items d u = Ok v -> v <> [] ->
  as_pandas d u "none" = Ok (points v).
Proof.
  intros W V N. unfold as_pandas, get_values. unfold get_items in V. rewrite V. cbn [bind].
  destruct v as [|[k0 p0] rest]; [contradiction|].
  change (py_nth (dvals ((k0, p0) :: rest)) 0) with (Ok p0). cbn [bind].
  change (String.eqb "none" "multi") with false. change (String.eqb "none" "none") with true. cbv iota.
  rewrite (over_pcs d u _ (fun k p => map (fun q => (k, fst q, snd q)) p) W V). cbn [bind].
  unfold points. rewrite <- flat_map_concat_map. reflexivity.
Qed.

Lemma fover_pcs {B} f (g : string -> list C -> res B) : fwf f ->
  mapM (fun k => do v <- fget_pc f k; g k v) (fget_keys f) = mapM (fun kv => g (fst kv) (snd kv)) (fd_data f).
Proof.
  intros [W _]. unfold fget_keys, dkeys.
  assert (G : forall l, incl l (fd_data f) -> mapM (fun k => do v <- fget_pc f k; g k v) (map fst l) = mapM (fun kv => g (fst kv) (snd kv)) l).
  { induction l as [|[k v] l IH]; intros I; [reflexivity|]. cbn [map fst mapM].
    unfold fget_pc at 1, dgetr. rewrite (In_dget _ _ _ W (I _ (or_introl eq_refl))). cbn [bind snd].
    rewrite IH by (intros z Z; apply I; right; auto). reflexivity. }
  apply G, incl_refl.
Qed.

Lemma fas_pandas_none f : fwf f -> fas_pandas f "none" = Ok (fpoints (fd_M f) (fget_items f)).
Proof.
  intros W. unfold fas_pandas. change (String.eqb "none" "multi") with false. change (String.eqb "none" "none") with true. cbv iota.
  rewrite (fover_pcs f (fun k v => do rows <- frame (freqs (fget_M f)) v; Ok (map (fun q => (k, fst q, snd q)) rows)) W).
  rewrite (mapM_ok_map _ (fun kv => map (fun m => (fst kv, m, coef (fd_M f) (snd kv) m)) (freqs (fd_M f)))).
  - cbn [bind]. rewrite <- flat_map_concat_map. reflexivity.
  - intros [k v] I. destruct W as [_ F]. rewrite Forall_forall in F. specialize (F _ I). simpl in F.
    unfold frame, fget_M. cbn [fst snd]. rewrite length_freqs, F, Nat.eqb_refl. cbn [bind fst snd].
    rewrite combine_freqs by auto. rewrite map_map. reflexivity.
Qed.

Lemma fas_pandas_multi f : fwf f -> fas_pandas f "multi" = Ok (fpoints (fd_M f) (fget_items f)).
Proof.
  intros W. unfold fas_pandas. rewrite (String.eqb_refl "multi").
  replace (mapM (fget_pc f) (fget_keys f)) with (mapM (fun k => do v <- fget_pc f k; Ok v) (fget_keys f)).
  2:{ generalize (fget_keys f). induction l; simpl; auto. rewrite IHl. destruct (fget_pc f a); auto. }
  rewrite (fover_pcs f (fun _ v => Ok v) W).
  rewrite (mapM_ok_map _ snd) by reflexivity. cbn [bind].
  assert (L : forall kv, In kv (fd_data f) -> length (snd kv) = (2 * fd_M f + 1)%nat).
  { intros kv I. destruct W as [_ F]. rewrite Forall_forall in F. apply (F _ I). }
  assert (S : np_stack (map snd (fd_data f)) = Ok (concat (map snd (fd_data f)))).
  { destruct (fd_data f) as [|kv r]; [reflexivity|]. simpl. 
    replace (forallb _ (map snd r)) with true; [reflexivity|]. symmetry. apply forallb_forall. intros v I.
    apply in_map_iff in I as [kv' [<- I]]. apply Nat.eqb_eq. rewrite !L; simpl; auto. }
  rewrite S. cbn [bind]. unfold frame, fget_keys, dkeys, fget_M, fget_items, fpoints.
  assert (G : forall l : list (string * list C), (forall kv, In kv l -> length (snd kv) = (2 * fd_M f + 1)%nat) ->
    length (concat (map snd l)) = (length l * (2 * fd_M f + 1))%nat /\
    combine (from_product (map fst l) (freqs (fd_M f))) (concat (map snd l)) =
    flat_map (fun kv => map (fun m => (fst kv, m, coef (fd_M f) (snd kv) m)) (freqs (fd_M f))) l).
  { induction l as [|kv l IH]; intros Ll; [auto|]. destruct IH as [I1 I2]; [intros; apply Ll; right; auto|].
    assert (L0 := Ll kv (or_introl eq_refl)). simpl. split.
    - rewrite app_length, I1, L0. simpl. lia.
    - rewrite combine_app by (rewrite map_length, length_freqs; auto). rewrite I2. f_equal.
      transitivity (map (fun mv => ((fst kv, fst mv), snd mv)) (combine (freqs (fd_M f)) (snd kv))).
      + generalize (freqs (fd_M f)) as z. generalize (snd kv) as v. clear. induction v; intros [|m z]; simpl; auto. f_equal; auto.
      + rewrite combine_freqs, map_map by auto. reflexivity. }
  destruct (G (fd_data f) L) as [G1 G2]. rewrite product_length, map_length, length_freqs, G1, Nat.eqb_refl, G2. reflexivity.
Qed.

(* ------------------------------------------------------------------ *)
(** * C62 *)

Lemma draw_spec {P} dats (params : list P) pc :
  (forall d, In d dats -> In pc (get_keys d)) ->
  exists curves : list (list (R * R) * P), draw dats params pc = Ok (pc, curves) /\
    Forall2 (fun dp c => get_pc (fst dp) pc "radians" = Ok (fst c) /\ snd c = snd dp) (combine dats params) curves.
Proof.
  intros H. unfold draw.
  assert (G : exists curves, mapM (fun dp => do p <- get_pc (fst dp) pc "radians"; Ok (p, snd dp)) (combine dats params) = Ok curves /\
    Forall2 (fun dp c => get_pc (fst dp) pc "radians" = Ok (fst c) /\ snd c = snd dp) (combine dats params) curves).
  { assert (H' : forall dp, In dp (combine dats params) -> In pc (get_keys (fst dp))).
    { intros [d p] I. apply H. eapply in_combine_l; eauto. }
    revert H'. generalize (combine dats params) as l. induction l as [|dp l IH]; intros H'; [eexists; split; [reflexivity|constructor]|].
    destruct IH as (cs & E & F); [intros; apply H'; right; auto|].
    destruct (proj1 (get_pc_key _ _) (H' dp (or_introl eq_refl))) as [p Ep].
    eexists. split; [cbn [mapM]; rewrite Ep; cbn [bind]; rewrite E; reflexivity|]. constructor; auto. }
  destruct G as (cs & E & F). rewrite E. simpl. eauto.
Qed.

Lemma draw_all_spec {P} dats (params : list P) pcs slots : length pcs = slots ->
  (forall pc d, In pc pcs -> In d dats -> In pc (get_keys d)) ->
  exists ax, draw_all dats params pcs slots = Ok ax /\ Forall2 (shows dats params) pcs ax.
Proof.
  intros <- H. unfold draw_all. rewrite firstn_all.
  assert (G : exists l, mapM (draw dats params) pcs = Ok l /\ Forall2 (fun pc a => shows dats params pc (Some a)) pcs l).
  { induction pcs as [|pc pcs IH]; [eexists; split; [reflexivity|constructor]|].
    destruct IH as (l & E & F); [intros; apply H; simpl; auto|].
    destruct (draw_spec dats params pc) as (cs & Ec & Fc); [intros; apply H; simpl; auto|].
    exists ((pc, cs) :: l). split; [cbn [mapM]; rewrite Ec; cbn [bind]; rewrite E; reflexivity|].
    constructor; auto. exists cs; auto. }
  destruct G as (l & E & F). rewrite E. cbn [bind].
  exists (map Some l). split.
  - assert (length l = length pcs) by (symmetry; apply (Forall2_length _ _ _ F)). rewrite H0, Nat.sub_diag. simpl. rewrite app_nil_r. reflexivity.
  - clear -F. induction F; simpl; constructor; auto.
Qed.
