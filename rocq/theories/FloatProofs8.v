(** Adding and taking back, for any two operations on values. *)
From Coq Require Import Reals ZArith List String Lia Lra.
From Coquelicot Require Import Complex.
From Verif Require Import PyBase RMod CBase SpecData DataModel DataProofs DataProofs2 DataProofs3 FDataModel SpecFData FDataProofs FDataProofs2 PropertiesFData
  FloatModel FloatProofs FloatProofs2 SpecFloat SpecFloat2 FloatModel2 FloatProofs5 FloatProofs7.
Import ListNotations.
Local Open Scope R_scope.

Lemma arith_twice op op' d1 d2 : reachable d1 -> all_distinct d1 -> can_combine d1 d2 ->
  exists s d, dat_arith op d1 d2 = Ok s /\ dat_arith op' s d2 = Ok d /\
    Forall2 (fun a b => fst b = fst a /\ exists p2, get_pc d2 (fst a) "radians" = Ok p2 /\ List.length (stretch (List.length (snd a)) p2) = List.length (snd a) /\
      snd b = pointwise op' (pointwise op (snd a) p2) p2) (dc_data d1) (dc_data d).
Proof.
  intros R D Cc. pose proof Cc as (NE & K & V & Co). pose proof (reachable_wf d1 R) as W.
  assert (Wa : wf_dict (arith_data op d1 d2)) by (unfold wf_dict, dkeys, arith_data; rewrite map_map; exact W).
  set (s := mkdat (arith_data op d1 d2) 1 0 0 "radians" false).
  assert (Ks : get_keys s = get_keys d1) by (unfold get_keys, s, dkeys, arith_data; simpl; rewrite map_map; reflexivity).
  assert (Pair : forall k p1, In (k, p1) (dc_data d1) -> exists p2, dget k (dc_data d2) = Some p2 /\ compatible p1 p2 /\ get_pc d2 k "radians" = Ok p2).
  { intros k p1 I. apply (get_pc_In d1 k p1 W) in I.
    assert (Kk : In k (get_keys d2)) by (apply K; apply get_pc_key; eexists; eauto).
    apply get_pc_key in Kk as [q Q]. exists q. split; [|eauto].
    unfold get_pc, view, dgetr in Q. simpl in Q. destruct (dget k (dc_data d2)); [|discriminate]. injection Q as ->; auto. }
  assert (In_s : forall k p, get_pc s k "radians" = Ok p -> exists p1 p2, In (k, p1) (dc_data d1) /\ dget k (dc_data d2) = Some p2 /\ compatible p1 p2 /\ get_pc d2 k "radians" = Ok p2 /\ p = pointwise op p1 p2).
  { intros k p E. apply (get_pc_In s k p Wa) in E. simpl in E. unfold arith_data in E. apply in_map_iff in E as [[k' p1] [E I]].
    simpl in E. injection E as -> <-. destruct (Pair k p1 I) as (p2 & G & C & G'). exists p1, p2. rewrite G. auto. }
  assert (CL : forall p1 p2, compatible p1 p2 -> List.length (stretch (List.length p1) p2) = List.length p1) by (intros; symmetry; apply (Forall2_length _ _ _ H)).
  assert (Ns : normal_dat s).
  { unfold normal_dat. apply Forall_forall. intros [k p] I. simpl. apply (get_pc_In s k p Wa) in I.
    apply In_s in I as (p1 & p2 & I & G & C & _ & ->). pose proof (reachable_normal d1 R) as N. unfold normal_dat in N.
    rewrite Forall_forall in N. specialize (N _ I). simpl in N. destruct N as (Na & Nt & Nl).
    unfold normal_form. rewrite (pointwise_fst _ _ _ (CL _ _ C)). split; auto.
    intros Z. apply (f_equal (map fst)) in Z. rewrite (pointwise_fst _ _ _ (CL _ _ C)) in Z. destruct p1; [contradiction|discriminate]. }
  assert (Ds : all_distinct s).
  { intros k p E. apply In_s in E as (p1 & p2 & I & G & C & _ & ->).
    apply (distinct_by_fst p1); [symmetry; apply pointwise_fst; auto|]. apply (D k). apply (get_pc_In d1 k p1 W); auto. }
  assert (Cs : can_combine s d2).
  { split; [rewrite Ks; auto|]. split; [intros k; rewrite Ks; apply K|]. split.
    - intros q1 q2 r1 r2 E1 E2. unfold get_values, view in *. simpl in *.
      destruct (dc_data d1) as [|[k1 p1] t1] eqn:Ed1; [exfalso; apply NE; unfold get_keys; rewrite Ed1; auto|].
      unfold arith_data in E1. rewrite Ed1 in E1. simpl in E1. injection E1 as <- _.
      assert (Lq : List.length p1 = List.length q2) by (apply (V p1 q2 (dvals t1) r2); auto).
      destruct (Pair k1 p1 (or_introl eq_refl)) as (p2 & G & C & _).
      rewrite G. unfold pointwise. rewrite map_length, combine_length, (CL _ _ C). lia.
    - intros k q1 q2 E1 E2. apply In_s in E1 as (p1 & p2 & I & G & C & G' & ->). rewrite G' in E2. injection E2 as <-.
      unfold compatible in *. assert (Lp : List.length (pointwise op p1 p2) = List.length p1) by (unfold pointwise; rewrite map_length, combine_length, (CL _ _ C); lia).
      rewrite Lp. clear -C. unfold pointwise. revert C. generalize (stretch (List.length p1) p2) as q.
      induction p1 as [|a p1 IH]; intros q C; inversion C; subst; simpl; constructor; auto. }
  exists s. eexists. split; [apply dat_arith_ok; auto; apply reachable_normal; auto|].
  split; [apply dat_arith_ok; auto|]. cbn [dc_data]. unfold arith_data at 1. unfold s. cbn [dc_data]. unfold arith_data. rewrite map_map.
  assert (G : forall l, incl l (dc_data d1) -> Forall2 (fun a b => fst b = fst a /\ exists p2, get_pc d2 (fst a) "radians" = Ok p2 /\ List.length (stretch (List.length (snd a)) p2) = List.length (snd a) /\
      snd b = pointwise op' (pointwise op (snd a) p2) p2) l (map (fun x => let p2 := match dget (fst (fst x, pointwise op (snd x) match dget (fst x) (dc_data d2) with Some p2 => p2 | None => [] end)) (dc_data d2) with Some p2 => p2 | None => [] end in (fst x, pointwise op' (pointwise op (snd x) match dget (fst x) (dc_data d2) with Some p2 => p2 | None => [] end) p2)) l)).
  { induction l as [|[k p1] l IH]; intros I; cbn [map]; constructor.
    - cbn [fst snd]. split; [reflexivity|]. destruct (Pair k p1 (I _ (or_introl eq_refl))) as (p2 & G & C & G'). exists p2. split; [exact G'|]. split; [apply CL; exact C|]. cbv zeta. rewrite G. reflexivity.
    - apply IH. intros x J. apply I. right. exact J. }
  apply G. apply incl_refl.
Qed.
Lemma stretch_In n (p : list (R * R)) q : In q (stretch n p) -> In q p.
Proof.
  unfold stretch. destruct p as [|a [|b p]]; [intros []| |intros I; exact I]. intros I. apply repeat_spec in I. left. congruence.
Qed.
Lemma pointwise_twice op op' (P : R -> R -> Prop) p1 p2 : List.length (stretch (List.length p1) p2) = List.length p1 ->
  (forall q r, In q p1 -> In r p2 -> P (snd q) (op' (op (snd q) (snd r)) (snd r))) ->
  Forall2 (fun q r => fst r = fst q /\ P (snd q) (snd r)) p1 (pointwise op' (pointwise op p1 p2) p2).
Proof.
  intros L H. unfold pointwise at 1.
  assert (E : List.length (pointwise op p1 p2) = List.length p1) by (unfold pointwise; rewrite map_length, combine_length; lia).
  rewrite E. unfold pointwise. clear E.
  assert (H' : forall q r, In q p1 -> In r (stretch (List.length p1) p2) -> P (snd q) (op' (op (snd q) (snd r)) (snd r))) by (intros q r I J; apply H; [exact I|eapply stretch_In; exact J]).
  clear H. revert L H'. generalize (stretch (List.length p1) p2) as s. clear p2.
  induction p1 as [|[x y] p1 IH]; intros [|[x' y'] s] L H; cbn [List.length] in L; try lia; cbn [combine map fst snd]; [constructor|]. constructor.
  - cbn [fst snd]. split; [reflexivity|]. apply (H (x, y) (x', y')); left; reflexivity.
  - apply IH; [lia|]. intros q r I J. apply H; right; assumption.
Qed.
(** with a relation between the values of two containers *)
Lemma back_points op op' (P : R -> R -> Prop) d1 d2 : reachable d1 -> reachable d2 -> all_distinct d1 -> can_combine d1 d2 ->
  (forall a b, value_of (dc_data d1) a -> value_of (dc_data d2) b -> P a (op' (op a b) b)) ->
  exists s d, dat_arith op d1 d2 = Ok s /\ dat_arith op' s d2 = Ok d /\ same_points P (dc_data d1) (dc_data d).
Proof.
  intros R R2 D Cc H. destruct (arith_twice op op' d1 d2 R D Cc) as (s & d & E & E' & F). exists s, d. split; [exact E|]. split; [exact E'|].
  clear E E'. unfold same_points.
  assert (G : forall k p, In (k, p) (dc_data d1) -> forall q b, In q p -> value_of (dc_data d2) b -> P (snd q) (op' (op (snd q) b) b)).
  { intros k p I [x y] b J V. apply H; [exists k, p, x; split; assumption|exact V]. }
  clear H. induction F as [|[k p] b l l' (K & p2 & E2 & L & Eb) _ IH]; constructor.
  - split; [exact K|]. cbn [fst snd] in *. rewrite Eb. apply pointwise_twice; [exact L|]. intros q r I J. apply (G k p (or_introl eq_refl)); [exact I|].
    exists k, p2, (fst r). split; [apply (get_pc_In d2 k p2 (reachable_wf d2 R2)); exact E2|]. destruct r; exact J.
  - apply IH. intros k0 p0 I. apply (G k0 p0). right. exact I.
Qed.
Lemma same_points_eq (v w : list (string * list (R * R))) : same_points (fun a b => b = a) v w -> w = v.
Proof.
  unfold same_points. induction 1 as [|[k p] [k' q] v w [K F] _ IH]; [reflexivity|]. cbn [fst snd] in *. subst. f_equal. f_equal.
  clear -F. induction F as [|[x y] [x' y'] l l' [A B] _ IH]; [reflexivity|]. cbn [fst snd] in *. subst. reflexivity.
Qed.
