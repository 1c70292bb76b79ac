(** Proofs about the DataContainer model, second part: coercion, histories,
    extrema, phase shifts. *)
From Coq Require Import String Ascii List ZArith Reals Lra Lia Bool Sorted Permutation.
From Verif Require Import PyBase RMod DataModel SpecData DataProofs.
Import ListNotations.
Open Scope R_scope.

(* ------------------------------------------------------------------ *)
(** * C13: coercion *)

Lemma mem_set {K} `{Eqb K} (keys l : list K) k : (forall x, In x keys <-> In x l) -> mem eqb k keys = mem eqb k l.
Proof.
  intros E. destruct (mem eqb k l) eqn:M.
  - apply mem_In, E, mem_In; auto.
  - destruct (mem eqb k keys) eqn:M'; auto. apply mem_In, E, mem_In in M'. congruence.
Qed.

Definition leftover_of (keys : list string) : list string :=
  filter (fun k => negb (mem eqb k keys)) oblique_keys.

Lemma leftover_set keys l : (forall x, In x keys <-> In x l) -> leftover_of keys = leftover_of l.
Proof. intros E. unfold leftover_of. apply filter_ext_in'. intros; f_equal; apply mem_set; auto. Qed.

(** What the coerced dictionary is, in the accepted cases. *)
Definition renamed (d : dict string (dtype * pts)) : dict string (dtype * pts) :=
  dict_of (map (fun kv => (key2 (fst kv), snd kv)) d).

Lemma renamed_keys d k : In k (dkeys (renamed d)) <-> In k (map key2 (dkeys d)).
Proof.
  unfold renamed. rewrite In_dkeys_dict_of, map_map. simpl. unfold dkeys. rewrite map_map. tauto.
Qed.

Definition oblique_pattern (ks : list string) : Prop := forall x, In x (map key2 ks) <-> In x oblique_keys.
Definition normal_pattern (ks : list string) : Prop :=
  exists a b, (a = "PP"%string \/ a = "SS"%string) /\ (b = "PS"%string \/ b = "SP"%string) /\
    forall x, In x (map key2 ks) <-> x = a \/ x = b.

Lemma normal_pattern_spec ks :
  existsb (set_eqb (map key2 ks)) normal_pairs = true <-> normal_pattern ks.
Proof.
  rewrite existsb_exists. split.
  - intros [p [I E]]. rewrite set_eqb_spec in E. simpl in I.
    destruct I as [<-|[<-|[<-|[<-|[]]]]];
    [exists "PP"%string, "PS"%string | exists "PP"%string, "SP"%string
    |exists "SS"%string, "PS"%string | exists "SS"%string, "SP"%string];
    (split; [auto|]; split; [auto|]; intros x; rewrite E; simpl; intuition).
  - intros (a & b & A & B & E). exists [a; b]. split.
    + destruct A as [-> | ->], B as [-> | ->]; simpl; auto.
    + rewrite set_eqb_spec. intros x; rewrite E; simpl; intuition.
Qed.

Lemma oblique_pattern_spec ks : set_eqb (map key2 ks) oblique_keys = true <-> oblique_pattern ks.
Proof. apply set_eqb_spec. Qed.

Lemma not_both ks : normal_pattern ks -> ~ oblique_pattern ks.
Proof.
  intros (a & b & A & B & E) O.
  assert (X : forall x, In x oblique_keys -> x = a \/ x = b) by (intros x I; apply E, O; auto).
  pose proof (X "PP"%string). pose proof (X "SS"%string). simpl in *.
  destruct A as [-> | ->], B as [-> | ->]; intuition discriminate.
Qed.

(** Filling the two missing polarizations. *)
Definition filled (d : dict string (dtype * pts)) : dict string (dtype * pts) :=
  d ++ flat_map (fun k => match dget (copy_pc k) d with
                          | Some v => [(k, rot90 v)] | None => [] end) (leftover_of (dkeys d)).

Lemma copy_pc_cases ks : normal_pattern ks ->
  exists c1 c2, leftover_of (map key2 ks) = [c1; c2] /\ c1 <> c2 /\
    In (copy_pc c1) (map key2 ks) /\ In (copy_pc c2) (map key2 ks) /\
    ~ In c1 (map key2 ks) /\ ~ In c2 (map key2 ks) /\ copy_pc c2 <> c1.
Proof.
  intros (a & b & A & B & E).
  assert (L : forall x, In x (map key2 ks) <-> In x [a; b]) by (intros; rewrite E; simpl; intuition).
  rewrite (leftover_set _ [a; b] L).
  destruct A as [-> | ->], B as [-> | ->];
  [exists "SP"%string, "SS"%string | exists "PS"%string, "SS"%string
  |exists "PP"%string, "SP"%string | exists "PP"%string, "PS"%string];
  (split; [reflexivity|]; repeat split; rewrite ?L; simpl; intuition discriminate).
Qed.

Lemma coerce_normal d : normal_pattern (dkeys d) -> coerce d = Ok (filled (renamed d)).
Proof.
  intros N. unfold coerce.
  destruct (set_eqb (map key2 (dkeys d)) oblique_keys) eqn:O.
  { apply oblique_pattern_spec in O. exfalso; eapply not_both; eauto. }
  pose proof N as N'. apply normal_pattern_spec in N'. rewrite N'. fold (renamed d).
  destruct (copy_pc_cases _ N) as (c1 & c2 & L & Ne & I1 & I2 & M1 & M2 & Nc).
  rewrite <- (leftover_set (dkeys (renamed d))) in L by apply renamed_keys.
  unfold filled. unfold leftover_of in *. rewrite L. simpl.
  rewrite <- renamed_keys in I1, I2, M1, M2.
  apply dget_keys in I1, I2. unfold dgetr.
  destruct (dget (copy_pc c1) (renamed d)) as [v1|] eqn:E1; [|contradiction].
  destruct (dget (copy_pc c2) (renamed d)) as [v2|] eqn:E2; [|contradiction].
  simpl. rewrite dget_dset_neq by auto. rewrite E2. simpl. f_equal.
  rewrite (dset_new c1) by auto. rewrite dset_new.
  - rewrite <- app_assoc. reflexivity.
  - unfold dkeys. rewrite map_app, in_app_iff; simpl. intros [I|[I|[]]]; auto.
Qed.

Lemma coerce_oblique d : oblique_pattern (dkeys d) -> coerce d = Ok (renamed d).
Proof. intros O. unfold coerce. apply oblique_pattern_spec in O. rewrite O. reflexivity. Qed.

Lemma coerce_reject d : ~ oblique_pattern (dkeys d) -> ~ normal_pattern (dkeys d) ->
  coerce d = Raise ValueError.
Proof.
  intros O N. unfold coerce.
  destruct (set_eqb _ _) eqn:E; [apply oblique_pattern_spec in E; contradiction|].
  destruct (existsb _ _) eqn:E'; [apply normal_pattern_spec in E'; contradiction|]. auto.
Qed.

Lemma pattern_dec ks : {oblique_pattern ks} + {normal_pattern ks} + {~ oblique_pattern ks /\ ~ normal_pattern ks}.
Proof.
  destruct (set_eqb (map key2 ks) oblique_keys) eqn:O; [left; left; apply oblique_pattern_spec; auto|].
  destruct (existsb (set_eqb (map key2 ks)) normal_pairs) eqn:N;
    [left; right; apply normal_pattern_spec; auto|].
  right; split; intros X; [apply oblique_pattern_spec in X|apply normal_pattern_spec in X]; congruence.
Qed.

Lemma flat_map_keys d ks : (forall k, In k ks -> In (copy_pc k) (dkeys d)) ->
  map fst (flat_map (fun k => match dget (copy_pc k) d with
     | Some v => [(k, rot90 v)] | None => [] end) ks) = ks.
Proof.
  induction ks as [|k ks IH]; simpl; intros H; auto.
  assert (I : In (copy_pc k) (dkeys d)) by auto. apply dget_keys in I.
  destruct (dget (copy_pc k) d); [|contradiction]. simpl. f_equal; auto.
Qed.

Lemma filled_keys d : normal_pattern (dkeys d) ->
  dkeys (filled (renamed d)) = dkeys (renamed d) ++ leftover_of (map key2 (dkeys d)).
Proof.
  intros N. unfold filled, dkeys at 1. rewrite map_app. f_equal.
  rewrite (leftover_set _ (map key2 (dkeys d))) by apply renamed_keys.
  apply flat_map_keys. destruct (copy_pc_cases _ N) as (c1 & c2 & -> & _ & I1 & I2 & _).
  intros k [<-|[<-|[]]]; apply renamed_keys; auto.
Qed.

Lemma In_leftover ks k : In k (leftover_of ks) <-> In k oblique_keys /\ ~ In k ks.
Proof.
  unfold leftover_of. rewrite filter_In. rewrite negb_true_iff. split; intros [A B]; split; auto.
  - intros I. apply mem_In in I. congruence.
  - destruct (mem eqb k ks) eqn:M; auto. apply mem_In in M; contradiction.
Qed.

Lemma coerce_keys d d2 : coerce d = Ok d2 -> forall k, In k (dkeys d2) <-> In k oblique_keys.
Proof.
  intros C k. destruct (pattern_dec (dkeys d)) as [[O|N]|[O N]].
  - rewrite coerce_oblique in C by auto. injection C as <-. rewrite renamed_keys. apply O.
  - rewrite coerce_normal in C by auto. injection C as <-. rewrite filled_keys by auto.
    rewrite in_app_iff, renamed_keys, In_leftover. split.
    + intros [I|[I _]]; auto. destruct N as (a & b & A & B & E). apply E in I.
      simpl. destruct I as [-> | ->]; [destruct A as [-> | ->]|destruct B as [-> | ->]]; auto.
    + intros I. destruct (in_dec string_dec k (map key2 (dkeys d))); auto.
  - rewrite coerce_reject in C by auto. discriminate.
Qed.

Lemma NoDup_app' {A} (l1 l2 : list A) : NoDup l1 -> NoDup l2 -> (forall x, In x l1 -> ~ In x l2) ->
  NoDup (l1 ++ l2).
Proof.
  induction 1 as [|a l1 N ND IH]; simpl; intros N2 D; auto. constructor.
  - rewrite in_app_iff. intros [I|I]; auto. apply (D a); auto.
  - apply IH; auto.
Qed.

Lemma wf_coerce d d2 : coerce d = Ok d2 -> wf_dict d2.
Proof.
  intros C. destruct (pattern_dec (dkeys d)) as [[O|N]|[O N]].
  - rewrite coerce_oblique in C by auto. injection C as <-. apply wf_dict_of.
  - rewrite coerce_normal in C by auto. injection C as <-. unfold wf_dict. rewrite filled_keys by auto.
    apply NoDup_app'.
    + apply wf_dict_of.
    + unfold leftover_of. apply NoDup_filter. repeat constructor; simpl; intuition discriminate.
    + intros x I J. apply In_leftover in J as [_ J]. apply renamed_keys in I. auto.
  - rewrite coerce_reject in C by auto. discriminate.
Qed.

(** Values of the coerced dictionary: the given ones, and rotated partners. *)
Lemma coerce_get_given d d2 k : coerce d = Ok d2 -> In k (map key2 (dkeys d)) ->
  dget k d2 = dget k (renamed d).
Proof.
  intros C I. destruct (pattern_dec (dkeys d)) as [[O|N]|[O N]].
  - rewrite coerce_oblique in C by auto. injection C as <-. auto.
  - rewrite coerce_normal in C by auto. injection C as <-. unfold filled. rewrite dget_app.
    apply renamed_keys, dget_keys in I. destruct (dget k (renamed d)); [auto|contradiction].
  - rewrite coerce_reject in C by auto. discriminate.
Qed.

Lemma dget_flat d ks k v : In k ks -> dget (copy_pc k) d = Some v ->
  dget k (flat_map (fun k => match dget (copy_pc k) d with
     | Some v => [(k, rot90 v)] | None => [] end) ks) = Some (rot90 v).
Proof.
  intros I E. induction ks as [|k' ks IH]; simpl; [destruct I|].
  rewrite dget_app. destruct (string_dec k k') as [<-|N].
  - rewrite E. simpl. rewrite String.eqb_refl. auto.
  - destruct I as [->|I]; [congruence|]. destruct (dget (copy_pc k') d); simpl; auto.
    destruct (String.eqb_spec k k'); [congruence|auto].
Qed.

Lemma coerce_get_missing d d2 k : coerce d = Ok d2 -> In k oblique_keys ->
  ~ In k (map key2 (dkeys d)) ->
  exists v, dget (copy_pc k) d2 = Some v /\ dget k d2 = Some (rot90 v) /\
            dget (copy_pc k) (renamed d) = Some v /\ In (copy_pc k) (map key2 (dkeys d)).
Proof.
  intros C O M. pose proof C as C0. destruct (pattern_dec (dkeys d)) as [[O'|N]|[O' N]].
  - exfalso. apply M, O'; auto.
  - rewrite coerce_normal in C by auto. injection C as <-.
    assert (L : In k (leftover_of (map key2 (dkeys d)))) by (apply In_leftover; auto).
    destruct (copy_pc_cases _ N) as (c1 & c2 & L' & _ & I1 & I2 & _).
    assert (I : In (copy_pc k) (map key2 (dkeys d))).
    { rewrite L' in L. destruct L as [<-|[<-|[]]]; auto. }
    pose proof (coerce_get_given _ _ _ C0 I) as G.
    pose proof I as I'. apply renamed_keys, dget_keys in I'.
    destruct (dget (copy_pc k) (renamed d)) as [v|] eqn:E; [|contradiction].
    exists v. rewrite G. repeat split; auto. unfold filled. rewrite dget_app.
    replace (dget k (renamed d)) with (@None (dtype * pts)).
    + apply dget_flat; auto. rewrite (leftover_set _ (map key2 (dkeys d))) by apply renamed_keys. auto.
    + symmetry. apply dget_None. rewrite renamed_keys. auto.
  - rewrite coerce_reject in C by auto. discriminate.
Qed.

(** ** Duplicate removal commutes with the rotation when it works at all *)
Definition mem_congr (x : R) (l : list R) : bool := existsb (fun z => Reqb (mod2pi x) (mod2pi z)) l.

Fixpoint keep_congr (before : list R) (l : pts) : pts :=
  match l with
  | [] => []
  | p :: l' => (if mem_congr (fst p) before then [] else [p]) ++ keep_congr (before ++ [fst p]) l'
  end.

Lemma mem_congr_true x l : mem_congr x l = true <-> exists z, In z l /\ same_angle z x.
Proof.
  unfold mem_congr. rewrite existsb_exists. split; intros [z [I E]]; exists z; split; auto.
  - apply Reqb_true in E. apply same_angle_iff; auto.
  - apply Reqb_true. apply same_angle_iff in E; auto.
Qed.

Lemma bool_iff (a b : bool) : (a = true <-> b = true) -> a = b.
Proof. destruct a, b; intuition. Qed.

Lemma keep_spec_congr_aux pre l : dups_caught (pre ++ l) ->
  keep_spec (map fst pre) l = keep_congr (map fst pre) l.
Proof.
  revert pre; induction l as [|q l IH]; simpl; intros pre D; auto.
  replace (map fst pre ++ [fst q]) with (map fst (pre ++ [q])) by (rewrite map_app; auto).
  rewrite IH by (rewrite <- app_assoc; exact D).
  replace (mem Reqb (mod2pi (fst q)) (map fst pre)) with (mem_congr (fst q) (map fst pre)); auto.
  apply bool_iff. rewrite mem_congr_true, mem_Reqb. split.
  - intros [z [I S]]. apply in_map_iff in I as [p [<- I]].
    destruct (D pre q l eq_refl) as [p' [I' E]]; [eauto|]. rewrite <- E. apply in_map; auto.
  - intros I. exists (mod2pi (fst q)). split; auto. apply same_angle_sym, same_angle_mod.
Qed.

Lemma keep_spec_congr l : dups_caught l -> keep_spec [] l = keep_congr [] l.
Proof. apply (keep_spec_congr_aux []). Qed.

Definition turn_by (a : R) (p : R * R) : R * R := (mod2pi (fst p + a), snd p).

Lemma same_angle_turn a x y : same_angle (mod2pi (x + a)) (mod2pi (y + a)) <-> same_angle x y.
Proof.
  rewrite !same_angle_iff, !mod2pi_idem. split.
  - intros E. replace x with ((x + a) + - a) by ring. replace y with ((y + a) + - a) by ring.
    rewrite <- (mod2pi_mod_add (x + a)), <- (mod2pi_mod_add (y + a)), E. auto.
  - intros E. rewrite <- (mod2pi_mod_add x), <- (mod2pi_mod_add y), E. auto.
Qed.

Lemma keep_spec_turn_aux a before l :
  keep_spec (map (fun x => mod2pi (x + a)) before) (map (turn_by a) l) =
  map (turn_by a) (keep_congr before l).
Proof.
  revert before; induction l as [|q l IH]; simpl; intros before; auto.
  replace (map (fun x => mod2pi (x + a)) before ++ [mod2pi (fst q + a)])
    with (map (fun x => mod2pi (x + a)) (before ++ [fst q])) by (rewrite map_app; auto).
  rewrite IH, map_app. f_equal.
  replace (mem Reqb (mod2pi (mod2pi (fst q + a))) (map (fun x => mod2pi (x + a)) before))
    with (mem_congr (fst q) before); [destruct (mem_congr (fst q) before); auto|].
  apply bool_iff. rewrite mem_congr_true, mem_Reqb, in_map_iff, mod2pi_idem. split.
  - intros [z [I S]]. exists z; split; auto. apply (same_angle_turn a) in S.
    rewrite same_angle_iff, !mod2pi_idem in S. auto.
  - intros [z [E I]]. exists z; split; auto. apply (same_angle_turn a).
    rewrite E. apply same_angle_refl.
Qed.

Lemma keep_spec_turn a l : keep_spec [] (map (turn_by a) l) = map (turn_by a) (keep_congr [] l).
Proof. apply (keep_spec_turn_aux a []). Qed.

(** The stored data of a rotated partner. *)
Lemma finish_rot90 l : dups_caught l ->
  Permutation (finish (rot90 (DFloat, l))) (map (turn_by (PI / 2)) (finish (DFloat, l))).
Proof.
  intros D. unfold finish, rot90; simpl. rewrite !remove_dups_keep.
  change (map (fun p : R * R => (mod2pi (fst p + PI / 2), snd p)) l) with (map (turn_by (PI / 2)) l).
  rewrite keep_spec_turn, <- keep_spec_congr by auto.
  eapply perm_trans; [apply Permutation_sym, isort_perm|].
  eapply perm_trans; [|apply Permutation_map, isort_perm].
  rewrite !map_map. simpl. erewrite map_ext; [apply Permutation_refl|].
  intros [x y]; unfold turn_by; simpl. f_equal. rewrite mod2pi_idem. symmetry. apply mod2pi_mod_add.
Qed.

(** The raw value of a renamed key: the last given key with that prefix. *)
Lemma renamed_get d k v : dget k (renamed d) = Some v ->
  exists k0 d1 d0, d = d1 ++ (k0, v) :: d0 /\ key2 k0 = k /\
    forall k' v', In (k', v') d0 -> key2 k' <> k.
Proof.
  unfold renamed. rewrite dget_dict_of. intros E. apply dget_split in E as (l1 & l2 & E & N).
  rewrite <- map_rev in E.
  symmetry in E. apply eq_sym, map_eq_app in E as (a & b & E & E1 & E2).
  destruct b as [|[k0 v0] b]; simpl in E2; [discriminate|]. injection E2 as E2 -> E3.
  exists k0, (rev b), (rev a). split; [|split; auto].
  - apply (f_equal (@rev _)) in E. rewrite rev_involutive, rev_app_distr in E. simpl in E.
    rewrite <- app_assoc in E. exact E.
  - intros k' v' I K. apply in_rev in I. apply (N v'). rewrite <- E1.
    apply in_map_iff. exists (k', v'). simpl; split; auto. congruence.
Qed.

(* ------------------------------------------------------------------ *)
(** * C06 *)

Lemma in_before_given it u k v : check_iterable (dict_of it) = Ok tt -> In (k, v) (before_coerce it u) ->
  exists dt p, dt <> DObject /\ given it k dt p /\ v = conv u (dt, p).
Proof.
  intros Ci I. assert (K : In (KStr k) (map fst it)).
  { apply (In_dkeys_dict_of it). pose proof Ci as Ci'. apply check_iterable_Ok in Ci' as [G _].
    rewrite <- (map_key_str _ G). apply in_map. rewrite <- (dkeys_before it u).
    apply in_map_iff. exists (k, v); auto. }
  destruct (dget_given it k Ci K) as (dt & p & D & G). exists dt, p. repeat split; auto.
  pose proof (dget_before it u k dt p Ci G) as E.
  apply In_dget in I; [|apply wf_before; auto]. congruence.
Qed.

Definition well_shaped (it : list (pykey * pyval)) : Prop :=
  forall pk, In pk (map fst it) -> exists k dt p, pk = KStr k /\ dt <> DObject /\ given it k dt p.

Lemma check_well_shaped it : check_iterable (dict_of it) = Ok tt <-> well_shaped it.
Proof.
  split.
  - intros Ci pk I. pose proof Ci as Ci'. apply check_iterable_Ok in Ci' as [K _].
    pose proof I as I'. apply (In_dkeys_dict_of it) in I'. rewrite forallb_forall in K. apply K in I'.
    destruct pk as [k|]; [|discriminate].
    destruct (dget_given it k Ci I) as (dt & p & D & G). eauto 6.
  - intros W. apply check_iterable_Ok. rewrite !forallb_forall. split.
    + intros pk I. apply (In_dkeys_dict_of it), W in I as (k & dt & p & -> & _). reflexivity.
    + intros v I. apply in_map_iff in I as [[pk v'] [<- I]]. simpl.
      assert (J : In pk (map fst it)).
      { apply (In_dkeys_dict_of it). apply in_map_iff. exists (pk, v'); auto. }
      apply W in J as (k & dt & p & -> & D & G).
      apply given_dget in G as (xs & ys & rest & E & L & _).
      apply In_dget in I; [|apply wf_dict_of]. rewrite E in I. injection I as <-.
      unfold good_val. rewrite L, Nat.eqb_refl, Nat.eqb_refl. destruct dt; auto.
Qed.

Lemma conv_nil u v : snd (conv u v) = [] <-> snd v = [].
Proof.
  unfold conv. destruct (String.eqb u "degrees"); simpl; [|tauto].
  destruct (snd v); simpl; split; auto; discriminate.
Qed.

Lemma before_nonempty it u : well_shaped it ->
  Forall (fun kv => snd (snd kv) <> []) (before_coerce it u) <-> well_formed it.
Proof.
  intros W. pose proof (proj2 (check_well_shaped it) W) as Ci. split.
  - intros F pk I. destruct (W pk I) as (k & dt & p & -> & D & G). exists k, dt, p. repeat split; auto.
    pose proof (dget_before it u k dt p Ci G) as E. apply dget_In in E.
    rewrite Forall_forall in F. apply F in E. simpl in E. intros ->. apply E, conv_nil. auto.
  - intros WF. apply Forall_forall. intros [k v] I. simpl.
    destruct (in_before_given it u k v Ci I) as (dt & p & D & G & ->).
    assert (J : In (KStr k) (map fst it)).
    { destruct G as (it1 & xs & ys & rest & it2 & -> & _). rewrite map_app, in_app_iff. right; left; auto. }
    destruct (WF _ J) as (k' & dt' & p' & E & D' & G' & N). injection E as <-.
    pose proof (dget_before it u k dt p Ci G) as E1.
    pose proof (dget_before it u k dt' p' Ci G') as E2.
    rewrite E1 in E2. injection E2 as E2. rewrite E2. rewrite conv_nil. auto.
Qed.

Lemma construct_outcome it u :
  ((u = "radians"%string \/ u = "degrees"%string) /\ well_formed it /\ exists d, construct it u false = Ok d) \/
  (~ ((u = "radians"%string \/ u = "degrees"%string) /\ well_formed it) /\ construct it u false = Raise ValueError).
Proof.
  destruct (check_units_cases u) as [U|U].
  2:{ right. split; [|unfold construct; rewrite U; reflexivity].
      intros [H _]. apply check_units_Ok in H. congruence. }
  destruct (check_iterable_cases (dict_of it)) as [Ci|Ci].
  2:{ right. split; [|unfold construct; rewrite U, Ci; reflexivity].
      intros [_ H]. assert (W : well_shaped it).
      { intros pk I. apply H in I as (k & dt & p & A & B & G & _). eauto 6. }
      apply check_well_shaped in W. congruence. }
  pose proof (proj1 (check_well_shaped it) Ci) as W.
  destruct (Forall_dec (fun kv : string * (dtype * pts) => snd (snd kv) <> [])) with (l := before_coerce it u) as [F|F].
  { intros [k [dt l]]; simpl. destruct l; [right; intros N; apply N; auto|left; discriminate]. }
  - left. split; [apply check_units_Ok; auto|]. split; [apply (before_nonempty it u W); auto|].
    eexists. apply construct_Ok_conv with (d2 := before_coerce it u); auto.
  - right. split.
    + intros [_ H]. apply F. apply before_nonempty; auto.
    + unfold construct. rewrite U, Ci; simpl. fold (before_coerce it u).
      rewrite modulate_all_Raise by auto. reflexivity.
Qed.

(** With coercion the only possible exception is ValueError as well. *)
Lemma construct_outcome_all it u n2o :
  (exists d, construct it u n2o = Ok d) \/ construct it u n2o = Raise ValueError.
Proof.
  unfold construct.
  destruct (check_units_cases u) as [-> | ->]; simpl; auto.
  destruct (check_iterable_cases (dict_of it)) as [-> | ->]; simpl; auto.
  fold (before_coerce it u).
  assert (X : (exists d2, (if n2o then coerce (before_coerce it u) else Ok (before_coerce it u)) = Ok d2) \/
              (if n2o then coerce (before_coerce it u) else Ok (before_coerce it u)) = Raise ValueError).
  { destruct n2o; [|eauto].
    destruct (pattern_dec (dkeys (before_coerce it u))) as [[O|N]|[O N]].
    - left. eexists. apply coerce_oblique; auto.
    - left. eexists. apply coerce_normal; auto.
    - right. apply coerce_reject; auto. }
  destruct X as [[d2 ->]| ->]; simpl; auto.
  destruct (Forall_dec (fun kv : string * (dtype * pts) => snd (snd kv) <> [])) with (l := d2) as [F|F].
  { intros [k [dt l]]; simpl. destruct l; [right; intros N; apply N; auto|left; discriminate]. }
  - destruct (modulate_all_total d2 F) as [d4 [-> _]]; simpl; eauto.
  - rewrite modulate_all_Raise by auto. auto.
Qed.

(** Under [well_formed], coercion succeeds exactly on the accepted key patterns. *)
Lemma in_map_key2 it u x : In x (map key2 (dkeys (before_coerce it u))) <-> In x (map key2 (input_keys it)).
Proof.
  rewrite dkeys_before. unfold input_keys. rewrite !in_map_iff.
  split; intros [k [<- I]]; apply in_map_iff in I as [pk [<- I]]; apply (In_dkeys_dict_of it) in I;
    exists (key_str pk); (split; auto); apply in_map; auto.
Qed.

Lemma oblique_input it u : oblique_pattern (dkeys (before_coerce it u)) <-> oblique_pattern (input_keys it).
Proof.
  unfold oblique_pattern. split; intros H x; rewrite <- H; [symmetry|]; apply in_map_key2.
Qed.
Lemma normal_input it u : normal_pattern (dkeys (before_coerce it u)) <-> normal_pattern (input_keys it).
Proof.
  unfold normal_pattern. split; intros (a & b & A & B & H); exists a, b; split; auto; split; auto;
    intros x; rewrite <- H; [symmetry|]; apply in_map_key2.
Qed.

Lemma In_filled d kv : In kv (filled d) -> In kv d \/ exists v, In v (map snd d) /\ snd kv = rot90 v.
Proof.
  unfold filled. rewrite in_app_iff. intros [I|I]; auto. right.
  apply in_flat_map in I as [k [_ I]]. destruct (dget (copy_pc k) d) as [v|] eqn:E; [|destruct I].
  destruct I as [<-|[]]. exists v. split; auto. apply dget_In in E. apply in_map_iff. exists (copy_pc k, v); auto.
Qed.

Lemma In_renamed d kv : In kv (renamed d) -> In (snd kv) (map snd d).
Proof.
  destruct kv as [k v]. intros I. apply In_dget in I; [|apply wf_dict_of].
  apply renamed_get in I as (k0 & d1 & d0 & -> & _). rewrite map_app, in_app_iff. right; left; auto.
Qed.

Lemma coerce_nonempty d d2 : coerce d = Ok d2 ->
  Forall (fun kv => snd (snd kv) <> []) d -> Forall (fun kv => snd (snd kv) <> []) d2.
Proof.
  intros C F.
  assert (A : forall v, In v (map snd d) -> snd v <> []).
  { intros v I. apply in_map_iff in I as [kv [<- I]]. rewrite Forall_forall in F. apply (F _ I). }
  assert (R : Forall (fun kv => snd (snd kv) <> []) (renamed d)).
  { apply Forall_forall. intros kv I. apply A, In_renamed; auto. }
  destruct (pattern_dec (dkeys d)) as [[O|N]|[O N]].
  - rewrite coerce_oblique in C by auto. injection C as <-. auto.
  - rewrite coerce_normal in C by auto. injection C as <-. apply Forall_forall. intros kv I.
    apply In_filled in I as [I|[v [I E]]].
    + rewrite Forall_forall in R. auto.
    + rewrite E. unfold rot90; simpl.
      assert (N' : snd v <> []).
      { apply in_map_iff in I as [kv' [<- I]]. rewrite Forall_forall in R. apply (R _ I). }
      destruct (snd v); [contradiction|discriminate].
  - rewrite coerce_reject in C by auto. discriminate.
Qed.

Lemma construct_coerce_iff it u : well_formed it -> (u = "radians"%string \/ u = "degrees"%string) ->
  (exists d, construct it u true = Ok d) <->
  (oblique_pattern (input_keys it) \/ normal_pattern (input_keys it)).
Proof.
  intros W U. assert (WS : well_shaped it).
  { intros pk I. apply W in I as (k & dt & p & A & B & G & _). eauto 6. }
  pose proof (proj2 (check_well_shaped it) WS) as Ci.
  pose proof (proj2 (before_nonempty it u WS) W) as F.
  rewrite <- (oblique_input it u), <- (normal_input it u). split.
  - intros [d C]. apply construct_Ok in C as (_ & _ & d2 & E & _).
    destruct (pattern_dec (dkeys (before_coerce it u))) as [[O|N]|[O N]]; auto.
    rewrite coerce_reject in E by auto. discriminate.
  - intros P. assert (X : exists d2, coerce (before_coerce it u) = Ok d2).
    { destruct P; eexists; [apply coerce_oblique|apply coerce_normal]; auto. }
    destruct X as [d2 X]. eexists. apply construct_Ok_conv with (d2 := d2); auto.
    + apply check_units_Ok; auto.
    + eapply coerce_nonempty; eauto.
Qed.

(* ------------------------------------------------------------------ *)
(** * C07, C08 *)

Fixpoint rprod (l : list R) : R := match l with [] => 1 | x :: l' => x * rprod l' end.

Lemma map_y_comp f g v : map_y f (map_y g v) = map_y (fun y => f (g y)) v.
Proof. unfold map_y. rewrite map_map. reflexivity. Qed.

Lemma map_y_ext f g v : (forall y, f y = g y) -> map_y f v = map_y g v.
Proof. intros E. unfold map_y. apply map_ext. intros; rewrite E; auto. Qed.

Lemma map_y_id f v : (forall y, f y = y) -> map_y f v = v.
Proof.
  intros E. unfold map_y. rewrite <- (map_id v) at 2. apply map_ext. intros [x y]; simpl; rewrite E; auto.
Qed.

Definition accepted (fs : list R) : list R := filter (fun f => negb (Rltb f 0)) fs.

Lemma run_scales d fs : let d' := run d (map OScale fs) in
  dc_data d' = dmap (map_y (fun y => rprod (accepted fs) * y)) (dc_data d) /\
  dc_scale d' = dc_scale d * rprod (accepted fs) /\
  dc_phase d' = dc_phase d /\ dc_offset d' = dc_offset d.
Proof.
  revert d; induction fs as [|f fs IH]; intros d; simpl.
  - repeat split; try ring. symmetry. apply dmap_id. intros; apply map_y_id. intros; ring.
  - unfold scale_data. destruct (Rltb f 0) eqn:E; simpl.
    + apply IH.
    + destruct (IH (mkdat (dmap (map_y (fun y : R => f * y)) (dc_data d)) (dc_scale d * f)
          (dc_phase d) (dc_offset d) (dc_units d) (dc_coerced d))) as (A & B & C & D).
      simpl in *. rewrite A, B, C, D. repeat split; try ring.
      rewrite dmap_dmap. apply dmap_ext. intros. rewrite map_y_comp. apply map_y_ext. intros; ring.
Qed.

(* ------------------------------------------------------------------ *)
(** * C09 *)

Lemma fold_max_spec l x : let m := fold_left (fun m y => if Rltb m y then y else m) l x in
  In m (x :: l) /\ forall y, In y (x :: l) -> y <= m.
Proof.
  revert x; induction l as [|a l IH]; intros x; simpl.
  - split; auto. intros y [<-|[]]; lra.
  - destruct (Rltb x a) eqn:E; [apply Rltb_true in E|apply Rltb_false in E].
    + destruct (IH a) as [I B]. simpl in I, B. split.
      * destruct I; auto.
      * intros y [<-|[<-|J]]; auto. pose proof (B a (or_introl eq_refl)). lra.
    + destruct (IH x) as [I B]. simpl in I, B. split.
      * destruct I; auto.
      * intros y [<-|[<-|J]]; auto. pose proof (B x (or_introl eq_refl)). lra.
Qed.

Lemma fold_min_spec l x : let m := fold_left (fun m y => if Rltb y m then y else m) l x in
  In m (x :: l) /\ forall y, In y (x :: l) -> m <= y.
Proof.
  revert x; induction l as [|a l IH]; intros x; simpl.
  - split; auto. intros y [<-|[]]; lra.
  - destruct (Rltb a x) eqn:E; [apply Rltb_true in E|apply Rltb_false in E].
    + destruct (IH a) as [I B]. simpl in I, B. split.
      * destruct I; auto.
      * intros y [<-|[<-|J]]; auto. pose proof (B a (or_introl eq_refl)). lra.
    + destruct (IH x) as [I B]. simpl in I, B. split.
      * destruct I; auto.
      * intros y [<-|[<-|J]]; auto. pose proof (B x (or_introl eq_refl)). lra.
Qed.

Lemma In_snd p y : In y (map snd p) <-> value_in p y.
Proof.
  unfold value_in. rewrite in_map_iff. split.
  - intros [[x z] [<- I]]. exists x; auto.
  - intros [x I]. exists (x, y); auto.
Qed.

Lemma py_max_spec p : p <> [] -> exists m, py_max (map snd p) = Ok m /\ is_max (value_in p) m.
Proof.
  destruct p as [|[x y] p]; [congruence|]. intros _. simpl. eexists; split; auto.
  destruct (fold_max_spec (map snd p) y) as [I B]. split.
  - apply In_snd. simpl. exact I.
  - intros z Z. apply In_snd in Z. apply B. exact Z.
Qed.

Lemma py_min_spec p : p <> [] -> exists m, py_min (map snd p) = Ok m /\ is_min (value_in p) m.
Proof.
  destruct p as [|[x y] p]; [congruence|]. intros _. simpl. eexists; split; auto.
  destruct (fold_min_spec (map snd p) y) as [I B]. split.
  - apply In_snd. simpl. exact I.
  - intros z Z. apply In_snd in Z. apply B. exact Z.
Qed.

(** all polarizations carry points *)
Definition nonempty_pcs (d : dict string pts) : Prop := Forall (fun kv => snd kv <> []) d.

Lemma maxval_loop_spec d2 : nonempty_pcs d2 -> forall d1 k m,
  first_max d1 k m ->
  exists k' m', maxval_loop d2 (Some (k, m)) = Ok (Some (k', m')) /\ first_max (d1 ++ d2) k' m'.
Proof.
  induction 1 as [|[k0 p0] d2 N F IH]; intros d1 k m FM; simpl.
  - exists k, m. rewrite app_nil_r. auto.
  - simpl in N. destruct (py_max_spec p0 N) as [m0 [-> [A B]]]. simpl.
    replace (d1 ++ (k0, p0) :: d2) with ((d1 ++ [(k0, p0)]) ++ d2) by now rewrite <- app_assoc.
    destruct FM as [U (e1 & p & e2 & E & V & Fi)].
    destruct (Rltb m m0) eqn:L; [apply Rltb_true in L|apply Rltb_false in L]; apply IH.
    + split.
      * intros k' p' y I Y. apply in_app_iff in I as [I|[I|[]]].
        { pose proof (U k' p' y I Y). lra. }
        { injection I as <- <-. auto. }
      * exists d1, p0, []. split; auto. split; auto.
        intros k' p' I Y. pose proof (U k' p' m0 I Y). lra.
    + split.
      * intros k' p' y I Y. apply in_app_iff in I as [I|[I|[]]].
        { eapply U; eauto. }
        { injection I as <- <-. pose proof (B y Y). lra. }
      * exists e1, p, (e2 ++ [(k0, p0)]). subst. split; [now rewrite <- app_assoc|]. auto.
Qed.

Lemma get_maxval_spec d : dc_data d <> [] -> nonempty_pcs (dc_data d) ->
  exists k m, get_maxval d = Ok (Some (k, m)) /\ first_max (dc_data d) k m.
Proof.
  unfold get_maxval. destruct (dc_data d) as [|[k p] l]; [congruence|]. intros _ F.
  inversion F as [|? ? N F']; subst. simpl in *.
  destruct (py_max_spec p N) as [m [-> [A B]]]. simpl.
  apply (maxval_loop_spec l F' [(k, p)]). split.
  - intros k' p' y [E|[]] Y. injection E as <- <-. auto.
  - exists [], p, []. repeat split; auto.
Qed.

Lemma minval_loop_spec d2 : nonempty_pcs d2 -> forall d1 k m,
  first_min d1 k m ->
  exists k' m', minval_loop d2 (Some (k, m)) = Ok (Some (k', m')) /\ first_min (d1 ++ d2) k' m'.
Proof.
  induction 1 as [|[k0 p0] d2 N F IH]; intros d1 k m FM; simpl.
  - exists k, m. rewrite app_nil_r. auto.
  - simpl in N. destruct (py_min_spec p0 N) as [m0 [-> [A B]]]. simpl.
    replace (d1 ++ (k0, p0) :: d2) with ((d1 ++ [(k0, p0)]) ++ d2) by now rewrite <- app_assoc.
    destruct FM as [U (e1 & p & e2 & E & V & Fi)].
    destruct (Rltb m0 m) eqn:L; [apply Rltb_true in L|apply Rltb_false in L]; apply IH.
    + split.
      * intros k' p' y I Y. apply in_app_iff in I as [I|[I|[]]].
        { pose proof (U k' p' y I Y). lra. }
        { injection I as <- <-. auto. }
      * exists d1, p0, []. split; auto. split; auto.
        intros k' p' I Y. pose proof (U k' p' m0 I Y). lra.
    + split.
      * intros k' p' y I Y. apply in_app_iff in I as [I|[I|[]]].
        { eapply U; eauto. }
        { injection I as <- <-. pose proof (B y Y). lra. }
      * exists e1, p, (e2 ++ [(k0, p0)]). subst. split; [now rewrite <- app_assoc|]. auto.
Qed.

Lemma get_minval_spec d : dc_data d <> [] -> nonempty_pcs (dc_data d) ->
  exists k m, get_minval d = Ok (Some (k, m)) /\ first_min (dc_data d) k m.
Proof.
  unfold get_minval. destruct (dc_data d) as [|[k p] l]; [congruence|]. intros _ F.
  inversion F as [|? ? N F']; subst. simpl in *.
  destruct (py_min_spec p N) as [m [-> [A B]]]. simpl.
  apply (minval_loop_spec l F' [(k, p)]). split.
  - intros k' p' y [E|[]] Y. injection E as <- <-. auto.
  - exists [], p, []. repeat split; auto.
Qed.

Lemma value_in_map_y f p y : value_in (map_y f p) y <-> exists y0, value_in p y0 /\ y = f y0.
Proof.
  unfold value_in, map_y. split.
  - intros [x I]. apply in_map_iff in I as [[x0 y0] [E I]]. simpl in E. injection E as -> <-. eauto.
  - intros (y0 & [x I] & ->). exists x. apply in_map_iff. exists (x, y0); auto.
Qed.

Lemma In_dmap {V W} (f : V -> W) (d : dict string V) k w :
  In (k, w) (dmap f d) <-> exists v, In (k, v) d /\ w = f v.
Proof.
  unfold dmap. rewrite in_map_iff. split.
  - intros [[k' v] [E I]]. simpl in E. injection E as -> <-. eauto.
  - intros (v & I & ->). exists (k, v); auto.
Qed.

Lemma value_of_dmap f d y : value_of (dmap (map_y f) d) y <-> exists y0, value_of d y0 /\ y = f y0.
Proof.
  unfold value_of. split.
  - intros (k & p & x & I & J). apply In_dmap in I as (p0 & I & ->).
    apply in_map_iff in J as [[x0 y0] [E J]]. simpl in E. injection E as -> <-. exists y0. split; eauto 6.
  - intros (y0 & (k & p & x & I & J) & ->). exists k, (map_y f p), x. split.
    + apply In_dmap; eauto.
    + apply in_map_iff. exists (x, y0); auto.
Qed.

Lemma first_max_is_max d k m : first_max d k m -> is_max (value_of d) m.
Proof.
  intros [U (d1 & p & d2 & -> & V & _)]. split.
  - destruct V as [x V]. exists k, p, x. split; auto. apply in_app_iff; right; left; auto.
  - intros y (k' & p' & x & I & J). apply (U k' p' y I). exists x; auto.
Qed.
Lemma first_min_is_min d k m : first_min d k m -> is_min (value_of d) m.
Proof.
  intros [U (d1 & p & d2 & -> & V & _)]. split.
  - destruct V as [x V]. exists k, p, x. split; auto. apply in_app_iff; right; left; auto.
  - intros y (k' & p' & x & I & J). apply (U k' p' y I). exists x; auto.
Qed.

Lemma is_max_unique P m m' : is_max P m -> is_max P m' -> m = m'.
Proof. intros [A B] [C D]. specialize (B _ C). specialize (D _ A). lra. Qed.
Lemma is_min_unique P m m' : is_min P m -> is_min P m' -> m = m'.
Proof. intros [A B] [C D]. specialize (B _ C). specialize (D _ A). lra. Qed.

Lemma nonempty_map_y f d : nonempty_pcs d -> nonempty_pcs (dmap (map_y f) d).
Proof.
  unfold nonempty_pcs. intros F. apply Forall_forall. intros [k p] I. apply In_dmap in I as (v & I & ->).
  rewrite Forall_forall in F. specialize (F _ I). simpl in *. destruct v; [contradiction|discriminate].
Qed.

Lemma dmap_nil {V W} (f : V -> W) (d : dict string V) : dmap f d <> [] <-> d <> [].
Proof. destruct d; simpl; split; intros; congruence || discriminate. Qed.

Lemma normalize_spec d m x : nonempty_pcs (dc_data d) -> is_max (value_of (dc_data d)) m ->
  (0 < m -> 0 <= x -> exists d', normalize_data d x = (d', Ok tt) /\ is_max (value_of (dc_data d')) x /\
      dc_scale d' = dc_scale d * (x / m)) /\
  (m < 0 -> 0 < x -> normalize_data d x = (d, Raise ValueError)).
Proof.
  intros F M. assert (N : dc_data d <> []).
  { destruct M as [(k & p & z & I & _) _]. intros E; rewrite E in I; destruct I. }
  destruct (get_maxval_spec d N F) as (k & m' & E & FM). apply first_max_is_max in FM.
  assert (m' = m) as -> by (eapply is_max_unique; eauto). clear FM.
  unfold normalize_data. rewrite E. split.
  - intros P X. destruct (Reqb m 0) eqn:Z; [apply Reqb_true in Z; lra|].
    assert (Q : 0 <= x / m) by (apply Rmult_le_pos; [auto|left; apply Rinv_0_lt_compat; auto]).
    unfold scale_data. replace (Rltb (x / m) 0) with false by (symmetry; apply Rltb_false; auto).
    eexists; split; [reflexivity|]. simpl. split; auto. destruct M as [A B]. split.
    + apply value_of_dmap. exists m; split; auto. field; lra.
    + intros y Y. apply value_of_dmap in Y as (y0 & Y & ->). specialize (B _ Y).
      replace x with (x / m * m) at 2 by (field; lra). apply Rmult_le_compat_l; auto.
  - intros P X. destruct (Reqb m 0) eqn:Z; [apply Reqb_true in Z; lra|].
    assert (Q : x / m < 0).
    { unfold Rdiv. assert (/ m < 0) by (apply Rinv_lt_0_compat; auto).
      rewrite Rmult_comm. rewrite <- (Rmult_0_l x). apply Rmult_lt_compat_r; auto. }
    unfold scale_data. replace (Rltb (x / m) 0) with true by (symmetry; apply Rltb_true; auto). auto.
Qed.

(* ------------------------------------------------------------------ *)
(** * C10 *)

Lemma subtract_min_spec d m : nonempty_pcs (dc_data d) -> is_min (value_of (dc_data d)) m ->
  subtract_min d = (mkdat (dmap (map_y (fun y => y - m)) (dc_data d)) (dc_scale d) (dc_phase d)
         (dc_offset d - m) (dc_units d) (dc_coerced d), Ok tt).
Proof.
  intros F M. assert (N : dc_data d <> []).
  { destruct M as [(k & p & z & I & _) _]. intros E; rewrite E in I; destruct I. }
  destruct (get_minval_spec d N F) as (k & m' & E & FM). apply first_min_is_min in FM.
  assert (m' = m) as -> by (eapply is_min_unique; eauto).
  unfold subtract_min. rewrite E. reflexivity.
Qed.

Lemma is_min_shift d m : is_min (value_of d) m -> is_min (value_of (dmap (map_y (fun y => y - m)) d)) 0.
Proof.
  intros [A B]. split.
  - apply value_of_dmap. exists m; split; auto; ring.
  - intros y Y. apply value_of_dmap in Y as (y0 & Y & ->). specialize (B _ Y). lra.
Qed.

(* ------------------------------------------------------------------ *)
(** * C12: stable sorting *)

Lemma filter_insert (f : R -> bool) p l :
  (forall q, In q l -> f (fst p) = true -> f (fst q) = true -> fst q = fst p) ->
  filter (fun q => f (fst q)) (insert p l) = filter (fun q => f (fst q)) (p :: l).
Proof.
  induction l as [|q l IH]; intros U; auto. simpl insert.
  destruct (Rle_dec (fst p) (fst q)) as [L|L]; auto.
  simpl in *. rewrite IH by auto. destruct (f (fst p)) eqn:P, (f (fst q)) eqn:Q; auto.
  exfalso. apply L. rewrite (U q); auto. lra.
Qed.

Lemma filter_isort (f : R -> bool) l :
  (forall p q, In p l -> In q l -> f (fst p) = true -> f (fst q) = true -> fst q = fst p) ->
  filter (fun q => f (fst q)) (isort l) = filter (fun q => f (fst q)) l.
Proof.
  induction l as [|p l IH]; intros U; auto. simpl isort. rewrite filter_insert.
  - simpl. rewrite IH; auto. intros p' q' A B C D. apply (U p' q'); simpl; auto.
  - intros q I A B. apply (proj1 (isort_In _ _)) in I. apply (U p q); simpl; auto.
Qed.

Lemma stable_unique l1 l2 :
  StronglySorted le_x l1 -> StronglySorted le_x l2 ->
  (forall a, filter (fun q => Reqb (fst q) a) l1 = filter (fun q => Reqb (fst q) a) l2) -> l1 = l2.
Proof.
  revert l2; induction l1 as [|p l1 IH]; intros l2 S1 S2 E.
  - destruct l2 as [|q l2]; auto. specialize (E (fst q)). simpl in E.
    rewrite (proj2 (Reqb_true _ _) eq_refl) in E. discriminate.
  - destruct l2 as [|q l2].
    { specialize (E (fst p)). simpl in E. rewrite (proj2 (Reqb_true _ _) eq_refl) in E. discriminate. }
    inversion S1 as [|? ? S1' F1]; inversion S2 as [|? ? S2' F2]; subst.
    assert (X : fst p = fst q).
    { rewrite Forall_forall in F1, F2.
      assert (I1 : In p (filter (fun r => Reqb (fst r) (fst p)) (q :: l2))).
      { rewrite <- E. simpl. rewrite (proj2 (Reqb_true _ _) eq_refl). left; auto. }
      assert (I2 : In q (filter (fun r => Reqb (fst r) (fst q)) (p :: l1))).
      { rewrite E. simpl. rewrite (proj2 (Reqb_true _ _) eq_refl). left; auto. }
      apply filter_In in I1 as [I1 _], I2 as [I2 _]. unfold le_x in *.
      destruct I1 as [->|I1]; auto. destruct I2 as [->|I2]; auto.
      specialize (F1 _ I2). specialize (F2 _ I1). lra. }
    assert (p = q) as <-.
    { specialize (E (fst p)). simpl in E. rewrite (proj2 (Reqb_true _ _) eq_refl) in E.
      rewrite <- X in E. rewrite (proj2 (Reqb_true _ _) eq_refl) in E. congruence. }
    f_equal. apply IH; auto. intros a. specialize (E a). simpl in E.
    destruct (Reqb (fst p) a); congruence.
Qed.

Lemma filter_map' {A B} (f : A -> B) (g : B -> bool) l :
  filter g (map f l) = map f (filter (fun a => g (f a)) l).
Proof. induction l as [|a l IH]; simpl; auto. destruct (g (f a)); simpl; congruence. Qed.

Definition shift_pts (a : R) (v : pts) : pts := isort (map (turn_by a) v).

Lemma shift_pts_twice a b v : shift_pts b (shift_pts a v) = shift_pts (a + b) v.
Proof.
  unfold shift_pts. apply stable_unique; try apply isort_sorted. intros z.
  assert (H : forall f l, (forall x y, f x = true -> f y = true -> x = y) ->
     filter (fun q : R * R => f (fst q)) (isort l) = filter (fun q => f (fst q)) l).
  { intros f l U. apply filter_isort. intros; apply U; auto. }
  pose proof (H (fun x => Reqb x z)) as Hz. cbv beta in Hz.
  assert (U : forall x y, Reqb x z = true -> Reqb y z = true -> x = y).
  { intros x y X Y. apply Reqb_true in X, Y. congruence. }
  rewrite !Hz by auto. rewrite !filter_map'.
  set (f := fun x => Reqb (mod2pi (x + b)) z).
  assert (E1 : filter (fun q : R * R => Reqb (fst (turn_by b q)) z) (isort (map (turn_by a) v)) =
               filter (fun q : R * R => f (fst q)) (isort (map (turn_by a) v))) by reflexivity.
  rewrite E1. rewrite filter_isort.
  2:{ intros p q P Q. apply in_map_iff in P as [p0 [<- _]], Q as [q0 [<- _]]. unfold f; simpl.
      intros X Y. apply Reqb_true in X, Y.
      apply in_turn_same; try apply in_turn_mod.
      apply (same_angle_turn b). rewrite X, Y. apply same_angle_refl. }
  rewrite filter_map', map_map. unfold f. simpl.
  assert (M : forall q : R * R, turn_by b (turn_by a q) = turn_by (a + b) q).
  { intros [x y]. unfold turn_by; simpl. rewrite mod2pi_mod_add. do 2 f_equal. ring. }
  rewrite (filter_ext (fun q : R * R => Reqb (mod2pi (mod2pi (fst q + a) + b)) z)
             (fun q : R * R => Reqb (mod2pi (fst q + (a + b))) z)).
  - apply map_ext. auto.
  - intros q. rewrite mod2pi_mod_add. do 2 f_equal. ring.
Qed.

Lemma shift_pts_id k v : normal_form v -> shift_pts (IZR k * (2 * PI)) v = v.
Proof.
  intros (_ & T & S). unfold shift_pts.
  assert (E : map (turn_by (IZR k * (2 * PI))) v = v).
  { rewrite <- (map_id v) at 2. apply map_ext_in. intros [x y] I. unfold turn_by; simpl.
    fold twopi; rewrite (mod2pi_period x k). rewrite mod2pi_small; auto.
    rewrite Forall_forall in T. apply T. apply in_map_iff. exists (x, y); auto. }
  rewrite E. apply isort_sorted_id. clear - S. induction v as [|p v IH]; [constructor|].
  simpl in S. inversion S as [|? ? S' F]; subst. constructor; auto. rewrite Forall_map in F. exact F.
Qed.

Lemma shift_pts_normal a v : v <> [] -> normal_form (shift_pts a v).
Proof.
  intros N. unfold shift_pts. split; [|split].
  - intros E. apply (f_equal (@length _)) in E. rewrite isort_length, map_length in E.
    apply length_zero_iff_nil in E. contradiction.
  - apply Forall_perm with (map fst (map (turn_by a) v)); [apply Permutation_map, isort_perm|].
    rewrite map_map, Forall_map. apply Forall_forall. intros; apply in_turn_mod.
  - apply StronglySorted_map with (P := le_x); [|apply isort_sorted]. unfold le_x; auto.
Qed.

Lemma phase_shift_radians d a : phase_shift_data d a "radians" =
  (mkdat (dmap (shift_pts a) (dc_data d)) (dc_scale d) (dc_phase d + a) (dc_offset d)
     (dc_units d) (dc_coerced d), Ok tt).
Proof.
  unfold phase_shift_data, check_angle_units; simpl. unfold sort_dict. rewrite dmap_dmap. reflexivity.
Qed.

Lemma phase_shift_degrees d a : phase_shift_data d a "degrees" = phase_shift_data d (a * (PI / 180)) "radians".
Proof. reflexivity. Qed.

(* ------------------------------------------------------------------ *)
(** * Invariant over histories *)

Definition normal_dat (d : dat) : Prop := Forall (fun kv => normal_form (snd kv)) (dc_data d).

Lemma normal_map_y f p : normal_form p -> normal_form (map_y f p).
Proof.
  intros (N & T & S). assert (E : map fst (map_y f p) = map fst p) by (unfold map_y; rewrite map_map; auto).
  unfold normal_form. rewrite E. repeat split; auto. destruct p; [contradiction|discriminate].
Qed.

Lemma normal_combine p ys : length ys = length p -> normal_form p -> normal_form (combine (map fst p) ys).
Proof.
  intros L (N & T & S). assert (E : map fst (combine (map fst p) ys) = map fst p).
  { clear - L. revert ys L; induction p as [|q p IH]; intros [|y ys] L; simpl in *; try discriminate; auto.
    f_equal; auto. }
  unfold normal_form. rewrite E. repeat split; auto.
  destruct p; [contradiction|]. destruct ys; discriminate.
Qed.

Lemma normal_dmap f d : (forall p, normal_form p -> normal_form (f p)) ->
  Forall (fun kv : string * pts => normal_form (snd kv)) d ->
  Forall (fun kv : string * pts => normal_form (snd kv)) (dmap f d).
Proof.
  intros H F. apply Forall_forall. intros [k p] I. apply In_dmap in I as (v & I & ->).
  apply H. rewrite Forall_forall in F. apply (F _ I).
Qed.

Lemma scale_normal d f : normal_dat d -> normal_dat (fst (scale_data d f)).
Proof.
  intros N. unfold scale_data. destruct (Rltb f 0); simpl; auto.
  unfold normal_dat; simpl. apply normal_dmap; auto. intros; apply normal_map_y; auto.
Qed.

Lemma step_normal d o : normal_dat d -> normal_dat (fst (step d o)).
Proof.
  intros N. destruct o as [f|x| |a u|f]; simpl.
  - apply scale_normal; auto.
  - unfold normalize_data. destruct (get_maxval d) as [[[k m]|]|]; simpl; auto using scale_normal.
    destruct (Reqb m 0); [destruct (Rltb x 0)|]; simpl; auto. apply scale_normal; auto.
  - unfold subtract_min. destruct (get_minval d) as [[[k m]|]|]; simpl; auto.
    unfold normal_dat; simpl. apply normal_dmap; auto. intros; apply normal_map_y; auto.
  - unfold phase_shift_data. destruct (check_angle_units (lower u)); simpl; auto.
    unfold normal_dat; simpl. unfold sort_dict. rewrite dmap_dmap. apply normal_dmap; auto.
    intros p [P _]. apply (shift_pts_normal _ p P).
  - unfold filter_data. destruct (filter_loop f (dc_data d)) as [x r] eqn:E. simpl.
    unfold normal_dat in *; simpl. clear -N E. revert x r E; induction N as [|[k p] l P F IH]; simpl; intros x r.
    + intros E; injection E as <- <-. constructor.
    + destruct (f (map snd p)) as [ys|e]; [|intros E; injection E as <- <-; constructor; auto].
      destruct (Nat.eqb_spec (length ys) (length p)) as [L|L];
        [|intros E; injection E as <- <-; constructor; auto].
      destruct (filter_loop f l) as [x' r']. intros E; injection E as <- <-.
      constructor; eauto. simpl. apply normal_combine; auto.
Qed.

Lemma run_normal d h : normal_dat d -> normal_dat (run d h).
Proof. revert d; induction h as [|o h IH]; simpl; intros d N; auto. apply IH, step_normal; auto. Qed.

Lemma construct_normal_dat it u n2o d : construct it u n2o = Ok d -> normal_dat d.
Proof. intros C. apply Forall_forall. intros [k p] I. eapply construct_normal; eauto. Qed.

Lemma normal_nonempty d : normal_dat d -> nonempty_pcs (dc_data d).
Proof. intros N. eapply Forall_impl; [|exact N]. intros kv [H _]. exact H. Qed.

(** Keys never change. *)
Lemma step_keys d o : get_keys (fst (step d o)) = get_keys d.
Proof.
  unfold get_keys. destruct o as [f|x| |a u|f]; simpl.
  - unfold scale_data. destruct (Rltb f 0); simpl; auto. apply dkeys_dmap.
  - unfold normalize_data, scale_data. destruct (get_maxval d) as [[[k m]|]|]; simpl; auto.
    + destruct (Reqb m 0); [destruct (Rltb x 0); auto|]. destruct (Rltb (x / m) 0); simpl; auto. apply dkeys_dmap.
    + destruct (Rltb 0 0); simpl; auto. apply dkeys_dmap.
  - unfold subtract_min. destruct (get_minval d) as [[[k m]|]|]; simpl; auto. apply dkeys_dmap.
  - unfold phase_shift_data. destruct (check_angle_units (lower u)); simpl; auto.
    unfold sort_dict. now rewrite !dkeys_dmap.
  - unfold filter_data. destruct (filter_loop f (dc_data d)) as [x r] eqn:E. simpl.
    revert x r E; induction (dc_data d) as [|[k p] l IH]; simpl; intros x r.
    + intros E; injection E as <- <-; auto.
    + destruct (f (map snd p)) as [ys|e]; [|intros E; injection E as <- <-; auto].
      destruct (Nat.eqb (length ys) (length p)); [|intros E; injection E as <- <-; auto].
      destruct (filter_loop f l) as [x' r']. intros E; injection E as <- <-. simpl. f_equal; eauto.
Qed.

Lemma run_keys d h : get_keys (run d h) = get_keys d.
Proof. revert d; induction h as [|o h IH]; simpl; intros d; auto. rewrite IH. apply step_keys. Qed.

(* ------------------------------------------------------------------ *)
(** * C11 *)

(** One step acts on all values by the same affine map; its slope is recorded
    in the scale exactly, and its intercept in the offset if the slope is 1. *)
Lemma step_affine d o : is_scaling_or_sub o -> exists a b,
  dc_data (fst (step d o)) = dmap (map_y (fun y => a * y + b)) (dc_data d) /\
  dc_scale (fst (step d o)) = dc_scale d * a /\
  dc_offset (fst (step d o)) = dc_offset d + b /\
  (is_scaling o -> b = 0) /\ (o = OSubtractMin -> a = 1).
Proof.
  assert (S : forall f, exists a b,
     dc_data (fst (scale_data d f)) = dmap (map_y (fun y => a * y + b)) (dc_data d) /\
     dc_scale (fst (scale_data d f)) = dc_scale d * a /\
     dc_offset (fst (scale_data d f)) = dc_offset d + b /\ b = 0).
  { intros f. unfold scale_data. destruct (Rltb f 0); simpl.
    - exists 1, 0. repeat split; try ring. symmetry. apply dmap_id. intros; apply map_y_id. intros; ring.
    - exists f, 0. repeat split; try ring. apply dmap_ext. intros; apply map_y_ext. intros; ring. }
  assert (Id : exists a b,
     dc_data d = dmap (map_y (fun y => a * y + b)) (dc_data d) /\
     dc_scale d = dc_scale d * a /\ dc_offset d = dc_offset d + b /\ b = 0 /\ a = 1).
  { exists 1, 0. repeat split; try ring. symmetry. apply dmap_id. intros; apply map_y_id. intros; ring. }
  intros A. destruct o as [f|x| |a u|f]; simpl in *; try destruct A.
  - destruct (S f) as (a & b & A & B & C & D). exists a, b. repeat split; auto; discriminate.
  - assert (X : exists a b,
     dc_data (fst (normalize_data d x)) = dmap (map_y (fun y => a * y + b)) (dc_data d) /\
     dc_scale (fst (normalize_data d x)) = dc_scale d * a /\
     dc_offset (fst (normalize_data d x)) = dc_offset d + b /\ b = 0).
    { destruct Id as (a1 & b1 & I1 & I2 & I3 & I4 & I5).
      unfold normalize_data. destruct (get_maxval d) as [[[k m]|]|]; auto.
      - destruct (Reqb m 0); auto. destruct (Rltb x 0); simpl; exists a1, b1; auto.
      - simpl; exists a1, b1; auto. }
    destruct X as (a & b & A & B & C & D). exists a, b. repeat split; auto; discriminate.
  - unfold subtract_min. destruct (get_minval d) as [[[k m]|]|]; simpl.
    + exists 1, (- m). repeat split; try ring; try tauto.
      apply dmap_ext. intros; apply map_y_ext. intros; ring.
    + destruct Id as (a & b & I1 & I2 & I3 & I4 & I5). exists a, b. repeat split; auto.
    + destruct Id as (a & b & I1 & I2 & I3 & I4 & I5). exists a, b. repeat split; auto.
Qed.

Lemma run_affine d h : Forall is_scaling_or_sub h -> exists a b,
  dc_data (run d h) = dmap (map_y (fun y => a * y + b)) (dc_data d) /\
  dc_scale (run d h) = dc_scale d * a.
Proof.
  revert d; induction h as [|o h IH]; simpl; intros d F.
  - exists 1, 0. split; [|ring]. symmetry. apply dmap_id. intros; apply map_y_id. intros; ring.
  - inversion F as [|? ? O F']; subst. destruct (step_affine d o O) as (a & b & A & B & _).
    destruct (IH (fst (step d o)) F') as (a' & b' & A' & B').
    exists (a' * a), (a' * b + b'). rewrite A', B', A, B. split; [|ring].
    rewrite dmap_dmap. apply dmap_ext. intros. rewrite map_y_comp. apply map_y_ext. intros; ring.
Qed.

Lemma run_scalings d h : Forall is_scaling h -> exists a,
  dc_data (run d h) = dmap (map_y (fun y => a * y)) (dc_data d) /\
  dc_scale (run d h) = dc_scale d * a /\ dc_offset (run d h) = dc_offset d.
Proof.
  revert d; induction h as [|o h IH]; simpl; intros d F.
  - exists 1. repeat split; try ring. symmetry. apply dmap_id. intros; apply map_y_id. intros; ring.
  - inversion F as [|? ? O F']; subst.
    assert (O' : is_scaling_or_sub o) by (destruct o; simpl in *; auto).
    destruct (step_affine d o O') as (a & b & A & B & C & D & _). rewrite (D O) in *. clear D.
    destruct (IH (fst (step d o)) F') as (a' & A' & B' & C').
    exists (a' * a). rewrite A', B', C', A, B, C. repeat split; try ring.
    rewrite dmap_dmap. apply dmap_ext. intros. rewrite map_y_comp. apply map_y_ext. intros; ring.
Qed.

Lemma run_subs d n : exists b,
  dc_data (run d (repeat OSubtractMin n)) = dmap (map_y (fun y => y + b)) (dc_data d) /\
  dc_scale (run d (repeat OSubtractMin n)) = dc_scale d /\
  dc_offset (run d (repeat OSubtractMin n)) = dc_offset d + b.
Proof.
  revert d; induction n as [|n IH]; intros d; cbn [repeat run].
  - exists 0. repeat split; try ring. symmetry. apply dmap_id. intros; apply map_y_id. intros; ring.
  - destruct (step_affine d OSubtractMin I) as (a & b & A & B & C & _ & D). rewrite (D eq_refl) in *. clear D.
    destruct (IH (fst (step d OSubtractMin))) as (b' & A' & B' & C').
    exists (b + b'). rewrite A', B', C', A, B, C. repeat split; try ring.
    rewrite dmap_dmap. apply dmap_ext. intros. rewrite map_y_comp. apply map_y_ext. intros; ring.
Qed.

Lemma run_app d h1 h2 : run d (h1 ++ h2) = run (run d h1) h2.
Proof. revert d; induction h1; simpl; auto. Qed.
