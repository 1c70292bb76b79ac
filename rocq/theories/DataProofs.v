(** Proofs about the DataContainer model. *)
From Coq Require Import String Ascii List ZArith Reals Lra Lia Bool Sorted Permutation.
From Verif Require Import PyBase RMod DataModel SpecData.
Import ListNotations.
Open Scope R_scope.

(* ------------------------------------------------------------------ *)
(** * Angles *)

Lemma same_angle_mod x : same_angle x (mod2pi x).
Proof. destruct (mod2pi_congr x) as [k E]. exists k. exact E. Qed.

Lemma same_angle_iff x y : same_angle x y <-> mod2pi x = mod2pi y.
Proof.
  split.
  - intros [k ->]. apply (mod2pi_period y k).
  - intros E. destruct (mod2pi_congr x) as [a A], (mod2pi_congr y) as [b B].
    exists (a - b)%Z. rewrite minus_IZR. rewrite A, B, E. unfold twopi. ring.
Qed.

Lemma same_angle_refl x : same_angle x x.
Proof. apply same_angle_iff; auto. Qed.
Lemma same_angle_sym x y : same_angle x y -> same_angle y x.
Proof. rewrite !same_angle_iff; auto. Qed.
Lemma same_angle_trans x y z : same_angle x y -> same_angle y z -> same_angle x z.
Proof. rewrite !same_angle_iff; congruence. Qed.

Lemma in_turn_mod x : in_turn (mod2pi x).
Proof. apply mod2pi_range. Qed.

Lemma turned_mod a p p' : Permutation p' (map (fun q => (mod2pi (fst q + a), snd q)) p) -> turned a p p'.
Proof.
  intros P. eexists; split; [exact P|]. clear P. induction p as [|q p IH]; simpl; constructor; auto.
  simpl. split; [apply in_turn_mod|]. split; auto. apply same_angle_sym, same_angle_mod.
Qed.

Lemma in_turn_same x y : in_turn x -> in_turn y -> same_angle x y -> x = y.
Proof.
  intros X Y. rewrite same_angle_iff. rewrite !mod2pi_small; auto.
Qed.

(* ------------------------------------------------------------------ *)
(** * dict_of *)

Lemma filter_ext_in' {A} (f g : A -> bool) l :
  (forall x, In x l -> f x = g x) -> filter f l = filter g l.
Proof.
  induction l; simpl; intros E; auto. rewrite E by auto. rewrite IHl; auto.
Qed.

Lemma In_first_occ {K} `{Eqb K} (l : list K) k : In k (first_occ l) <-> In k l.
Proof.
  induction l as [|a l IH]; simpl; [tauto|]. rewrite filter_In, IH.
  destruct (eqb_spec a k); simpl; intuition.
Qed.

Lemma dkeys_dict_of_aux {K V} `{Eqb K} (l : list (K * V)) d :
  dkeys (fold_left (fun d kv => dset (fst kv) (snd kv) d) l d) =
  dkeys d ++ filter (fun k => negb (mem eqb k (dkeys d))) (first_occ (map fst l)).
Proof.
  revert d; induction l as [|[k v] l IH]; simpl; intros d; [now rewrite app_nil_r|].
  rewrite IH, dkeys_dset. unfold dmem. destruct (dget k d) eqn:E.
  - assert (I : In k (dkeys d)) by (apply dget_keys; congruence).
    assert (M : mem eqb k (dkeys d) = true) by (apply mem_In; auto).
    rewrite M; simpl. f_equal.
    assert (G : forall L, filter (fun k0 => negb (mem eqb k0 (dkeys d))) L =
      filter (fun k0 => negb (mem eqb k0 (dkeys d))) (filter (fun k' => negb (eqb k k')) L)).
    { induction L as [|a L IHL]; simpl; auto.
      destruct (eqb_spec k a) as [<-|N]; simpl.
      - rewrite M; simpl; auto.
      - rewrite IHL; auto. }
    apply G.
  - apply dget_None in E.
    assert (M : mem eqb k (dkeys d) = false).
    { destruct (mem eqb k (dkeys d)) eqn:M; auto. apply mem_In in M; contradiction. }
    rewrite M; simpl. rewrite <- app_assoc; simpl. do 2 f_equal.
    clear IH. induction (first_occ (map fst l)) as [|a L IHL]; simpl; auto.
    replace (mem eqb a (dkeys d ++ [k])) with (mem eqb a (dkeys d) || eqb a k)
      by (unfold mem; rewrite existsb_app; simpl; now rewrite orb_false_r).
    destruct (eqb_spec k a) as [<-|N]; simpl.
    + rewrite eqb_refl, orb_true_r; simpl; auto.
    + rewrite (eqb_neq a k) by congruence. rewrite orb_false_r, IHL. auto.
Qed.

Lemma dkeys_dict_of {K V} `{Eqb K} (l : list (K * V)) : dkeys (dict_of l) = first_occ (map fst l).
Proof.
  unfold dict_of. rewrite dkeys_dict_of_aux; simpl.
  induction (first_occ (map fst l)); simpl; congruence.
Qed.

Lemma first_occ_NoDup {K} `{Eqb K} (l : list K) : NoDup l -> first_occ l = l.
Proof.
  induction 1 as [|a l N ND IH]; simpl; auto. rewrite IH. f_equal.
  clear IH. induction l as [|b l IH]; simpl; auto.
  inversion ND; subst. rewrite eqb_neq by (intros ->; apply N; left; auto). simpl.
  rewrite IH; auto. intros I; apply N; right; auto.
Qed.

Lemma map_key_str ks : forallb good_key ks = true -> map KStr (map key_str ks) = ks.
Proof.
  induction ks as [|[s|n] ks IH]; simpl; intros E; auto; [|discriminate]. now rewrite IH.
Qed.

Lemma first_occ_KStr l : first_occ (map KStr l) = map KStr (first_occ l).
Proof.
  induction l as [|a l IH]; simpl; auto. f_equal. rewrite IH. clear IH.
  induction (first_occ l) as [|b L IHL]; simpl; auto.
  destruct (String.eqb a b); simpl; auto. rewrite IHL; auto.
Qed.

(* ------------------------------------------------------------------ *)
(** * Shape of the constructor's result *)

(** The processing of one polarization after unit conversion and coercion. *)
Definition finish (v : dtype * pts) : pts :=
  isort (map (fun p => (cast (fst v) (mod2pi (fst p)), snd p)) (remove_dups_aux [] (snd v))).

Lemma remove_dups_aux_nil l : remove_dups_aux [] l = [] -> l = [].
Proof. destruct l as [|[x y] l]; simpl; auto. discriminate. Qed.

Lemma modulate_remove v r :
  modulate (remove_dups v) = Ok r ->
  snd v <> [] /\ r = map (fun p => (cast (fst v) (mod2pi (fst p)), snd p)) (remove_dups_aux [] (snd v)).
Proof.
  destruct v as [dt l]. unfold modulate, remove_dups; simpl.
  destruct (remove_dups_aux [] l) eqn:E; [discriminate|].
  intros X; injection X as <-. split; auto. intros ->; discriminate.
Qed.

Lemma modulate_nonempty v : snd v <> [] -> 
  modulate (remove_dups v) = Ok (map (fun p => (cast (fst v) (mod2pi (fst p)), snd p)) (remove_dups_aux [] (snd v))).
Proof.
  destruct v as [dt l]. unfold modulate, remove_dups; simpl.
  destruct (remove_dups_aux [] l) eqn:E; auto. intros N; apply remove_dups_aux_nil in E; contradiction.
Qed.

Lemma modulate_all_Ok (d2 : dict string (dtype * pts)) d4 :
  dmapM modulate (dmap remove_dups d2) = Ok d4 ->
  Forall (fun kv => snd (snd kv) <> []) d2 /\ sort_dict d4 = dmap finish d2.
Proof.
  revert d4; induction d2 as [|[k v] d2 IH]; simpl; intros d4.
  - intros E; injection E as <-. split; constructor.
  - destruct (modulate (remove_dups v)) as [r|] eqn:M; simpl; [|discriminate].
    destruct (dmapM modulate (dmap remove_dups d2)) as [d|] eqn:E; simpl; [|discriminate].
    intros X; injection X as <-. destruct (IH d eq_refl) as [F G].
    apply modulate_remove in M as [N ->]. split; [constructor; auto|].
    simpl. unfold sort_dict in *. simpl. rewrite G. reflexivity.
Qed.

Lemma modulate_all_total (d2 : dict string (dtype * pts)) :
  Forall (fun kv => snd (snd kv) <> []) d2 ->
  exists d4, dmapM modulate (dmap remove_dups d2) = Ok d4 /\ sort_dict d4 = dmap finish d2.
Proof.
  intros F. assert (exists d4, dmapM modulate (dmap remove_dups d2) = Ok d4) as [d4 E].
  { induction F as [|[k v] d2 N F IH]; simpl; [eauto|].
    rewrite modulate_nonempty by auto; simpl. destruct IH as [d4 ->]; simpl. eauto. }
  exists d4; split; auto. apply modulate_all_Ok in E as [_ E]; auto.
Qed.

Lemma modulate_all_Raise (d2 : dict string (dtype * pts)) :
  ~ Forall (fun kv => snd (snd kv) <> []) d2 ->
  dmapM modulate (dmap remove_dups d2) = Raise ValueError.
Proof.
  induction d2 as [|[k v] d2 IH]; simpl; intros N; [exfalso; apply N; constructor|].
  assert (D : snd v = [] \/ snd v <> []) by (destruct v as [dt [|q l]]; simpl; [left|right]; auto; discriminate).
  destruct D as [E|E].
  - destruct v as [dt l]; simpl in E; subst. reflexivity.
  - rewrite modulate_nonempty by auto; simpl. rewrite IH; auto.
Qed.

Definition before_coerce (it : list (pykey * pyval)) (u : string) : dict string (dtype * pts) :=
  if String.eqb u "degrees" then to_radians (raw_dict (dict_of it)) else raw_dict (dict_of it).

Lemma check_units_Ok u : check_angle_units u = Ok tt <-> u = "radians"%string \/ u = "degrees"%string.
Proof.
  unfold check_angle_units. split.
  - destruct (String.eqb_spec u "radians"), (String.eqb_spec u "degrees"); simpl; auto; discriminate.
  - intros [->| ->]; reflexivity.
Qed.

Lemma check_units_cases u : check_angle_units u = Ok tt \/ check_angle_units u = Raise ValueError.
Proof. unfold check_angle_units. destruct (_ || _); auto. Qed.

Lemma check_iterable_cases d : check_iterable d = Ok tt \/ check_iterable d = Raise ValueError.
Proof. unfold check_iterable. destruct (_ && _); auto. Qed.

Lemma construct_Ok it u n2o d : construct it u n2o = Ok d ->
  check_angle_units u = Ok tt /\ check_iterable (dict_of it) = Ok tt /\
  exists d2, (if n2o then coerce (before_coerce it u) else Ok (before_coerce it u)) = Ok d2 /\
    Forall (fun kv => snd (snd kv) <> []) d2 /\
    d = mkdat (dmap finish d2) 1 0 0 u n2o.
Proof.
  unfold construct.
  destruct (check_angle_units u) as [[]|] eqn:E1; simpl; [|discriminate].
  destruct (check_iterable (dict_of it)) as [[]|] eqn:E2; simpl; [|discriminate].
  fold (before_coerce it u).
  destruct (if n2o then coerce (before_coerce it u) else Ok (before_coerce it u)) as [d2|] eqn:E3;
    simpl; [|discriminate].
  destruct (dmapM modulate (dmap remove_dups d2)) as [d4|] eqn:E4; simpl; [|discriminate].
  intros X; injection X as <-. apply modulate_all_Ok in E4 as [F ->].
  split; auto. split; auto. exists d2; auto.
Qed.

Lemma construct_Ok_conv it u (n2o : bool) d2 :
  check_angle_units u = Ok tt -> check_iterable (dict_of it) = Ok tt ->
  (if n2o then coerce (before_coerce it u) else Ok (before_coerce it u)) = Ok d2 ->
  Forall (fun kv => snd (snd kv) <> []) d2 ->
  construct it u n2o = Ok (mkdat (dmap finish d2) 1 0 0 u n2o).
Proof.
  intros E1 E2 E3 F. unfold construct. rewrite E1; simpl. rewrite E2; simpl.
  fold (before_coerce it u). rewrite E3; simpl.
  destruct (modulate_all_total d2 F) as [d4 [-> E]]; simpl. now rewrite E.
Qed.

(* ------------------------------------------------------------------ *)
(** * C01 *)

Lemma cast_in_turn dt x : in_turn x -> in_turn (cast dt x).
Proof.
  unfold in_turn; destruct dt; simpl; auto. intros [A B].
  pose proof (rtrunc_nonneg x A). lra.
Qed.

Lemma StronglySorted_map {A B} (f : A -> B) (P : A -> A -> Prop) (Q : B -> B -> Prop) l :
  (forall a b, P a b -> Q (f a) (f b)) -> StronglySorted P l -> StronglySorted Q (map f l).
Proof.
  intros E. induction 1 as [|a l S IH F]; simpl; constructor; auto.
  rewrite Forall_map. eapply Forall_impl; [|exact F]. auto.
Qed.

Lemma Forall_perm {A} (P : A -> Prop) l l' : Permutation l l' -> Forall P l -> Forall P l'.
Proof.
  rewrite !Forall_forall. intros E F x I. apply F.
  eapply Permutation_in; [apply Permutation_sym; eauto|]; auto.
Qed.

Lemma finish_normal v : snd v <> [] -> normal_form (finish v).
Proof.
  intros N. unfold finish. split; [|split].
  - intros E. apply (f_equal (@length _)) in E. rewrite isort_length, map_length in E.
    simpl in E. apply length_zero_iff_nil, remove_dups_aux_nil in E. contradiction.
  - apply Forall_perm with (map fst (map (fun p => (cast (fst v) (mod2pi (fst p)), snd p)) (remove_dups_aux [] (snd v)))).
    + apply Permutation_map, isort_perm.
    + rewrite map_map; simpl. rewrite Forall_map. apply Forall_forall. intros; apply cast_in_turn, in_turn_mod.
  - apply StronglySorted_map with (P := le_x); [|apply isort_sorted]. unfold le_x; auto.
Qed.

Lemma construct_normal it u n2o d : construct it u n2o = Ok d ->
  forall k p, In (k, p) (dc_data d) -> normal_form p.
Proof.
  intros C. apply construct_Ok in C as (_ & _ & d2 & _ & F & ->). simpl.
  intros k p I. unfold dmap in I. apply in_map_iff in I as [[k' v] [E I]]. simpl in E.
  injection E as -> <-. apply finish_normal. rewrite Forall_forall in F. apply (F _ I).
Qed.

Lemma dkeys_raw d : dkeys (raw_dict d) = map key_str (dkeys d).
Proof. unfold dkeys, raw_dict. now rewrite !map_map. Qed.

Lemma dkeys_before it u : dkeys (before_coerce it u) = map key_str (dkeys (dict_of it)).
Proof.
  unfold before_coerce, to_radians. destruct (String.eqb u "degrees"); rewrite ?dkeys_dmap; apply dkeys_raw.
Qed.

Lemma check_iterable_Ok d : check_iterable d = Ok tt <->
  forallb good_key (dkeys d) = true /\ forallb good_val (dvals d) = true.
Proof.
  unfold check_iterable. destruct (forallb good_key (dkeys d)), (forallb good_val (dvals d)); simpl;
    intuition discriminate.
Qed.

Lemma construct_keys it u d : construct it u false = Ok d ->
  map KStr (get_keys d) = first_occ (map fst it).
Proof.
  intros C. apply construct_Ok in C as (_ & Ci & d2 & E & F & ->). injection E as <-.
  unfold get_keys; simpl. rewrite dkeys_dmap, dkeys_before.
  apply check_iterable_Ok in Ci as [K _]. rewrite map_key_str by auto. apply dkeys_dict_of.
Qed.

Lemma NoDup_map_inj_KStr l : NoDup (map KStr l) -> NoDup l.
Proof. apply NoDup_map_inv. Qed.

Lemma wf_before it u : check_iterable (dict_of it) = Ok tt -> wf_dict (before_coerce it u).
Proof.
  intros Ci. apply check_iterable_Ok in Ci as [K _]. unfold wf_dict. rewrite dkeys_before.
  apply NoDup_map_inv with (f := KStr). rewrite map_key_str by auto. apply wf_dict_of.
Qed.

(* ------------------------------------------------------------------ *)
(** * Duplicate removal *)

Lemma mem_Reqb x l : mem Reqb x l = true <-> In x l.
Proof.
  unfold mem. rewrite existsb_exists. split.
  - intros [y [I E]]. apply Reqb_true in E. subst; auto.
  - intros I. exists x; split; auto. apply Reqb_true; auto.
Qed.

Lemma mem_Reqb_false x l : mem Reqb x l = false <-> ~ In x l.
Proof. rewrite <- mem_Reqb. destruct (mem Reqb x l); split; congruence. Qed.

(** Exact description: a point is dropped when an earlier angle of the input is
    literally the reduced value of its angle. *)
Fixpoint keep_spec (before : list R) (l : pts) : pts :=
  match l with
  | [] => []
  | p :: l' =>
      (if mem Reqb (mod2pi (fst p)) before then [] else [p]) ++ keep_spec (before ++ [fst p]) l'
  end.

Lemma keep_spec_eq l seen before :
  (forall x, in_turn x -> (In x seen <-> In x before)) ->
  remove_dups_aux seen l = keep_spec before l.
Proof.
  revert seen before; induction l as [|[x y] l IH]; simpl; intros seen before E; auto.
  destruct (mem Reqb (mod2pi x) seen) eqn:M.
  - assert (M' : mem Reqb (mod2pi x) before = true)
      by (apply mem_Reqb, E; [apply in_turn_mod|]; apply mem_Reqb; auto).
    rewrite M'. simpl. apply IH. intros z T. rewrite E by auto. rewrite in_app_iff; simpl.
    split; auto. intros [I|[<-|[]]]; auto.
    apply mem_Reqb in M'. rewrite mod2pi_small in M'; auto.
  - assert (M' : mem Reqb (mod2pi x) before = false).
    { apply mem_Reqb_false. intros I. apply mem_Reqb_false in M. apply M, E; auto. apply in_turn_mod. }
    rewrite M'. simpl. f_equal. apply IH. intros z T. rewrite !in_app_iff, E by auto. tauto.
Qed.

Lemma remove_dups_keep l : remove_dups_aux [] l = keep_spec [] l.
Proof. apply keep_spec_eq. simpl; tauto. Qed.

Lemma remove_dups_incl l seen p : In p (remove_dups_aux seen l) -> In p l.
Proof.
  revert seen; induction l as [|[x y] l IH]; simpl; intros seen; auto.
  destruct (mem Reqb (mod2pi x) seen); simpl; [intros I; right; eauto|].
  intros [<-|I]; auto. right; eauto.
Qed.

Lemma remove_dups_covers l seen x y : In (x, y) l ->
  (exists z, In z seen /\ z = mod2pi x) \/ exists p, In p (remove_dups_aux seen l) /\ same_angle x (fst p).
Proof.
  revert seen; induction l as [|[x' y'] l IH]; simpl; intros seen I; [tauto|].
  destruct (mem Reqb (mod2pi x') seen) eqn:M.
  - destruct I as [E|I]; [|auto]. injection E as -> ->. left. apply mem_Reqb in M. eauto.
  - destruct I as [E|I].
    + injection E as -> ->. right. exists (x, y); split; [left; auto|apply same_angle_refl].
    + destruct (IH (seen ++ [x']) I) as [[z [Z1 Z2]]|[p [P1 P2]]].
      * apply in_app_iff in Z1 as [Z1|[<-|[]]]; [left; eauto|].
        right. exists (x', y'); split; [left; auto|]. simpl. rewrite Z2. apply same_angle_mod.
      * right. exists p; split; [right; auto|auto].
Qed.

(** First occurrence wins inside one turn. *)
Lemma keep_spec_in_turn_aux before l : Forall in_turn (map fst l) ->
  forall x y, In (x, y) (keep_spec before l) <->
    exists l1 l2, l = l1 ++ (x, y) :: l2 /\ ~ In x before /\ ~ In x (map fst l1).
Proof.
  revert before; induction l as [|[x' y'] l IH]; simpl; intros before F x y.
  - split; [tauto|]. intros (l1 & l2 & E & _). destruct l1; discriminate.
  - inversion F as [|? ? T F']; subst. rewrite in_app_iff, IH by auto.
    rewrite (mod2pi_small x') by auto. split.
    + intros [I|(l1 & l2 & -> & N1 & N2)].
      * destruct (mem Reqb x' before) eqn:M; [destruct I|]. destruct I as [E|[]].
        injection E as -> ->. apply mem_Reqb_false in M.
        exists [], l. repeat split; auto.
      * rewrite in_app_iff in N1. simpl in N1.
        exists ((x', y') :: l1), l2. repeat split; simpl; auto. intros [->|I]; auto.
    + intros (l1 & l2 & E & N1 & N2). destruct l1 as [|[a b] l1]; simpl in E.
      * injection E as -> -> ->. left. apply mem_Reqb_false in N1. rewrite N1. left; auto.
      * injection E as -> -> ->. right. exists l1, l2. simpl in N2. repeat split; auto.
        rewrite in_app_iff; simpl. intros [I|[->|[]]]; auto.
Qed.

Lemma keep_spec_app before l1 l2 :
  keep_spec before (l1 ++ l2) = keep_spec before l1 ++ keep_spec (before ++ map fst l1) l2.
Proof.
  revert before; induction l1 as [|p l1 IH]; simpl; intros before; [now rewrite app_nil_r|].
  rewrite IH, <- !app_assoc. reflexivity.
Qed.

Lemma keep_spec_incl before l p : In p (keep_spec before l) -> In p l.
Proof.
  revert before; induction l as [|q l IH]; simpl; intros before; auto.
  rewrite in_app_iff. destruct (mem Reqb (mod2pi (fst q)) before); simpl; intuition eauto.
Qed.

Lemma FOP_app {A} (Q : A -> A -> Prop) l1 l2 :
  ForallOrdPairs Q (l1 ++ l2) <->
  ForallOrdPairs Q l1 /\ ForallOrdPairs Q l2 /\ forall a b, In a l1 -> In b l2 -> Q a b.
Proof.
  induction l1 as [|a l1 IH]; simpl.
  - split; [intros H; split; [constructor|split; auto; tauto]|tauto].
  - split.
    + intros H; inversion H as [|? ? F O]; subst. apply IH in O as (O1 & O2 & O3).
      apply Forall_app in F as [F1 F2].
      split; [constructor; auto|]. split; auto. rewrite Forall_forall in F2.
      intros x b [<-|I] J; auto.
    + intros (H1 & H2 & H3). inversion H1 as [|? ? F O]; subst. constructor.
      * apply Forall_app; split; auto. apply Forall_forall. intros; apply H3; auto. 
      * apply IH. split; auto.
Qed.

(** The condition under which the removal works: whenever an angle is repeated,
    some earlier angle already is its reduced value. *)
Definition dups_caught (l : pts) : Prop :=
  forall l1 q l2, l = l1 ++ q :: l2 ->
    (exists p, In p l1 /\ same_angle (fst p) (fst q)) ->
    exists p, In p l1 /\ fst p = mod2pi (fst q).

Lemma dups_caught_in_turn l : Forall in_turn (map fst l) -> dups_caught l.
Proof.
  intros F l1 q l2 -> [p [I S]]. exists p; split; auto.
  rewrite map_app, Forall_app in F. destruct F as [F1 F2]. inversion F2; subst.
  rewrite mod2pi_small by auto. apply in_turn_same; auto.
  rewrite Forall_forall in F1. apply F1. apply in_map; auto.
Qed.

Lemma dups_caught_distinct l : distinct_angles l -> dups_caught l.
Proof.
  intros D l1 q l2 -> [p [I S]]. exfalso. apply FOP_app in D as (_ & _ & D).
  apply (D p q); auto. left; auto.
Qed.

Lemma keep_distinct_iff l : distinct_angles (keep_spec [] l) <-> dups_caught l.
Proof.
  induction l as [|q l IH] using rev_ind.
  - split; [|intros; constructor]. intros _ l1 q l2 E. destruct l1; discriminate.
  - rewrite keep_spec_app; simpl. unfold distinct_angles in *. rewrite FOP_app, app_nil_r, IH.
    split.
    + intros (D1 & D2 & D3) l1 p l2 E.
      destruct l2 as [|r l2 _] using rev_ind.
      * apply app_inj_tail in E as [-> ->]. intros [p' [I S]].
        destruct (mem Reqb (mod2pi (fst p)) (map fst l1)) eqn:M.
        { apply mem_Reqb, in_map_iff in M as [r [R1 R2]]. eauto. }
        exfalso. destruct p' as [x' y'].
        destruct (remove_dups_covers l1 [] x' y' I) as [[z [[] _]]|[r [R1 R2]]].
        rewrite remove_dups_keep in R1. apply (D3 r p); auto. { left; auto. }
        simpl in S. apply same_angle_trans with x'; auto. apply same_angle_sym; auto.
      * rewrite app_comm_cons, app_assoc in E. apply app_inj_tail in E as [-> ->].
        apply (D1 l1 p l2); auto.
    + intros D. assert (DC : dups_caught l).
      { intros l1 p l2 -> X. apply (D l1 p (l2 ++ [q])); auto. now rewrite <- app_assoc. }
      split; auto. split.
      * destruct (mem _ _ _); repeat constructor.
      * intros a b I J. destruct (mem Reqb (mod2pi (fst q)) (map fst l)) eqn:M; [destruct J|].
        destruct J as [<-|[]]. intros S. apply mem_Reqb_false in M. apply M.
        destruct (D l q []) as [p [P1 P2]]; auto.
        { exists a; split; auto. eapply keep_spec_incl; eauto. }
        rewrite <- P2. apply in_map; auto.
Qed.

Lemma FOP_perm {A} (Q : A -> A -> Prop) l l' : (forall a b, Q a b -> Q b a) ->
  Permutation l l' -> ForallOrdPairs Q l -> ForallOrdPairs Q l'.
Proof.
  intros Sy. induction 1 as [|a l l' P IH|a b l|l l' l'' P1 IH1 P2 IH2]; intros O; auto.
  - inversion O; subst. constructor; auto. eapply Forall_perm; eauto.
  - inversion O as [|? ? F O']; subst. inversion O' as [|? ? F' O'']; subst.
    inversion F; subst. constructor; [constructor; auto|]. constructor; auto.
Qed.

Lemma FOP_map {A B} (f : A -> B) (Q : B -> B -> Prop) l :
  ForallOrdPairs Q (map f l) <-> ForallOrdPairs (fun a b => Q (f a) (f b)) l.
Proof.
  induction l as [|a l IH]; simpl; [split; constructor|].
  split; intros O; inversion O as [|? ? F O']; subst; constructor; try (apply IH; auto).
  - rewrite Forall_map in F; auto.
  - rewrite Forall_map; auto.
Qed.

Lemma FOP_iff {A} (P Q : A -> A -> Prop) l : (forall a b, P a b <-> Q a b) ->
  ForallOrdPairs P l <-> ForallOrdPairs Q l.
Proof.
  intros E. induction l; split; intros O; try constructor; inversion O; subst; try tauto;
  (eapply Forall_impl; [|eassumption]); intros; apply E; auto.
Qed.

Lemma neg_same_sym a b : ~ same_angle a b -> ~ same_angle b a.
Proof. intros N S; apply N, same_angle_sym; auto. Qed.

Lemma finish_distinct_iff l : distinct_angles (finish (DFloat, l)) <-> dups_caught l.
Proof.
  rewrite <- keep_distinct_iff, <- remove_dups_keep. unfold finish, distinct_angles; simpl.
  set (m := map _ _).
  assert (X : ForallOrdPairs (fun a b : R * R => ~ same_angle (fst a) (fst b)) (isort m) <->
              ForallOrdPairs (fun a b : R * R => ~ same_angle (fst a) (fst b)) m).
  { split; apply FOP_perm; try (intros; apply neg_same_sym; auto);
      [apply Permutation_sym|]; apply isort_perm. }
  rewrite X. unfold m. rewrite FOP_map. apply FOP_iff. intros [a b] [a' b']; simpl.
  assert (E : same_angle (mod2pi a) (mod2pi a') <-> same_angle a a').
  { rewrite !same_angle_iff, !mod2pi_idem. tauto. }
  tauto.
Qed.

(* ------------------------------------------------------------------ *)
(** * Inputs *)

Lemma dget_raw (d : dict pykey pyval) k : forallb good_key (dkeys d) = true ->
  dget k (raw_dict d) = option_map columns (dget (KStr k) d).
Proof.
  induction d as [|[[s|n] v] d IH]; simpl; intros G; auto; [|discriminate].
  destruct (String.eqb k s); auto.
Qed.

Lemma dget_not_in {K V} `{Eqb K} (l : list (K * V)) k : (forall v, ~ In (k, v) l) -> dget k l = None.
Proof.
  intros N. apply dget_None. intros I. apply in_map_iff in I as [[k' v] [<- I]]. apply (N v); auto.
Qed.

Lemma given_dget it k dt p : given it k dt p ->
  exists xs ys rest, dget (KStr k) (dict_of it) = Some (NDArray 2 dt (xs :: ys :: rest)) /\
    length xs = length ys /\ p = combine xs ys.
Proof.
  intros (it1 & xs & ys & rest & it2 & -> & N & L & ->). exists xs, ys, rest. split; auto.
  rewrite dget_dict_of, rev_app_distr. simpl. rewrite <- app_assoc, dget_app.
  rewrite dget_not_in.
  - rewrite dget_app. simpl. rewrite String.eqb_refl. reflexivity.
  - intros v I. apply in_rev in I. apply (N v); auto.
Qed.

Lemma dget_split {K V} `{Eqb K} (l : list (K * V)) k v : dget k l = Some v ->
  exists l1 l2, l = l1 ++ (k, v) :: l2 /\ forall v', ~ In (k, v') l1.
Proof.
  induction l as [|[k' v'] l IH]; simpl; [discriminate|].
  destruct (eqb_spec k k') as [<-|N].
  - intros E; injection E as <-. exists [], l; split; auto.
  - intros E. destruct (IH E) as (l1 & l2 & -> & N'). exists ((k', v') :: l1), l2.
    split; auto. intros v'' [E'|I]; [congruence|]. apply (N' v''); auto.
Qed.

Lemma dget_given it k : check_iterable (dict_of it) = Ok tt ->
  In (KStr k) (map fst it) -> exists dt p, dt <> DObject /\ given it k dt p.
Proof.
  intros Ci I. apply (In_dkeys_dict_of it) in I. apply dget_keys in I.
  destruct (dget (KStr k) (dict_of it)) as [v|] eqn:E; [|contradiction]. clear I.
  apply check_iterable_Ok in Ci as [_ V]. rewrite forallb_forall in V.
  assert (G : good_val v = true).
  { apply V. apply dget_In in E. apply in_map_iff. exists (KStr k, v); auto. }
  destruct v as [ndim dt rows|]; simpl in G; [|discriminate].
  destruct rows as [|xs [|ys rest]]; try (rewrite ?andb_false_r in G; discriminate).
  apply andb_prop in G as [G L]. apply andb_prop in G as [D Nd].
  apply Nat.eqb_eq in Nd, L. subst.
  exists dt, (combine xs ys). split; [intros ->; discriminate|].
  rewrite dget_dict_of in E. apply dget_split in E as (l1 & l2 & E & N).
  apply (f_equal (@rev _)) in E. rewrite rev_involutive, rev_app_distr in E. simpl in E.
  rewrite <- app_assoc in E. simpl in E.
  exists (rev l2), xs, ys, rest, (rev l1). repeat split; auto.
  intros v J. apply in_rev in J. apply (N v); auto.
Qed.

Definition conv (u : string) (v : dtype * pts) : dtype * pts :=
  if String.eqb u "degrees" then (DFloat, map (fun p => (deg2rad (fst p), snd p)) (snd v)) else v.

Lemma dget_before it u k dt p : check_iterable (dict_of it) = Ok tt ->
  given it k dt p -> dget k (before_coerce it u) = Some (conv u (dt, p)).
Proof.
  intros Ci G. apply given_dget in G as (xs & ys & rest & E & L & ->).
  apply check_iterable_Ok in Ci as [K _].
  assert (X : @dget string (dtype * pts) _ k (raw_dict (dict_of it)) = Some (dt, combine xs ys)).
  { rewrite dget_raw, E by auto. reflexivity. }
  unfold before_coerce, conv, to_radians. destruct (String.eqb u "degrees"); auto.
  rewrite dget_dmap, X. reflexivity.
Qed.

(** The stored data of a given polarization. *)
Lemma construct_get it u d k dt p : construct it u false = Ok d -> given it k dt p ->
  dget k (dc_data d) = Some (finish (conv u (dt, p))).
Proof.
  intros C G. apply construct_Ok in C as (Cu & Ci & d2 & E & F & ->). injection E as <-.
  simpl. rewrite dget_dmap, (dget_before it u k dt p) by auto. reflexivity.
Qed.

(** float_angle: the angles in radians the container receives, before any
    integer truncation *)
Definition to_rad (u : string) (x : R) : R := if String.eqb u "degrees" then x * (PI / 180) else x.

Lemma conv_float u dt p : dt <> DObject -> (u = "degrees"%string \/ dt = DFloat) ->
  conv u (dt, p) = (DFloat, map (fun q => (to_rad u (fst q), snd q)) p).
Proof.
  intros N H. unfold conv, to_rad. destruct (String.eqb_spec u "degrees"); auto.
  destruct H as [->| ->]; [congruence|]. f_equal. rewrite <- (map_id p) at 1.
  apply map_ext. intros []; auto.
Qed.

Lemma In_finish_float l x y : In (x, y) (finish (DFloat, l)) <->
  exists x0, In (x0, y) (remove_dups_aux [] l) /\ x = mod2pi x0.
Proof.
  unfold finish; simpl. rewrite isort_In, in_map_iff. split.
  - intros [[x0 y0] [E I]]; simpl in E. injection E as <- <-. eauto.
  - intros [x0 [I ->]]. exists (x0, y); auto.
Qed.

(* ------------------------------------------------------------------ *)
(** * C06: outcomes of construction *)

Lemma fill_leftover_outcome ks d e : fill_leftover ks d = Raise e -> e = KeyError.
Proof.
  revert d; induction ks as [|k ks IH]; simpl; intros d; [discriminate|].
  unfold dgetr. destruct (dget (copy_pc k) d); simpl; [apply IH|congruence].
Qed.


Lemma set_eqb_spec a b : set_eqb a b = true <-> (forall x, In x a <-> In x b).
Proof.
  unfold set_eqb, subset_b. rewrite andb_true_iff, !forallb_forall. split.
  - intros [A B] x; split; intros I; [apply A in I|apply B in I]; apply mem_In in I; auto.
  - intros E; split; intros x I; apply mem_In; apply E; auto.
Qed.
