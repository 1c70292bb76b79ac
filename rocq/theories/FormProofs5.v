(** Merging containers, files. *)
From Coq Require Import String List ZArith QArith Qreals Reals Lra Lia Bool Permutation Sorted.
From Coquelicot Require Import Complex.
From Verif Require Import PyBase CBase RMod DataModel SpecData DataProofs DataProofs2 FDataModel SpecFData FDataProofs FDataProofs2
  Expr ExprProofs LookupTable FormModel SpecForm FourierBase TableProofs FormProofs FormProofs2 FormProofs3.
Import ListNotations.
Local Open Scope nat_scope.

(** Dictionaries with string keys *)
Lemma dset_dmap {K V W} `{Eqb K} (f : V -> W) (d : dict K V) k v : dset k (f v) (dmap f d) = dmap f (dset k v d).
Proof. induction d as [|[k0 v0] d IH]; simpl; auto. destruct (eqb k k0); simpl; congruence. Qed.

Lemma dict_of_map {K V W} `{Eqb K} (f : V -> W) (l : list (K * V)) :
  dict_of (map (fun kv => (fst kv, f (snd kv))) l) = dmap f (dict_of l).
Proof.
  unfold dict_of. change (@nil (K * W)) with (dmap f (@nil (K * V))) at 1. generalize (@nil (K * V)).
  induction l as [|[k v] l IH]; simpl; intros d; auto. rewrite dset_dmap. apply IH.
Qed.

Lemma string_dict {V} (d : dict pykey V) : wf_dict d -> forallb good_key (dkeys d) = true ->
  exists D : dict string V, wf_dict D /\ d = map (fun kv => (KStr (fst kv), snd kv)) D /\
    forall k, dget k D = dget (KStr k) d.
Proof.
  unfold wf_dict, dkeys. induction d as [|[k v] d IH]; simpl; intros W G.
  - exists []. repeat split; auto. constructor.
  - apply andb_true_iff in G as [G1 G2]. inversion W; subst. destruct (IH H2 G2) as (D & W' & -> & E').
    destruct k as [s|]; [|discriminate]. exists ((s, v) :: D). split; [|split; auto].
    + simpl. constructor; auto. intros I. apply H1. rewrite map_map. simpl.
      apply in_map_iff in I as [kv [<- I]]. apply in_map_iff. exists kv; auto.
    + intros k. simpl. rewrite E'. destruct (eqb_spec k s), (eqb_spec (KStr k) (KStr s)); congruence.
Qed.

Lemma dget_KStr {V} (D : dict string V) k : dget (KStr k) (map (fun kv => (KStr (fst kv), snd kv)) D) = dget k D.
Proof.
  induction D as [|[s v] D IH]; simpl; auto. rewrite IH.
  destruct (eqb_spec k s), (eqb_spec (KStr k) (KStr s)); congruence.
Qed.

(** The last value stored. *)
Definition list_stored {V} (l : list (pykey * V)) (j : nat) k (v : V) := nth_error l j = Some (k, v).

Lemma dget_rev {V} (l : list (pykey * V)) k v : dget k (rev l) = Some v <->
  exists j, list_stored l j k v /\ forall j' v', list_stored l j' k v' -> j' <= j.
Proof.
  unfold list_stored. induction l as [|[k0 v0] l IH]; simpl.
  - split; [discriminate|]. intros (j & E & _). destruct j; discriminate.
  - rewrite dget_app. cbn [dget]. split.
    + intros E. destruct (dget k (rev l)) as [v1|] eqn:E1.
      * injection E as ->. destruct (proj1 IH eq_refl) as (j & Ej & Hj). exists (S j). split; auto.
        intros [|j'] v'; simpl; [lia|]. intros X. apply Hj in X. lia.
      * destruct (eqb_spec k k0) as [->|]; [|discriminate]. injection E as ->. exists 0. split; auto.
        intros [|j'] v'; simpl; [lia|]. intros X. exfalso. apply nth_error_In in X.
        apply dget_None in E1. apply E1. unfold dkeys. rewrite map_rev, <- in_rev. apply in_map_iff. exists (k0, v'); auto.
    + intros (j & Ej & Hj). destruct (dget k (rev l)) as [v1|] eqn:E1.
      * assert (X : exists n, nth_error l n = Some (k, v1)).
        { apply dget_In in E1. apply in_rev in E1. apply In_nth_error; auto. }
        destruct X as [n X]. specialize (Hj (S n) v1 X) as L. destruct j as [|j]; [lia|]. simpl in Ej.
        apply IH. exists j. split; auto. intros j' v' X'. specialize (Hj (S j') v' X'). lia.
      * destruct j as [|j]; simpl in Ej.
        -- injection Ej as -> ->. destruct (eqb_spec k k); congruence.
        -- exfalso. apply nth_error_In in Ej. apply dget_None in E1. apply E1. unfold dkeys.
           rewrite map_rev, <- in_rev. apply in_map_iff. exists (k, v); auto.
Qed.

Lemma stored_shift {V} (items : container -> list (string * V)) c cs mapping i j k v :
  stored items (c :: cs) mapping (S i) j k v <-> stored items cs (fun k i => mapping k (S i)) i j k v.
Proof. reflexivity. Qed.

(** All items, in the order of the loop. *)
Fixpoint all_items {V} (items : container -> list (string * V)) (mapping : string -> nat -> pykey) (cs : list container) :=
  match cs with
  | [] => []
  | c :: cs' => (map (fun kv => (mapping (fst kv) 0, snd kv)) (items c) ++
                all_items items (fun k i => mapping k (S i)) cs')%list
  end.

Lemma merge_loop_all {V} (rd : container -> res (list (string * V))) items cs : (forall c, In c cs -> rd c = Ok (items c)) ->
  forall mapping i, merge_loop rd mapping i cs = Ok (all_items items (fun k j => mapping k (i + j)) cs).
Proof.
  induction cs as [|c cs IH]; intros H mapping i; simpl; auto.
  rewrite H by (left; auto). cbn [bind]. rewrite IH by (intros; apply H; right; auto). cbn [bind].
  rewrite Nat.add_0_r. do 2 f_equal.
  assert (X : forall m m' cs, (forall k i, m k i = m' k i) -> all_items items m cs = all_items items m' cs).
  { clear. intros m m' cs. revert m m'. induction cs as [|c cs IH]; simpl; intros m m' E; auto.
    f_equal; [apply map_ext; intros; rewrite E; auto|apply IH; intros; apply E]. }
  apply X. intros k j. f_equal. lia.
Qed.

Lemma dget_all_items {V} (items : container -> list (string * V)) cs : forall mapping k v,
  dget k (rev (all_items items mapping cs)) = Some v <-> last_stored items cs mapping k v.
Proof.
  induction cs as [|c cs IH]; intros mapping k v.
  - simpl. split; [discriminate|]. intros (i & j & (c & k0 & E & _) & _). destruct i; discriminate.
  - simpl. rewrite rev_app_distr, dget_app.
    destruct (dget k (rev (all_items items (fun k i => mapping k (S i)) cs))) as [v1|] eqn:E1.
    + apply IH in E1. assert (X : Some v1 = Some v <-> last_stored items cs (fun k i => mapping k (S i)) k v).
      { rewrite <- IH. apply IH in E1. rewrite E1. reflexivity. }
      rewrite X. clear X IH. split.
      * intros (i & j & St & L). exists (S i), j. split; auto.
        intros [|i'] j' v' S'; [left; lia|]. apply L in S'. lia.
      * intros (i & j & St & L). destruct E1 as (i1 & j1 & St1 & L1).
        destruct i as [|i]; [destruct (L (S i1) j1 v1 St1); lia|].
        exists i, j. split; auto. intros i' j' v' S'. specialize (L (S i') j' v' S'). lia.
    + assert (N : forall i j v', ~ stored items cs (fun k i => mapping k (S i)) i j k v').
      { intros i j v' St. apply dget_None in E1. apply E1. clear - St.
        unfold dkeys. rewrite map_rev, <- in_rev. revert mapping i St. induction cs as [|c cs IH]; intros mapping i St.
        - destruct St as (c & k0 & E & _). destruct i; discriminate.
        - simpl. rewrite map_app, in_app_iff. destruct i as [|i].
          + left. destruct St as (c0 & k0 & E & E2 & E3). injection E as <-. rewrite map_map.
            apply nth_error_In in E2. apply in_map_iff. exists (k0, v'). auto.
          + right. apply IH with (mapping := fun k i => mapping k (S i)) (i := i). exact St. }
      rewrite dget_rev. unfold list_stored. split.
      * intros (j & Ej & L). exists 0, j. rewrite nth_error_map in Ej.
        destruct (nth_error (items c) j) as [[k0 v0]|] eqn:E0; [|discriminate]. injection Ej as <- ->.
        split; [exists c, k0; auto|]. intros [|i'] j' v' S'.
        -- right. split; auto. destruct S' as (c' & k' & X & X2 & X3). injection X as <-. apply (L j' v').
           rewrite nth_error_map, X2. simpl. congruence.
        -- exfalso. eapply N; exact S'.
      * intros (i & j & St & L). destruct i as [|i]; [|exfalso; eapply N; exact St].
        destruct St as (c' & k' & X & X2 & X3). injection X as <-. exists j. split.
        -- rewrite nth_error_map, X2. simpl. congruence.
        -- intros j' v' Y. rewrite nth_error_map in Y. destruct (nth_error (items c) j') as [[k0 v0]|] eqn:E0; [|discriminate].
           injection Y as <- ->. destruct (L 0 j' v'); [exists c, k0; auto|lia|lia].
Qed.

Lemma all_items_stored {V} (items : container -> list (string * V)) cs : forall mapping kv,
  In kv (all_items items mapping cs) -> exists i j, stored items cs mapping i j (fst kv) (snd kv).
Proof.
  induction cs as [|c cs IH]; simpl; intros mapping kv I; [destruct I|].
  apply in_app_iff in I as [I|I].
  - apply in_map_iff in I as ([k0 v0] & <- & I). apply In_nth_error in I as [j E]. exists 0, j, c, k0. auto.
  - destruct (IH _ _ I) as (i & j & St). exists (S i), j. exact St.
Qed.

Lemma all_items_dict {V} (items : container -> list (string * V)) cs mapping : maps_to_strings items cs mapping ->
  exists D : dict string V, wf_dict D /\ dict_of (all_items items mapping cs) = map (fun kv => (KStr (fst kv), snd kv)) D /\
    forall k v, dget k D = Some v <-> last_stored items cs mapping (KStr k) v.
Proof.
  intros H. destruct (string_dict (dict_of (all_items items mapping cs))) as (D & W & E & G).
  - apply wf_dict_of.
  - apply forallb_forall. intros k I. apply (proj1 (In_dkeys_dict_of _ _)) in I. apply in_map_iff in I as (kv & <- & I).
    apply all_items_stored in I as (i & j & St). destruct (H _ _ _ _ St) as [s ->]. reflexivity.
  - exists D. split; auto. split; auto. intros k v. rewrite G, dget_dict_of. apply dget_all_items.
Qed.

(** Constructors only look at the dictionary. *)
Lemma construct_dict it u b : construct it u b = construct (dict_of it) u b.
Proof. unfold construct. rewrite (dict_of_wf (dict_of it)) by apply wf_dict_of. reflexivity. Qed.
Lemma fconstruct_dict it M : fconstruct it M = fconstruct (dict_of it) M.
Proof. unfold fconstruct. rewrite (dict_of_wf (dict_of it)) by apply wf_dict_of. reflexivity. Qed.
Lemma form_construct_dict it : form_construct it = form_construct (dict_of it).
Proof. unfold form_construct. rewrite (dict_of_wf (dict_of it)) by apply wf_dict_of. reflexivity. Qed.
Lemma ff_construct_dict it M : ff_construct it M = ff_construct (dict_of it) M.
Proof. unfold ff_construct. rewrite (dict_of_wf (dict_of it)) by apply wf_dict_of. reflexivity. Qed.

Definition all_kind n (cs : list container) := cs <> [] /\ forall c, In c cs -> kind c = n.

Lemma merge_form cs mapping : all_kind 2 cs -> maps_to_strings form_items_of cs mapping ->
  exists g, merge_containers cs mapping = Ok (CForm g) /\ wf_dict g /\
    forall k v, dget k g = Some v <-> last_stored form_items_of cs mapping (KStr k) v.
Proof.
  intros [N K] H. destruct (all_items_dict _ _ _ H) as (D & W & E & G). exists D. split; auto.
  destruct cs as [|c cs]; [congruence|]. assert (Kc := K c (or_introl eq_refl)). destruct c; try discriminate.
  unfold merge_containers. rewrite (merge_loop_all _ form_items_of).
  - cbn [bind]. rewrite form_construct_dict, dict_of_map. 
    change (all_items form_items_of (fun k j => mapping k (0 + j)) (CForm f :: cs))
      with (all_items form_items_of mapping (CForm f :: cs)). rewrite E.
    replace (dmap Some _) with (form_items D).
    + rewrite form_construct_items by auto. reflexivity.
    + unfold form_items, dmap. rewrite map_map. reflexivity.
  - intros c I. apply K in I. destruct c; try discriminate. reflexivity.
Qed.

Lemma merge_fdat cs mapping : all_kind 1 cs -> (forall f, In (CFDat f) cs -> fwf f /\ fd_M f = 16) ->
  maps_to_strings fdat_items cs mapping ->
  exists g, merge_containers cs mapping = Ok (CFDat g) /\ fd_scale g = 1%R /\ fd_phase g = PNum 0 /\ fd_M g = 16 /\
    wf_dict (fd_data g) /\ forall k v, dget k (fd_data g) = Some v <-> last_stored fdat_items cs mapping (KStr k) v.
Proof.
  intros [N K] HM H. destruct (all_items_dict _ _ _ H) as (D & W & E & G). exists (mkfdat D 1 (PNum 0) 16). split; auto.
  assert (Len : Forall (fun kv => length (snd kv) = 2 * 16 + 1) D).
  { apply Forall_forall. intros [k v] I. apply (In_dget _ _ _ W) in I. apply G in I.
    destruct I as (i & j & (c & k0 & Ec & Ei & _) & _). apply nth_error_In in Ec, Ei.
    assert (Kc := K c Ec). destruct c; try discriminate. destruct (HM f Ec) as [[_ F] M16]. rewrite M16 in F.
    rewrite Forall_forall in F. apply (F _ Ei). }
  destruct cs as [|c cs]; [congruence|]. assert (Kc := K c (or_introl eq_refl)). destruct c; try discriminate.
  unfold merge_containers. rewrite (merge_loop_all _ fdat_items).
  - cbn [bind]. rewrite fconstruct_dict, (dict_of_map (FArr true 1)).
    change (all_items fdat_items (fun k j => mapping k (0 + j)) (CFDat f :: cs))
      with (all_items fdat_items mapping (CFDat f :: cs)). rewrite E.
    replace (dmap (FArr true 1) _) with (fitems D).
    + rewrite fconstruct_items by (split; auto). reflexivity.
    + unfold fitems, dmap. rewrite map_map. reflexivity.
  - intros c I. apply K in I. destruct c; try discriminate. reflexivity.
Qed.

Lemma merge_fform cs mapping : all_kind 3 cs -> (forall F, In (CFForm F) cs -> ff_wf F /\ symbolic F /\ ff_M F = 16) ->
  maps_to_strings fform_items cs mapping ->
  exists G, merge_containers cs mapping = Ok (CFForm G) /\ ff_M G = 16 /\ symbolic G /\ ff_wf G /\
    forall k v, dget k (ff_rows G) = Some v <-> last_stored fform_items cs mapping (KStr k) v.
Proof.
  intros [N K] HM H. destruct (all_items_dict _ _ _ H) as (D & W & E & G). exists (mkff D 16).
  assert (Len : forall k r, In (k, r) D -> length (r_cells r) = 2 * 16 + 1 /\ r_obj r = true).
  { intros k v I. apply (In_dget _ _ _ W) in I. apply G in I.
    destruct I as (i & j & (c & k0 & Ec & Ei & _) & _). apply nth_error_In in Ec, Ei.
    assert (Kc := K c Ec). destruct c; try discriminate. destruct (HM F Ec) as [[_ L] [Sy M16]]. rewrite M16 in L.
    split; [apply (L _ _ Ei)|apply (Sy _ _ Ei)]. }
  assert (Wf : ff_wf (mkff D 16)) by (split; [exact W|intros k r I; apply (Len k r I)]).
  assert (Sy : symbolic (mkff D 16)) by (intros k r I; apply (Len k r I)).
  split; [|auto].
  destruct cs as [|c cs]; [congruence|]. assert (Kc := K c (or_introl eq_refl)). destruct c; try discriminate.
  unfold merge_containers. rewrite (merge_loop_all _ fform_items).
  - cbn [bind]. rewrite ff_construct_dict, (dict_of_map row_oval).
    change (all_items fform_items (fun k j => mapping k (0 + j)) (CFForm F :: cs))
      with (all_items fform_items mapping (CFForm F :: cs)). rewrite E.
    replace (dmap row_oval _) with (ff_items (mkff D 16)).
    + rewrite ff_rebuild by auto. reflexivity.
    + unfold ff_items, dmap. rewrite map_map. reflexivity.
  - intros c I. apply K in I. destruct c; try discriminate. reflexivity.
Qed.

Lemma normal_distinct_strict p : normal_form p -> distinct_angles p -> StronglySorted (fun p q => (fst p < fst q)%R) p.
Proof.
  intros (_ & T & So) D. induction p as [|[x y] p IH]; [constructor|].
  simpl in *. inversion T as [|? ? T1 T2]; subst. inversion So as [|? ? S1 S2]; subst. inversion D as [|? ? D1 D2]; subst.
  constructor; auto.
  apply Forall_forall. intros [x' y'] I. simpl. rewrite Forall_forall in S2, D1.
  assert (L := S2 x' (in_map fst _ _ I)). specialize (D1 _ I). simpl in D1.
  destruct (Rle_lt_or_eq_dec _ _ L); auto. subst. exfalso. apply D1. exists 0%Z. simpl. ring.
Qed.

Lemma merge_dat cs mapping : all_kind 0 cs ->
  (forall d k p, In (CDat d) cs -> In (k, p) (dc_data d) -> normal_form p /\ distinct_angles p) ->
  maps_to_strings dat_items cs mapping ->
  exists g, merge_containers cs mapping = Ok (CDat g) /\ dc_scale g = 1%R /\ dc_phase g = 0%R /\ dc_offset g = 0%R /\
    wf_dict (dc_data g) /\ forall k v, dget k (dc_data g) = Some v <-> last_stored dat_items cs mapping (KStr k) v.
Proof.
  intros [N K] HM H. destruct (all_items_dict _ _ _ H) as (D & W & E & G).
  exists (mkdat D 1 0 0 "radians" false). split; [|repeat (split; [reflexivity|]); auto].
  assert (Nf : forall k p, In (k, p) D -> normal_form p /\ distinct_angles p).
  { intros k v I. apply (In_dget _ _ _ W) in I. apply G in I.
    destruct I as (i & j & (c & k0 & Ec & Ei & _) & _). apply nth_error_In in Ec, Ei.
    assert (Kc := K c Ec). destruct c; try discriminate. apply (HM _ _ _ Ec Ei). }
  destruct cs as [|c cs]; [congruence|]. assert (Kc := K c (or_introl eq_refl)). destruct c; try discriminate.
  unfold merge_containers. rewrite (merge_loop_all _ dat_items).
  - cbn [bind]. rewrite construct_dict.
    rewrite (dict_of_map (fun p : list (R * R) => NDArray 2 DFloat [map fst p; map snd p])).
    change (all_items dat_items (fun k j => mapping k (0 + j)) (CDat d :: cs))
      with (all_items dat_items mapping (CDat d :: cs)). rewrite E.
    replace (dmap _ _) with (input DFloat D).
    + rewrite construct_input; auto.
      * cbn [bind]. do 3 f_equal. apply dmap_id. intros k p I. destruct (Nf k p I) as [Np Dp].
        apply finish_id; [apply Np|apply normal_distinct_strict; auto].
      * apply Forall_forall. intros [k p] I. apply (Nf k p I).
    + unfold input, dmap. rewrite map_map. reflexivity.
  - intros c I. apply K in I. destruct c; try discriminate. reflexivity.
Qed.

(** A container of another class with at least one item is refused. *)
Lemma merge_loop_error {V} (rd : container -> res (list (string * V))) cs c e : In c cs -> rd c = Raise e ->
  (forall c', In c' cs -> (exists l, rd c' = Ok l) \/ rd c' = Raise e) ->
  forall mapping i, merge_loop rd mapping i cs = Raise e.
Proof.
  induction cs as [|c0 cs IH]; [intros []|]. intros I E H mapping i. simpl.
  destruct (H c0 (or_introl eq_refl)) as [[l E0]|E0]; rewrite E0; cbn [bind]; auto.
  destruct I as [->|I]; [congruence|]. rewrite IH; auto. intros; apply H; right; auto.
Qed.

Lemma merge_mixed c0 cs mapping c : kind c0 <> 4 -> (forall c', In c' cs -> kind c' <> 4) -> In c cs -> kind c <> kind c0 -> has_items c ->
  merge_containers (c0 :: cs) mapping = Raise TypeError.
Proof.
  intros K0 K4 I Kc Hi. assert (K4c := K4 c I).
  assert (N4 : forall c', In c' (c0 :: cs) -> kind c' <> 4) by (intros c' [<-|J]; auto).
  destruct c0; simpl in K0; try congruence; unfold merge_containers.
  - rewrite (merge_loop_error merge_dat_items (CDat d :: cs) c TypeError); auto; [right; auto| |].
    + destruct c; simpl in *; congruence.
    + intros c' J. apply N4 in J. destruct c'; simpl in *; eauto; congruence.
  - rewrite (merge_loop_error merge_fdat_items (CFDat f :: cs) c TypeError); auto; [right; auto| |].
    + destruct c as [|g|g|g|]; simpl in *; try congruence; unfold no_items; [destruct g|destruct (ff_rows g)]; congruence.
    + intros c' J. apply N4 in J. destruct c' as [|g|g|g|]; simpl in *; try congruence; eauto; unfold no_items; [destruct g|destruct (ff_rows g)]; eauto.
  - rewrite (merge_loop_error merge_form_items (CForm f :: cs) c TypeError); auto; [right; auto| |].
    + destruct c as [|g|g|g|]; simpl in *; try congruence; unfold no_items; [destruct (fd_data g)|destruct (ff_rows g)]; congruence.
    + intros c' J. apply N4 in J. destruct c' as [|g|g|g|]; simpl in *; try congruence; eauto; unfold no_items; [destruct (fd_data g)|destruct (ff_rows g)]; eauto.
  - rewrite (merge_loop_error merge_fform_items (CFForm F :: cs) c TypeError); auto; [right; auto| |].
    + destruct c as [|g|g|g|]; simpl in *; try congruence; unfold no_items; [destruct (fd_data g)|destruct g]; congruence.
    + intros c' J. apply N4 in J. destruct c' as [|g|g|g|]; simpl in *; try congruence; eauto; unfold no_items; [destruct (fd_data g)|destruct g]; eauto.
Qed.

(** Files *)
Lemma mapM_parse (srepr : expr -> string) (parse : string -> res expr) (l : list expr) : (forall e, In e l -> parse (srepr e) = Ok e) -> mapM parse (map srepr l) = Ok l.
Proof.
  induction l as [|e l IH]; simpl; intros H; auto. rewrite H by auto. simpl. rewrite IH; auto.
Qed.

Lemma load_saved srepr parse F : inverse_printer srepr parse F ->
  dmapM (mapM parse) (save_fform srepr F) = Ok (dmap r_cells (ff_rows F)).
Proof.
  unfold inverse_printer, save_fform. induction (ff_rows F) as [|[k r] l IH]; simpl; intros H; auto.
  rewrite (mapM_parse srepr) by (intros e Ie; apply (H k r e); auto). simpl. rewrite IH; auto.
  intros k' r' e' I. apply (H k' r' e'); auto.
Qed.

Lemma load_save srepr parse F : inverse_printer srepr parse F -> ff_wf F -> symbolic F -> ff_M F = 16 ->
  load_fform parse (save_fform srepr F) = Ok F.
Proof.
  intros H W Sy M16. unfold load_fform. rewrite (load_saved srepr) by auto. cbn [bind].
  rewrite <- (ff_rebuild F 16) by auto. f_equal. unfold ff_items, dmap. rewrite map_map. apply map_ext_in.
  intros [k r] I. cbn [fst snd]. unfold row_oval. rewrite (Sy k r I). reflexivity.
Qed.

Lemma load_save_other srepr parse F : inverse_printer srepr parse F -> ff_wf F -> ff_rows F <> [] -> ff_M F <> 16 ->
  load_fform parse (save_fform srepr F) = Raise ValueError.
Proof.
  intros H W N D. unfold load_fform. rewrite (load_saved srepr) by auto. cbn [bind].
  destruct (ff_rows F) as [|[k r] rows] eqn:E; [congruence|].
  set (it := map _ _). apply (ff_construct_bad it it 16 (KStr k) (OArr true 1 (map SymE (r_cells r)))).
  - unfold it. apply dict_of_wf. apply (wf_key_inj (fun l => OArr true 1 (map SymE l))). apply wf_dmap.
    rewrite <- E. apply W.
  - left; reflexivity.
  - destruct W as [_ L]. specialize (L k r). rewrite E in L. specialize (L (or_introl eq_refl)).
    unfold good_oval. rewrite map_length, L.
    replace (2 * ff_M F + 1 =? 2 * 16 + 1) with false by (symmetry; apply Nat.eqb_neq; lia). reflexivity.
Qed.
