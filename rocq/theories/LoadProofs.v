(** Proofs about loading data from files. *)
From Coq Require Import String List Arith ZArith Bool Lia Reals Lra Sorted.
From Coquelicot Require Import Complex.
Import ListNotations.
From Verif Require Import PyBase CBase RMod DataModel SpecData DataProofs DataProofs2 DataProofs3 FDataModel SpecFData FDataProofs FDataProofs2
  PropertiesData PropertiesFData FormProofs3 ReadModel SpecLoad.
Local Open Scope R_scope.

Section Csv.
  Variable float_of : string -> option R.

  Lemma csv_loop_ok rows : forall t xs ys, file_holds float_of rows t ->
    csv_loop float_of rows xs ys = Ok (xs ++ map fst t, ys ++ map snd t)%list.
  Proof.
    induction rows as [|row rows IH]; intros t xs ys F; inversion F as [|? p ? t' H F']; subst; cbn [csv_loop map].
    - now rewrite !app_nil_r.
    - destruct H as (a & b & rest & -> & A & B). change (py_nth (a :: b :: rest) 0) with (Ok a). change (py_nth (a :: b :: rest) 1) with (Ok b).
      cbn [bind]. unfold to_float. rewrite A. cbn [bind]. rewrite B. cbn [bind]. rewrite (IH t') by auto. now rewrite <- !app_assoc.
  Qed.

  Lemma combine_split (t : list (R * R)) : combine (map fst t) (map snd t) = t.
  Proof. induction t as [|[x y] t IH]; simpl; congruence. Qed.

  Lemma read_csv_ok rows t : file_holds float_of rows t -> read_csv float_of rows = Ok t.
  Proof. intros F. unfold read_csv. rewrite (csv_loop_ok rows t) by auto. cbn [bind fst snd app]. now rewrite combine_split. Qed.

  Lemma csv_loop_app good : forall t rest xs ys, file_holds float_of good t ->
    csv_loop float_of (good ++ rest) xs ys = csv_loop float_of rest (xs ++ map fst t) (ys ++ map snd t).
  Proof.
    induction good as [|row rows IH]; intros t rest xs ys F; inversion F as [|? p ? t' H F']; subst; cbn [csv_loop map app].
    - now rewrite !app_nil_r.
    - destruct H as (a & b & r & -> & A & B). change (py_nth (a :: b :: r) 0) with (Ok a). change (py_nth (a :: b :: r) 1) with (Ok b).
      cbn [bind]. unfold to_float. rewrite A. cbn [bind]. rewrite B. cbn [bind]. rewrite (IH t') by auto. now rewrite <- !app_assoc.
  Qed.

  (** the row that cannot be read decides *)
  Lemma read_csv_bad good t row rest : file_holds float_of good t -> (forall p, ~ row_holds float_of row p) ->
    read_csv float_of (good ++ row :: rest) =
    Raise (match row with
           | [] => IndexError
           | [a] => match float_of a with Some _ => IndexError | None => ValueError end
           | _ => ValueError
           end).
  Proof.
    intros F N. unfold read_csv. rewrite (csv_loop_app good t) by auto. cbn [csv_loop]. destruct row as [|a [|b r]].
    - reflexivity.
    - change (py_nth [a] 0) with (Ok a). cbn [bind]. unfold to_float. destruct (float_of a); reflexivity.
    - change (py_nth (a :: b :: r) 0) with (Ok a). change (py_nth (a :: b :: r) 1) with (Ok b). cbn [bind]. unfold to_float.
      destruct (float_of a) as [x|] eqn:A; [|reflexivity]. cbn [bind]. destruct (float_of b) as [y|] eqn:B; [|reflexivity].
      exfalso. apply (N (x, y)). exists a, b, r. auto.
  Qed.

  Lemma row_dec row : (exists p, row_holds float_of row p) \/ forall p, ~ row_holds float_of row p.
  Proof.
    destruct row as [|a [|b r]]; [right; intros p (? & ? & ? & E & _); discriminate..|].
    destruct (float_of a) as [x|] eqn:A; [|right; intros p (? & ? & ? & E & A' & _); injection E as <- <- <-; congruence].
    destruct (float_of b) as [y|] eqn:B; [|right; intros p (? & ? & ? & E & _ & A'); injection E as <- <- <-; congruence].
    left. exists (x, y), a, b, r. auto.
  Qed.

  Lemma file_dec rows : (exists t, file_holds float_of rows t) \/
    exists good t row rest, rows = good ++ row :: rest /\ file_holds float_of good t /\ forall p, ~ row_holds float_of row p.
  Proof.
    induction rows as [|row rows IH].
    - left. exists []. constructor.
    - destruct (row_dec row) as [[p H]|N].
      + destruct IH as [[t F]|(g & t & r & rest & -> & F & N)].
        * left. exists (p :: t). constructor; auto.
        * right. exists (row :: g), (p :: t), r, rest. repeat split; auto. constructor; auto.
      + right. exists [], [], row, rows. repeat split; auto. constructor.
  Qed.
End Csv.

Section Load.
  Variable files : string -> res (list (R * R)).

  Definition loaded (names : list (string * string)) (ts : list (string * list (R * R))) : Prop :=
    Forall2 (fun kn kt => fst kn = fst kt /\ files (snd kn) = Ok (snd kt)) names ts.

  Lemma read_all_ok names ts : loaded names ts -> read_all files names = Ok (input DFloat ts).
  Proof.
    intros F. unfold read_all. induction F as [|[k n] [k' t] names ts [E1 E2] F IH]; [reflexivity|].
    cbn [fst snd] in *. subst k'. cbn [mapM fst snd]. rewrite E2. cbn [bind]. rewrite IH. reflexivity.
  Qed.
  Lemma loaded_keys names ts : loaded names ts -> map fst ts = map fst names.
  Proof. induction 1 as [|? ? ? ? [E _] F IH]; cbn [map]; congruence. Qed.
  Lemma read_all_inv names it : read_all files names = Ok it -> exists ts, loaded names ts /\ it = input DFloat ts.
  Proof.
    unfold read_all. revert it. induction names as [|[k n] names IH]; intros it E; cbn [mapM] in E.
    - injection E as <-. exists []. split; [constructor|reflexivity].
    - cbn [snd fst] in E. destruct (files n) as [t|e] eqn:Fn; [|discriminate]. cbn [bind] in E.
      destruct (mapM _ names) as [it'|e]; [|discriminate]. cbn [bind] in E. injection E as <-.
      destruct (IH it' eq_refl) as (ts & L & ->). exists ((k, t) :: ts). split; [constructor; auto|reflexivity].
  Qed.
  Lemma loaded_table names ts k t : loaded names ts -> In (k, t) ts -> table_of files names k t.
  Proof.
    induction 1 as [|[k0 n0] [k1 t1] names ts [E1 E2] F IH]; intros I; [destruct I|]. cbn [fst snd] in *.
    destruct I as [I|I].
    - injection I as <- <-. exists n0. subst. split; [left; auto|auto].
    - destruct (IH I) as (n & J & E). exists n. split; [right; auto|auto].
  Qed.
  Lemma table_loaded names ts k t : NoDup (map fst names) -> loaded names ts -> table_of files names k t -> In (k, t) ts.
  Proof.
    intros D L (n & I & E). revert D I. induction L as [|[k0 n0] [k1 t1] names ts [E1 E2] F IH]; intros D I; [destruct I|].
    cbn [fst snd map] in *. inversion D; subst. destruct I as [I|I].
    - injection I as -> ->. left. congruence.
    - right. auto.
  Qed.
  Lemma all_tables names : (forall k n, In (k, n) names -> is_ok (files n)) -> exists ts, loaded names ts.
  Proof.
    induction names as [|[k n] names IH]; intros H; [exists []; constructor|].
    destruct (H k n (or_introl eq_refl)) as [t E]. destruct IH as [ts L]; [intros; apply (H k0); right; auto|].
    exists ((k, t) :: ts). constructor; auto.
  Qed.

  Lemma given_input ts k t : NoDup (map fst ts) -> In (k, t) ts -> given (input DFloat ts) k DFloat t.
  Proof.
    intros D I. apply in_split in I as (l1 & l2 & ->). exists (input DFloat l1), (map fst t), (map snd t), [], (input DFloat l2).
    split; [unfold input; rewrite map_app; reflexivity|]. split.
    - intros v J. unfold input in J. apply in_map_iff in J as ([k' t'] & E & J). cbn in E. injection E as -> _.
      rewrite map_app in D. cbn [map fst] in D. apply NoDup_remove_2 in D. apply D. apply in_or_app. right. apply in_map_iff. exists (k, t'). auto.
    - split; [now rewrite !map_length|]. symmetry. apply combine_split.
  Qed.

  Lemma input_well_formed ts : NoDup (map fst ts) -> Forall (fun kt => snd kt <> []) ts -> well_formed (input DFloat ts).
  Proof.
    intros D F pk I. unfold input in I. rewrite map_map in I. apply in_map_iff in I as ([k t] & <- & I). cbn [fst].
    exists k, DFloat, t. repeat split; [discriminate|apply given_input; auto|]. rewrite Forall_forall in F. apply (F _ I).
  Qed.

  Lemma first_occ_id (l : list pykey) : NoDup l -> first_occ l = l.
  Proof.
    induction l as [|k l IH]; intros D; [reflexivity|]. inversion D; subst. cbn [first_occ]. rewrite IH by auto. f_equal.
    assert (N : forall k', In k' l -> negb (eqb k k') = true).
    { intros k' I. destruct (eqb_spec k k'); [subst; contradiction|reflexivity]. }
    clear - N. induction l as [|a l IH]; [reflexivity|]. cbn [filter]. rewrite (N a) by (left; auto). f_equal. apply IH. intros; apply N; right; auto.
  Qed.

  Lemma strs_nodup (l : list string) : NoDup l -> NoDup (map KStr l).
  Proof.
    induction 1; cbn [map]; constructor; auto. intros I. apply in_map_iff in I as (y & E & I). injection E as ->. contradiction.
  Qed.

  Lemma load_keys ts u d : NoDup (map fst ts) -> construct (input DFloat ts) u false = Ok d -> get_keys d = map fst ts.
  Proof.
    intros D C. destruct (PropertiesData.C01_normal_form _ _ _ _ [] C) as (_ & _ & K). specialize (K eq_refl).
    assert (E : map fst (input DFloat ts) = map KStr (map fst ts)) by (unfold input; rewrite !map_map; reflexivity).
    rewrite E, first_occ_id in K by (apply strs_nodup; auto).
    revert K. generalize (get_keys d) (map fst ts). clear. induction l as [|a l IH]; intros [|b m] K; try discriminate; auto.
    cbn [map] in K. injection K as -> K. f_equal. auto.
  Qed.

  Lemma load_data_spec names u d : NoDup (map fst names) -> load_data files names u false = Ok d ->
    exists ts, loaded names ts /\ construct (input DFloat ts) u false = Ok d /\ get_keys d = map fst names /\ NoDup (map fst ts).
  Proof.
    intros D. unfold load_data. destruct (read_all files names) as [it|e] eqn:E; [|discriminate]. cbn [bind]. intros C.
    destruct (read_all_inv _ _ E) as (ts & L & ->). assert (D' : NoDup (map fst ts)) by (rewrite (loaded_keys _ _ L); auto).
    exists ts. repeat split; auto. rewrite (load_keys ts u d) by auto. apply loaded_keys; auto.
  Qed.

  Lemma load_data_ok names ts u : loaded names ts -> NoDup (map fst names) -> Forall (fun kt => snd kt <> []) ts ->
    u = "radians"%string \/ u = "degrees"%string ->
    exists d, load_data files names u false = Ok d /\ construct (input DFloat ts) u false = Ok d.
  Proof.
    intros L D F U. unfold load_data. rewrite (read_all_ok _ _ L). cbn [bind].
    destruct (construct_outcome (input DFloat ts) u) as [(_ & _ & d & C)|[N _]]; [eauto|].
    exfalso. apply N. split; auto. apply input_well_formed; auto. rewrite (loaded_keys _ _ L); auto.
  Qed.

  Lemma in_order_pc ts u d k t : NoDup (map fst ts) -> construct (input DFloat ts) u false = Ok d -> In (k, t) ts ->
    in_order (in_radians u t) -> get_pc d k "radians" = Ok (in_radians u t).
  Proof.
    intros D C I (N & T & S). unfold get_pc, view, dgetr. cbn [bind String.eqb]. 
    change (match dget k (dc_data d) with Some p => Ok p | None => Raise KeyError end = Ok (in_radians u t)).
    rewrite (construct_get _ _ _ _ _ _ C (given_input ts k t D I)). f_equal.
    assert (E : finish (conv u (DFloat, t)) = finish (DFloat, in_radians u t)).
    { unfold conv, in_radians. destruct (String.eqb u "degrees") eqn:U; cbn [fst snd]; [|f_equal; f_equal; symmetry; rewrite <- (map_id t) at 2; apply map_ext; intros []; reflexivity].
      reflexivity. }
    rewrite E. apply finish_id; auto.
  Qed.
End Load.

(** The first polarization of a container. *)
Lemma first_value d ts u k t r p r' : NoDup (map fst ts) -> construct (input DFloat ts) u false = Ok d -> ts = (k, t) :: r ->
  get_values d "radians" = Ok (p :: r') -> get_pc d k "radians" = Ok p.
Proof.
  intros D C E V. pose proof (load_keys ts u d D C) as K. rewrite E in K. cbn [map fst] in K.
  unfold get_values in V. unfold view in V. cbn in V. unfold get_keys, dkeys in K.
  change (match dget k (dc_data d) with Some q => Ok q | None => Raise KeyError end = Ok p).
  destruct (dc_data d) as [|[k0 p0] dd]; [discriminate|]. cbn [map fst dvals snd] in *. injection K as -> _. injection V as -> _.
  cbn [dget]. destruct (eqb_spec k k); congruence.
Qed.

Lemma close_refl_len p1 p2 : Forall2 (fun a b => close (fst a) (fst b)) p1 p2 -> compatible p1 p2.
Proof.
  intros F. unfold compatible. destruct p2 as [|q [|q' p2]]; cbn [stretch]; auto.
  inversion F as [|? ? ? ? H F']; subst. inversion F'; subst. cbn. auto.
Qed.

Lemma pointwise_difference p1 p2 : length p1 = length p2 -> pointwise Rminus p1 p2 = difference p1 p2.
Proof.
  intros L. unfold pointwise, difference. f_equal. f_equal. destruct p2 as [|q [|q' p2]]; cbn [stretch]; auto.
  destruct p1 as [|a [|b p1]]; cbn in *; try discriminate; reflexivity.
Qed.

Lemma in_order_distinct t : in_order t -> distinct_angles t.
Proof.
  intros (_ & T & S). revert T. induction S as [|a t S IH F]; intros T; [constructor|]. cbn [map] in T.
  pose proof (Forall_inv T) as Ta. pose proof (Forall_inv_tail T) as Tt. constructor; [|apply IH; exact Tt].
  apply Forall_forall. intros b I E. rewrite Forall_forall in F, Tt. specialize (F b I).
  assert (X : fst a = fst b) by (apply in_turn_same; [exact Ta|apply Tt; apply in_map; exact I|exact E]).
  lra.
Qed.

Lemma dark_ok files names darks u du : names <> [] -> NoDup (map fst names) -> NoDup (map fst darks) ->
  (u = "radians"%string \/ u = "degrees"%string) -> (du = "radians"%string \/ du = "degrees"%string) ->
  (forall k, In k (map fst names) <-> In k (map fst darks)) ->
  (forall k1 n1 r1 k2 n2 r2 t1 t2, names = (k1, n1) :: r1 -> darks = (k2, n2) :: r2 -> files n1 = Ok t1 -> files n2 = Ok t2 ->
     length t1 = length t2) ->
  (forall k, In k (map fst names) -> exists t1 t2, table_of files names k t1 /\ table_of files darks k t2 /\
     in_order (in_radians u t1) /\ in_order (in_radians du t2) /\
     Forall2 (fun a b => close (fst a) (fst b)) (in_radians u t1) (in_radians du t2)) ->
  exists d, load_data_and_dark_subtract files names u darks du false = Ok d /\ get_keys d = map fst names /\
    forall k t1 t2, table_of files names k t1 -> table_of files darks k t2 ->
      get_pc d k "radians" = Ok (difference (in_radians u t1) (in_radians du t2)).
Proof.
  intros NE D1 D2 U1 U2 K Len H.
  assert (uniq : forall l k t t', NoDup (map fst l) -> table_of files l k t -> table_of files l k t' -> t = t').
  { intros l k t t' D (n & I & E) (n' & I' & E'). assert (n = n'); [|congruence]. clear - D I I'. induction l as [|[a b] l IH]; [destruct I|].
    cbn [map fst] in D. inversion D; subst. destruct I as [I|I], I' as [I'|I'].
    - congruence.
    - injection I as -> ->. exfalso. apply H1. apply in_map_iff. exists (k, n'). auto.
    - injection I' as -> ->. exfalso. apply H1. apply in_map_iff. exists (k, n). auto.
    - auto. }
  assert (rd : forall l, NoDup (map fst l) -> (forall k, In k (map fst l) -> exists t, table_of files l k t) -> exists ts, loaded files l ts).
  { intros l D X. apply all_tables. intros k n I. destruct (X k) as (t & n' & I' & E); [apply in_map_iff; exists (k, n); auto|].
    assert (n = n'); [|subst; eexists; eauto]. clear - D I I'. induction l as [|[a b] l IH]; [destruct I|].
    cbn [map fst] in D. inversion D; subst. destruct I as [I|I], I' as [I'|I'].
    - congruence.
    - injection I as -> ->. exfalso. apply H1. apply in_map_iff. exists (k, n'). auto.
    - injection I' as -> ->. exfalso. apply H1. apply in_map_iff. exists (k, n). auto.
    - auto. }
  destruct (rd names D1) as [ts1 L1]; [intros k I; destruct (H k I) as (t1 & t2 & A & _); eauto|].
  destruct (rd darks D2) as [ts2 L2]; [intros k I; apply K in I; destruct (H k I) as (t1 & t2 & _ & A & _); eauto|].
  pose proof (loaded_keys _ _ _ L1) as K1. pose proof (loaded_keys _ _ _ L2) as K2.
  assert (O1 : forall k t, In (k, t) ts1 -> in_order (in_radians u t)).
  { intros k t I. destruct (H k) as (t1 & t2 & A & B & O & _); [rewrite <- K1; apply in_map_iff; exists (k, t); auto|].
    rewrite (uniq names k t t1); auto. eapply loaded_table; eauto. }
  assert (O2 : forall k t, In (k, t) ts2 -> in_order (in_radians du t)).
  { intros k t I. destruct (H k) as (t1 & t2 & A & B & _ & O & _); [apply K; rewrite <- K2; apply in_map_iff; exists (k, t); auto|].
    rewrite (uniq darks k t t2); auto. eapply loaded_table; eauto. }
  assert (ne : forall v t, in_order (in_radians v t) -> t <> []) by (intros v t (N & _) ->; apply N; reflexivity).
  destruct (load_data_ok files names ts1 u L1 D1) as (d1 & E1 & C1); auto.
  { apply Forall_forall. intros [k t] I. apply (ne u). apply (O1 k); auto. }
  destruct (load_data_ok files darks ts2 du L2 D2) as (d2 & E2 & C2); auto.
  { apply Forall_forall. intros [k t] I. apply (ne du). apply (O2 k); auto. }
  assert (N1 : NoDup (map fst ts1)) by (rewrite K1; auto). assert (N2 : NoDup (map fst ts2)) by (rewrite K2; auto).
  pose proof (load_keys ts1 u d1 N1 C1) as G1. pose proof (load_keys ts2 du d2 N2 C2) as G2.
  assert (P1 : forall k t, In (k, t) ts1 -> get_pc d1 k "radians" = Ok (in_radians u t)) by (intros k t I; exact (in_order_pc ts1 u d1 k t N1 C1 I (O1 k t I))).
  assert (P2 : forall k t, In (k, t) ts2 -> get_pc d2 k "radians" = Ok (in_radians du t)) by (intros k t I; exact (in_order_pc ts2 du d2 k t N2 C2 I (O2 k t I))).
  assert (R1 : reachable d1) by (eexists _, _, _, d1, []; split; [exact C1|reflexivity]).
  assert (KI : forall k p, get_pc d1 k "radians" = Ok p -> exists t, In (k, t) ts1 /\ p = in_radians u t).
  { intros k p E. pose proof (proj1 (get_pc_In d1 k p (reachable_wf _ R1)) E) as I.
    assert (J : In k (map fst ts1)) by (rewrite <- G1; apply in_map_iff; exists (k, p); auto).
    apply in_map_iff in J as ([k' t] & <- & J). cbn [fst] in *. exists t. split; auto. rewrite (P1 _ _ J) in E. congruence. }
  assert (CO : forall k p1 p2, get_pc d1 k "radians" = Ok p1 -> get_pc d2 k "radians" = Ok p2 -> Forall2 (fun a b => close (fst a) (fst b)) p1 p2).
  { intros k p1 p2 X1 X2. destruct (KI k p1 X1) as (t & I & ->).
    destruct (H k) as (t1 & t2 & A & B & _ & _ & F); [rewrite <- K1; apply in_map_iff; exists (k, t); auto|].
    pose proof (table_loaded _ _ _ _ _ D2 L2 B) as J. rewrite (P2 _ _ J) in X2. injection X2 as <-.
    rewrite (uniq names k t t1); auto. eapply loaded_table; eauto. }
  assert (CC : can_combine d1 d2).
  { split; [rewrite G1, K1; destruct names; [contradiction|discriminate]|]. split; [intros k; rewrite G1, G2, K1, K2; apply K|]. split.
    - intros p1 p2 r1 r2 V1 V2. inversion L1 as [|[k1 n1] [k1' t1] nn tt1 [Ea Eb] F1 Ha Hb]; subst; [contradiction|].
      inversion L2 as [|[k2 n2] [k2' t2] dn tt2 [Ec Ed] F2 Hc Hd]; subst.
      { exfalso. exact (proj1 (K k1) (or_introl eq_refl)). }
      cbn [fst snd] in *. subst.
      pose proof (first_value d1 _ u _ _ _ _ _ N1 C1 eq_refl V1) as Q1. pose proof (first_value d2 _ du _ _ _ _ _ N2 C2 eq_refl V2) as Q2.
      rewrite (P1 _ _ (or_introl eq_refl)) in Q1. rewrite (P2 _ _ (or_introl eq_refl)) in Q2. injection Q1 as <-. injection Q2 as <-.
      unfold in_radians. rewrite !map_length. apply (Len _ _ _ _ _ _ _ _ eq_refl eq_refl Eb Ed).
    - intros k p1 p2 X1 X2. apply close_refl_len. apply (CO k); auto. }
  destruct (C30_pointwise d1 d2 Rminus R1) as (d & E & Gk & Pd); auto.
  { intros k p X. destruct (KI k p X) as (t & I & ->). apply in_order_distinct. apply (O1 k); auto. }
  exists d. unfold load_data_and_dark_subtract.
  replace (set_eqb (map fst names) (map fst darks)) with true by (symmetry; apply set_eqb_spec; auto). cbn [negb].
  rewrite E1. cbn [bind]. rewrite E2. cbn [bind]. split; [exact E|]. split; [congruence|].
  intros k t1 t2 A B. pose proof (table_loaded _ _ _ _ _ D1 L1 A) as I. pose proof (table_loaded _ _ _ _ _ D2 L2 B) as J.
  rewrite (Pd k _ _ (P1 _ _ I) (P2 _ _ J)). f_equal. apply pointwise_difference.
  apply (Forall2_length _ _ _ (CO k _ _ (P1 _ _ I) (P2 _ _ J))).
Qed.

(** The first file that cannot be read decides. *)
Lemma load_raises files n1 k n n2 e u n2o : (forall k' n', In (k', n') n1 -> is_ok (files n')) -> files n = Raise e ->
  load_data files (n1 ++ (k, n) :: n2) u n2o = Raise e.
Proof.
  intros H E. unfold load_data, read_all.
  match goal with |- context [mapM ?f _] => assert (X : mapM f (n1 ++ (k, n) :: n2) = Raise e) end; [|rewrite X; reflexivity].
  induction n1 as [|[k' n'] n1 IH]; cbn [app mapM fst snd].
  - now rewrite E.
  - destruct (H k' n' (or_introl eq_refl)) as [t T]. rewrite T. cbn [bind]. rewrite IH; [reflexivity|]. intros; apply (H k'0); right; auto.
Qed.
