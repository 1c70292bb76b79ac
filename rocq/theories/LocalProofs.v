(** Every polarization is processed by itself. *)
From Coq Require Import String List Arith ZArith Bool Lia Reals QArith Qreals Lra.
From Coquelicot Require Import Complex.
Import ListNotations.
From Verif Require Import PyBase CBase RMod Expr ExprProofs DataModel SpecData FDataModel SpecFData FDataProofs FDataProofs2 FormModel SpecForm
  FormProofs FormProofs2 FormProofs3 FormProofs4 SpecLocal.
Local Open Scope nat_scope.

(** ** Dictionaries *)
Lemma some_of_In {V} (d' d : list (string * V)) k v : some_of d' d -> In (k, v) d' -> In (k, v) d.
Proof. intros (W & H) I. apply dget_In. apply H. apply In_dget; assumption. Qed.
Lemma some_of_intro {V} (d' d : list (string * V)) : wf_dict d -> NoDup (map fst d') -> incl d' d -> some_of d' d.
Proof. intros W N I. split; [exact N|]. intros k v E. apply In_dget; [exact W|]. apply I. apply dget_In. exact E. Qed.
Lemma some_of_dmap {V W} (f : V -> W) (d' d : list (string * V)) : some_of d' d -> some_of (dmap f d') (dmap f d).
Proof.
  intros (N & H). split; [apply (wf_dmap f d'); exact N|]. intros k w. rewrite !dget_dmap.
  destruct (dget k d') as [v|] eqn:E; [|discriminate]. rewrite (H k v E). auto.
Qed.
Lemma dmapM_get {V W} (f : V -> res W) (d : list (string * V)) r k : dmapM f d = Ok r ->
  match dget k d with Some v => exists w, f v = Ok w /\ dget k r = Some w | None => dget k r = None end.
Proof.
  revert r. induction d as [|(a, v) d IH]; intros r E; cbn [dmapM] in E.
  - injection E as <-. reflexivity.
  - destruct (f v) as [w|] eqn:Ef; [|discriminate]. cbn [bind] in E. destruct (dmapM f d) as [r'|] eqn:Er; [|discriminate].
    cbn [bind] in E. injection E as <-. cbn [dget]. destruct (eqb k a); [eauto|]. apply IH. reflexivity.
Qed.
Lemma some_of_dmapM {V W} (f : V -> res W) (d' d : list (string * V)) r : some_of d' d -> dmapM f d = Ok r ->
  exists r', dmapM f d' = Ok r' /\ some_of r' r /\ dkeys r' = dkeys d'.
Proof.
  intros (N & H) E.
  assert (X : exists r', dmapM f d' = Ok r').
  { assert (A : forall k v, In (k, v) d' -> exists w, f v = Ok w).
    { intros k v I. assert (G := H k v (In_dget k v d' N I)). pose proof (dmapM_get f d r k E) as Y. rewrite G in Y.
      destruct Y as (w & Y & _). eauto. }
    clear - A. induction d' as [|(k, v) d' IH]; [exists []; reflexivity|]. destruct (A k v (or_introl eq_refl)) as (w & Ew).
    destruct IH as (r' & Er); [intros k0 v0 I; apply (A k0 v0); right; exact I|]. exists ((k, w) :: r'). cbn [dmapM]. rewrite Ew, Er. reflexivity. }
  destruct X as (r' & E'). exists r'. split; [exact E'|]. pose proof (dmapM_keys f d' r' E') as K. split; [|exact K].
  split; [unfold dkeys in K; rewrite K; exact N|]. intros k w G.
  pose proof (dmapM_get f d' r' k E') as Y'. pose proof (dmapM_get f d r k E) as Y.
  destruct (dget k d') as [v|] eqn:Ev; [|congruence]. rewrite (H k v Ev) in Y. destruct Y as (w1 & F1 & G1), Y' as (w2 & F2 & G2). congruence.
Qed.
Lemma some_of_forallb {V} (p : V -> bool) (d' d : list (string * V)) : some_of d' d -> forallb p (dvals d) = true -> forallb p (dvals d') = true.
Proof.
  intros S H. rewrite forallb_forall in *. intros v I. unfold dvals in I. apply in_map_iff in I as ((k, v') & E & I). cbn in E. subst v'.
  apply H. unfold dvals. apply in_map_iff. exists (k, v). split; [reflexivity|]. exact (some_of_In d' d k v S I).
Qed.

(** ** Constructors on dictionaries with string keys *)
Lemma keys_good {V W} (g : V -> W) (d : list (string * V)) : forallb good_key (dkeys (map (fun kv => (KStr (fst kv), g (snd kv))) d)) = true.
Proof. apply forallb_forall. intros k I. unfold dkeys in I. rewrite map_map in I. apply in_map_iff in I as (x & <- & _). reflexivity. Qed.
Lemma dvals_items {V W} (g : V -> W) (d : list (string * V)) : dvals (map (fun kv => (KStr (fst kv), g (snd kv))) d) = map g (dvals d).
Proof. unfold dvals. rewrite !map_map. reflexivity. Qed.
Lemma forallb_map {A B} (p : B -> bool) (g : A -> B) l : forallb p (map g l) = forallb (fun a => p (g a)) l.
Proof. induction l as [|a l IH]; [reflexivity|]. cbn [map forallb]. rewrite IH. reflexivity. Qed.

Lemma construct_keys {V} (g : V -> pyval) (d : list (string * V)) : wf_dict d ->
  construct (map (fun kv => (KStr (fst kv), g (snd kv))) d) "radians" false =
  if forallb (fun v => good_val (g v)) (dvals d)
  then do r <- dmapM (fun v => modulate (remove_dups (columns (g v)))) d; Ok (mkdat (dmap isort r) 1 0 0 "radians" false)
  else Raise ValueError.
Proof.
  intros W. unfold construct. change (check_angle_units "radians") with (Ok tt). cbn [bind].
  rewrite dict_of_wf by (apply wf_key_inj; exact W). unfold check_iterable. rewrite keys_good, dvals_items, forallb_map. cbn [andb].
  destruct (forallb _ (dvals d)); [|reflexivity]. cbn [bind]. change (String.eqb "radians" "degrees") with false. cbn iota.
  unfold raw_dict. rewrite map_map. cbn [fst snd key_str].
  change (map (fun x => (fst x, columns (g (snd x)))) d) with (dmap (fun v => columns (g v)) d).
  rewrite dmap_dmap, dmapM_dmap. reflexivity.
Qed.
Lemma fconstruct_keys {V} (g : V -> fval) (d : list (string * V)) M : wf_dict d ->
  fconstruct (map (fun kv => (KStr (fst kv), g (snd kv))) d) M =
  if forallb (fun v => good_fval M (g v)) (dvals d) then Ok (mkfdat (dmap (fun v => fentries (g v)) d) 1 (PNum 0) M) else Raise ValueError.
Proof.
  intros W. unfold fconstruct. rewrite dict_of_wf by (apply wf_key_inj; exact W). unfold fcheck. rewrite keys_good, dvals_items, forallb_map. cbn [andb].
  destruct (forallb _ (dvals d)); [|reflexivity]. cbn [bind]. rewrite map_map. reflexivity.
Qed.
Lemma dmapM_items {V W X} (f : W -> res X) (g : V -> W) (d : list (string * V)) :
  dmapM f (map (fun kv => (KStr (fst kv), g (snd kv))) d) = do r <- dmapM (fun v => f (g v)) d; Ok (map (fun kv => (KStr (fst kv), snd kv)) r).
Proof.
  induction d as [|(k, v) d IH]; [reflexivity|]. cbn [map dmapM fst snd]. destruct (f (g v)); [|reflexivity]. cbn [bind]. rewrite IH.
  destruct (dmapM _ d); reflexivity.
Qed.
Lemma ff_construct_keys {V} (g : V -> oval) (d : list (string * V)) M : wf_dict d ->
  ff_construct (map (fun kv => (KStr (fst kv), g (snd kv))) d) M =
  if forallb (fun v => good_oval M (g v)) (dvals d) then do r <- dmapM (fun v => copy_row (g v)) d; Ok (mkff r M) else Raise ValueError.
Proof.
  intros W. unfold ff_construct. rewrite dict_of_wf by (apply wf_key_inj; exact W). unfold ocheck. rewrite keys_good, dvals_items, forallb_map. cbn [andb].
  destruct (forallb _ (dvals d)); [|reflexivity]. cbn [bind]. rewrite dmapM_items. destruct (dmapM _ d) as [r|]; [|reflexivity]. cbn [bind].
  rewrite map_map. cbn [fst snd key_str]. do 2 f_equal. clear. induction r as [|(k, x) r IH]; [reflexivity|]. cbn [map fst snd]. congruence.
Qed.

(** ** Conversions *)
Lemma local_construct {V} (g : V -> pyval) (d' d : list (string * V)) D : wf_dict d -> some_of d' d ->
  construct (map (fun kv => (KStr (fst kv), g (snd kv))) d) "radians" false = Ok D ->
  exists D', construct (map (fun kv => (KStr (fst kv), g (snd kv))) d') "radians" false = Ok D' /\ get_keys D' = dkeys d' /\ some_of (dc_data D') (dc_data D).
Proof.
  intros W S. rewrite construct_keys by exact W. rewrite construct_keys by apply S.
  destruct (forallb _ (dvals d)) eqn:B; [|discriminate]. rewrite (some_of_forallb _ d' d S B).
  destruct (dmapM _ d) as [r|] eqn:E; [|discriminate]. cbn [bind]. intros X. injection X as <-.
  destruct (some_of_dmapM _ d' d r S E) as (r' & E' & Sr & K). rewrite E'. cbn [bind]. eexists. split; [reflexivity|]. unfold get_keys. cbn [dc_data].
  split; [rewrite dkeys_dmap; exact K|]. apply some_of_dmap. exact Sr.
Qed.
Lemma local_fconstruct (d' d : list (string * list C)) M f : wf_dict d -> some_of d' d ->
  fconstruct (fitems d) M = Ok f -> exists f', fconstruct (fitems d') M = Ok f' /\ fget_keys f' = dkeys d' /\ some_of (fd_data f') (fd_data f) /\ fd_M f' = fd_M f.
Proof.
  intros W S. unfold fitems. rewrite (fconstruct_keys (FArr true 1)) by exact W. rewrite (fconstruct_keys (FArr true 1)) by apply S.
  destruct (forallb _ (dvals d)) eqn:B; [|discriminate]. rewrite (some_of_forallb _ d' d S B). intros X. injection X as <-.
  eexists. split; [reflexivity|]. unfold fget_keys. cbn [fd_data fd_M]. rewrite dkeys_dmap. split; [reflexivity|]. split; [|reflexivity].
  apply some_of_dmap. exact S.
Qed.

Lemma local_dat_to_fdat interp d d' M f : wf_dict (dc_data d) -> some_of (dc_data d') (dc_data d) -> dat_to_fdat interp d M = Ok f ->
  exists f', dat_to_fdat interp d' M = Ok f' /\ fget_keys f' = get_keys d' /\ some_of (fd_data f') (fd_data f) /\ fd_M f' = fd_M f.
Proof.
  intros W S. unfold dat_to_fdat. destruct (dmapM _ (dc_data d)) as [r|] eqn:E; [|discriminate]. cbn [bind]. intros X.
  destruct (some_of_dmapM _ (dc_data d') (dc_data d) r S E) as (r' & E' & Sr & K). rewrite E'. cbn [bind]. unfold get_keys. rewrite <- K.
  refine (local_fconstruct r' r M f _ Sr X). unfold wf_dict. rewrite (dmapM_keys _ _ _ E). exact W.
Qed.

Lemma local_fdat_to_dat f f' n d : wf_dict (fd_data f) -> some_of (fd_data f') (fd_data f) -> fd_M f' = fd_M f -> fdat_to_dat f n = Ok d ->
  exists d', fdat_to_dat f' n = Ok d' /\ get_keys d' = fget_keys f' /\ some_of (dc_data d') (dc_data d).
Proof.
  intros W S EM. unfold fdat_to_dat. rewrite EM. cbv zeta.
  exact (local_construct (fun v => NDArray 2 DFloat [grid n; map (fun x => Re (synth (fd_M f) v x)) (grid n)]) (fd_data f') (fd_data f) d W S).
Qed.

(** ** Formulas *)
Section Ev.
Variable ev : expr -> expr.
Hypothesis EV : sound_ev ev.

Lemma local_form_to_fform (f f' : list (string * expr)) M F : wf_dict f -> some_of f' f -> form_to_fform ev f M = Ok F ->
  exists F', form_to_fform ev f' M = Ok F' /\ ff_get_keys F' = dkeys f' /\ some_of (ff_rows F') (ff_rows F) /\ ff_M F' = ff_M F.
Proof.
  intros W S. unfold form_to_fform. destruct (dmapM _ f) as [r|] eqn:E; [|discriminate]. cbn [bind].
  destruct (some_of_dmapM _ f' f r S E) as (r' & E' & Sr & K). rewrite E'. cbn [bind].
  assert (Wr : wf_dict r) by (unfold wf_dict; rewrite (dmapM_keys _ _ _ E); exact W).
  rewrite (ff_construct_keys (OArr true 1)) by exact Wr. rewrite (ff_construct_keys (OArr true 1)) by apply Sr.
  destruct (forallb _ (dvals r)) eqn:B; [|discriminate]. rewrite (some_of_forallb _ r' r Sr B).
  destruct (dmapM _ r) as [q|] eqn:Eq; [|discriminate]. cbn [bind]. intros X. injection X as <-.
  destruct (some_of_dmapM _ r' r q Sr Eq) as (q' & Eq' & Sq & Kq). rewrite Eq'. cbn [bind]. eexists. split; [reflexivity|].
  unfold ff_get_keys. cbn [ff_rows ff_M]. split; [congruence|]. split; [exact Sq|reflexivity].
Qed.

Lemma local_fform_to_form F F' f : ff_wf F -> some_of (ff_rows F') (ff_rows F) -> ff_M F' = ff_M F -> fform_to_form ev F = Ok f ->
  exists f', fform_to_form ev F' = Ok f' /\ dkeys f' = ff_get_keys F' /\ some_of f' f.
Proof.
  intros W S EM. rewrite fform_to_form_ok by exact W. intros X. injection X as <-.
  assert (W' : ff_wf F').
  { split; [apply S|]. intros k r I. rewrite EM. apply (proj2 W k r). exact (some_of_In _ _ k r S I). }
  rewrite fform_to_form_ok by exact W'. eexists. split; [reflexivity|]. split; [apply dkeys_dmap|]. rewrite EM. apply some_of_dmap. exact S.
Qed.

Lemma fform_to_fdat_inv F d fd : ff_wf F -> fform_to_fdat ev F d = Ok fd ->
  symbolic F /\ (ff_rows F <> [] -> ff_M F = 16) /\ forall s, ff_occurs F s -> In s (dkeys d).
Proof.
  intros W Ef.
  assert (Sy : symbolic F).
  { intros k r I. destruct (r_obj r) eqn:O; auto. exfalso. unfold fform_to_fdat, ff_free_symbols, all_cells in Ef.
    replace (forallb (fun kr => r_obj (snd kr)) (ff_rows F)) with false in Ef; [discriminate|].
    symmetry. apply not_true_is_false. rewrite forallb_forall. intros A. specialize (A _ I). simpl in A. congruence. }
  split; [exact Sy|]. split.
  - intros Ne. destruct (Nat.eq_dec (ff_M F) 16); auto. exfalso. destruct (fform_to_fdat_other ev F d W Ne n) as [e X]. congruence.
  - intros s O. destruct (in_dec sym_eq_dec s (dkeys d)) as [|N]; auto. exfalso.
    rewrite (fform_to_fdat_missing ev F d s W Sy O N) in Ef. discriminate.
Qed.

Lemma fform_to_fdat_empty F d : ff_rows F = [] -> fform_to_fdat ev F d = Ok (mkfdat [] 1 (PNum 0) 16).
Proof. intros E. unfold fform_to_fdat, ff_free_symbols, all_cells, ff_items. rewrite E. reflexivity. Qed.

Lemma local_fform_to_fdat F F' d fd rho : ff_wf F -> some_of (ff_rows F') (ff_rows F) -> ff_M F' = ff_M F -> respects rho -> agrees rho d ->
  fform_to_fdat ev F d = Ok fd ->
  exists fd', fform_to_fdat ev F' d = Ok fd' /\ fget_keys fd' = ff_get_keys F' /\ some_of (fd_data fd') (fd_data fd) /\ fd_M fd' = fd_M fd.
Proof.
  intros W S EM Hr Ha E. destruct (fform_to_fdat_inv F d fd W E) as (Sy & M16 & Oc).
  destruct (ff_rows F) as [|kr rows] eqn:ER.
  { assert (E' : ff_rows F' = []).
    { destruct (ff_rows F') as [|(k, r) l]; [reflexivity|exfalso]. exact (some_of_In _ _ k r S (or_introl eq_refl)). }
    rewrite (fform_to_fdat_empty F d ER) in E. injection E as <-. rewrite (fform_to_fdat_empty F' d E'). eexists. split; [reflexivity|].
    unfold fget_keys, ff_get_keys. rewrite E'. split; [reflexivity|]. split; [|reflexivity]. split; [constructor|]. intros k v X. discriminate X. }
  rewrite <- ER in *. assert (Ne : ff_rows F <> []) by (rewrite ER; discriminate). specialize (M16 Ne).
  destruct (fform_to_fdat_ok ev EV F d W Sy M16 Oc) as (sa & Isa & Efd & V). rewrite E in Efd. apply (f_equal (fun r => match r with Ok a => a | Raise _ => fd end)) in Efd. cbn iota in Efd. subst fd.
  assert (W' : ff_wf F').
  { split; [apply S|]. intros k r I. rewrite EM. apply (proj2 W k r). exact (some_of_In _ _ k r S I). }
  assert (Sy' : symbolic F') by (intros k r I; apply (Sy k r); exact (some_of_In _ _ k r S I)).
  assert (Oc' : forall s, ff_occurs F' s -> In s (dkeys d)).
  { intros s (k & r & e & I & J & K). apply Oc. exists k, r, e. split; [exact (some_of_In _ _ k r S I)|]. auto. }
  destruct (fform_to_fdat_ok ev EV F' d W' Sy' (eq_trans EM M16) Oc') as (sa' & Isa' & Efd' & V').
  eexists. split; [exact Efd'|]. unfold fget_keys, ff_get_keys. cbn [fd_data fd_M]. rewrite dkeys_dmap. split; [reflexivity|]. split; [|reflexivity].
  split; [apply wf_dmap; apply S|]. intros k v. rewrite !dget_dmap. destruct (dget k (ff_rows F')) as [r|] eqn:G; [|discriminate].
  rewrite (proj2 S k r G). cbn [option_map]. intros X. injection X as <-. f_equal. apply map_ext_in. intros e Ie.
  assert (I' : In (k, r) (ff_rows F')) by (apply dget_In; exact G).
  rewrite (V rho k r e (some_of_In _ _ k r S I') Ie Hr (fun s q Iq => Ha s q (Isa _ Iq))).
  rewrite (V' rho k r e I' Ie Hr (fun s q Iq => Ha s q (Isa' _ Iq))). reflexivity.
Qed.

Lemma fd_wf_of F d fd rho : ff_wf F -> respects rho -> agrees rho d -> fform_to_fdat ev F d = Ok fd -> wf_dict (fd_data fd).
Proof.
  intros W Hr Ha E. destruct (local_fform_to_fdat F F d fd rho W) as (fd' & E' & _ & (N & _) & _); auto.
  - split; [apply W|auto].
  - rewrite E in E'. injection E' as <-. exact N.
Qed.

Lemma local_fform_to_dat F F' d n D rho : ff_wf F -> some_of (ff_rows F') (ff_rows F) -> ff_M F' = ff_M F -> respects rho -> agrees rho d ->
  fform_to_dat ev F d n = Ok D ->
  exists D', fform_to_dat ev F' d n = Ok D' /\ get_keys D' = ff_get_keys F' /\ some_of (dc_data D') (dc_data D).
Proof.
  intros W S EM Hr Ha. unfold fform_to_dat. destruct (fform_to_fdat ev F d) as [fd|] eqn:E; [|discriminate]. cbn [bind]. intros X.
  destruct (local_fform_to_fdat F F' d fd rho W S EM Hr Ha E) as (fd' & E' & K & Sf & EMf). rewrite E'. cbn [bind]. rewrite <- K.
  exact (local_fdat_to_dat fd fd' n D (fd_wf_of F d fd rho W Hr Ha E) Sf EMf X).
Qed.

Lemma local_form_to_fdat (f f' : list (string * expr)) d M fd rho : wf_dict f -> some_of f' f -> respects rho -> agrees rho d ->
  form_to_fdat ev f d M = Ok fd ->
  exists fd', form_to_fdat ev f' d M = Ok fd' /\ fget_keys fd' = dkeys f' /\ some_of (fd_data fd') (fd_data fd) /\ fd_M fd' = fd_M fd.
Proof.
  intros W S Hr Ha. unfold form_to_fdat. destruct (form_to_fform ev f M) as [F|] eqn:E; [|discriminate]. cbn [bind]. intros X.
  destruct (local_form_to_fform f f' M F W S E) as (F' & E' & K & SF & EM). rewrite E'. cbn [bind]. rewrite <- K.
  assert (WF : ff_wf F).
  { unfold form_to_fform in E. destruct (dmapM _ f) as [r|]; [|discriminate]. cbn [bind] in E. apply ff_construct_inv in E as (EM' & Wf).
    unfold ff_wf. rewrite EM'. exact Wf. }
  exact (local_fform_to_fdat F F' d fd rho WF SF EM Hr Ha X).
Qed.

Lemma local_form_to_dat (f f' : list (string * expr)) d n D rho x1 x2 : wf_dict f -> some_of f' f -> 0 < n -> respects rho -> agrees rho d ->
  form_to_dat ev f d n = Ok D -> (exists k e, In (k, e) f' /\ eval (at_phi rho x1) e <> eval (at_phi rho x2) e) ->
  exists D', form_to_dat ev f' d n = Ok D' /\ get_keys D' = dkeys f' /\ some_of (dc_data D') (dc_data D).
Proof.
  intros W S P Hr Ha E (k & e & I & V). pose proof (form_to_dat_gate ev f d n D W E) as G.
  rewrite (form_to_dat_ok ev f d n W P G) in E. injection E as <-.
  assert (Only : forall k e y, In (k, e) f -> In y (syms (subs_seq ev (dmap number d) e)) -> y = phi).
  { intros k0 e0 y I0 Iy. assert (X : In y (symbol_list (dvals (form_subs ev f (dmap number d))))).
    { apply in_symbol_list. exists (subs_seq ev (dmap number d) e0). split; auto.
      unfold dvals, form_subs, dmap. rewrite map_map. apply in_map_iff. exists (k0, e0). auto. }
    rewrite G in X. destruct X as [X|[]]; auto. }
  assert (Np : ~ In phi (dkeys d)).
  { intros Ip. assert (X : In phi (symbol_list (dvals (form_subs ev f (dmap number d))))) by (rewrite G; left; auto).
    apply in_symbol_list in X as (e1 & Ie & Ip'). unfold dvals, form_subs, dmap in Ie. rewrite map_map in Ie.
    apply in_map_iff in Ie as ([k0 e0] & <- & I0). apply (subs_seq_syms ev EV) in Ip' as [_ N].
    apply N. exact Ip. }
  assert (G' : symbol_list (dvals (form_subs ev f' (dmap number d))) = [phi]).
  { apply single_symbol.
    - exists (subs_seq ev (dmap number d) e). split.
      { unfold dvals, form_subs, dmap. rewrite map_map. apply in_map_iff. exists (k, e). auto. }
      assert (Ag : forall x, agrees (at_phi rho x) d).
      { intros x s q Iq. unfold at_phi. destruct (sym_eqb_spec s phi) as [->|]; [|apply Ha; exact Iq]. exfalso. apply Np. exact (in_map fst _ _ Iq). }
      destruct (in_dec sym_eq_dec phi (syms (subs_seq ev (dmap number d) e))) as [|N]; [assumption|exfalso]. apply V.
      rewrite <- (subs_seq_eval ev EV d (at_phi rho x1) e), <- (subs_seq_eval ev EV d (at_phi rho x2) e);
        try (apply Ag); try (apply respects_at_phi; exact Hr).
      apply eval_ext. intros s Is. assert (s = phi) by (apply (Only k e); [exact (some_of_In _ _ k e S I)|exact Is]). subst s. contradiction.
    - intros e0 y Ie Iy. unfold dvals, form_subs, dmap in Ie. rewrite map_map in Ie. apply in_map_iff in Ie as ((k0, e1) & <- & I0).
      apply (Only k0 e1); [exact (some_of_In _ _ k0 e1 S I0)|exact Iy]. }
  rewrite (form_to_dat_ok ev f' d n (proj1 S) P G'). eexists. split; [reflexivity|]. unfold get_keys. cbn [dc_data]. rewrite dkeys_dmap.
  split; [reflexivity|]. apply some_of_dmap. exact S.
Qed.
End Ev.

(** ** Edits of data *)
Lemma filter_loop_Ok f (d : list (string * pts)) : snd (filter_loop f d) = Ok tt ->
  dmapM (fun v => do ys <- f (map snd v); if Nat.eqb (length ys) (length v) then Ok (combine (map fst v) ys) else Raise ValueError) d = Ok (fst (filter_loop f d)).
Proof.
  induction d as [|(k, v) d IH]; [reflexivity|]. cbn [filter_loop dmapM]. destruct (f (map snd v)) as [ys|]; [|discriminate]. cbn [bind].
  destruct (Nat.eqb (length ys) (length v)); [|discriminate]. cbn [bind]. destruct (filter_loop f d) as (x, r). cbn [fst snd] in *. intros E. rewrite (IH E). reflexivity.
Qed.
Lemma filter_loop_back f (d : list (string * pts)) r :
  dmapM (fun v => do ys <- f (map snd v); if Nat.eqb (length ys) (length v) then Ok (combine (map fst v) ys) else Raise ValueError) d = Ok r ->
  filter_loop f d = (r, Ok tt).
Proof.
  revert r. induction d as [|(k, v) d IH]; intros r; cbn [filter_loop dmapM].
  - intros E. injection E as <-. reflexivity.
  - destruct (f (map snd v)) as [ys|]; [|discriminate]. cbn [bind]. destruct (Nat.eqb (length ys) (length v)); [|discriminate]. cbn [bind].
    destruct (dmapM _ d) as [r'|]; [|discriminate]. cbn [bind]. intros E. injection E as <-. rewrite (IH r' eq_refl). reflexivity.
Qed.

Lemma local_step d d' o d1 : (forall x, o <> ONormalize x) -> o <> OSubtractMin -> some_of (dc_data d') (dc_data d) ->
  step d o = (d1, Ok tt) -> exists d1', step d' o = (d1', Ok tt) /\ get_keys d1' = get_keys d' /\ some_of (dc_data d1') (dc_data d1).
Proof.
  intros N1 N2 S. destruct o as [f|x| |a u|f]; cbn [step].
  - unfold scale_data. destruct (Rltb f 0); [discriminate|]. intros E. injection E as <-. eexists. split; [reflexivity|]. unfold get_keys. cbn [dc_data].
    rewrite dkeys_dmap. split; [reflexivity|]. apply some_of_dmap. exact S.
  - destruct (N1 x eq_refl).
  - congruence.
  - unfold phase_shift_data. destruct (check_angle_units (lower u)); [|discriminate]. intros E. injection E as <-. eexists. split; [reflexivity|].
    unfold get_keys, sort_dict. cbn [dc_data]. rewrite !dkeys_dmap. split; [reflexivity|]. apply some_of_dmap, some_of_dmap. exact S.
  - unfold filter_data. destruct (filter_loop f (dc_data d)) as (x, r) eqn:E. intros X. injection X as <- ->.
    pose proof (filter_loop_Ok f (dc_data d)) as Y. rewrite E in Y. specialize (Y eq_refl). cbn [fst] in Y.
    destruct (some_of_dmapM _ (dc_data d') (dc_data d) x S Y) as (x' & E' & Sx & K). rewrite (filter_loop_back f _ x' E').
    eexists. split; [reflexivity|]. unfold get_keys. cbn [set_data dc_data]. split; [exact K|exact Sx].
Qed.
