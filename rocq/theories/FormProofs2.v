(** Containers of formulas: construction, substitution, conversion to data. *)
From Coq Require Import String List ZArith QArith Qreals Reals Lra Lia Bool Permutation.
From Coquelicot Require Import Complex.
From Verif Require Import PyBase CBase DataModel FDataModel FDataProofs Expr ExprProofs LookupTable FormModel SpecForm FourierBase TableProofs FormProofs.
Import ListNotations.
Local Open Scope nat_scope.

Definition rows_wf (M : nat) (rows : dict string row) : Prop :=
  wf_dict rows /\ forall k r, In (k, r) rows -> length (r_cells r) = 2 * M + 1.
Definition ff_wf (F : fform) : Prop := rows_wf (ff_M F) (ff_rows F).

(** [symbol_list] *)
Lemma insert_sym_perm x l : Permutation (x :: l) (insert_sym x l).
Proof.
  induction l as [|y l IH]; simpl; auto. destruct (String.leb (sname x) (sname y)); auto.
  rewrite perm_swap. constructor. auto.
Qed.
Lemma sort_syms_perm l : Permutation l (sort_syms l).
Proof. induction l as [|x l IH]; simpl; auto. rewrite <- insert_sym_perm. constructor; auto. Qed.

Lemma in_symbol_list x es : In x (symbol_list es) <-> exists e, In e es /\ In x (syms e).
Proof.
  unfold symbol_list. rewrite <- in_flat_map.
  split; intros I.
  - apply (Permutation_in _ (Permutation_sym (sort_syms_perm _))) in I. apply nodup_In in I. auto.
  - apply (Permutation_in _ (sort_syms_perm _)). apply nodup_In. auto.
Qed.
Lemma NoDup_symbol_list es : NoDup (symbol_list es).
Proof. apply (Permutation_NoDup (sort_syms_perm _)), NoDup_nodup. Qed.

(** Keys of an iterable of strings. *)
Lemma wf_KStr {V} (d : dict string V) : wf_dict d -> wf_dict (map (fun kv => (KStr (fst kv), snd kv)) d).
Proof. apply (wf_key_inj (fun v => v)). Qed.

Lemma mapM_sympify es : Forall (fun x => x <> Junk) es ->
  mapM sympify es = Ok (map (fun x => match x with PyNum a b => ENum a b | SymE e => e | Junk => num 0 end) es).
Proof.
  induction 1 as [|x l Hx F IH]; simpl; auto. rewrite IH. destruct x; simpl; auto. congruence.
Qed.

Definition as_expr (x : entry) : expr := match x with PyNum a b => ENum a b | SymE e => e | Junk => num 0 end.
Definition entry_row (es : list entry) : row := mkrow (negb (forallb is_pynum es)) (map as_expr es).

Lemma entry_val_as rho x : x <> Junk -> eval rho (as_expr x) = entry_val rho x.
Proof. destruct x; simpl; auto. congruence. Qed.

Lemma ff_construct_rows (d : dict string (list entry)) M : wf_dict d ->
  (forall k es, In (k, es) d -> length es = 2 * M + 1 /\ Forall (fun x => x <> Junk) es) ->
  ff_construct (map (fun kr => (KStr (fst kr), OArr true 1 (snd kr))) d) M = Ok (mkff (dmap entry_row d) M).
Proof.
  intros W H. unfold ff_construct.
  rewrite dict_of_wf by (apply (wf_key_inj (OArr true 1)); auto).
  unfold ocheck, dkeys, dvals. rewrite !map_map; simpl.
  replace (forallb good_key _) with true.
  2:{ symmetry. apply forallb_forall. intros k I. apply in_map_iff in I as [? [<- _]]. reflexivity. }
  replace (forallb (good_oval M) _) with true.
  2:{ symmetry. apply forallb_forall. intros v I. apply in_map_iff in I as [[k es] [<- I]]. simpl.
      destruct (H _ _ I) as [L _]. rewrite L, Nat.eqb_refl. reflexivity. }
  simpl.
  assert (E : dmapM copy_row (map (fun kr => (KStr (fst kr), OArr true 1 (snd kr))) d) =
              Ok (map (fun kr => (KStr (fst kr), entry_row (snd kr))) d)).
  { clear W. induction d as [|[k es] d IH]; simpl; auto.
    destruct (H k es) as [_ J]; [left; auto|]. rewrite (mapM_sympify _ J). simpl.
    rewrite IH by (intros; eapply H; right; eauto). reflexivity. }
  rewrite E. simpl. rewrite map_map. simpl. reflexivity.
Qed.

Lemma ff_construct_bad (d : dict pykey oval) it M k v : dict_of it = d -> In (k, v) d -> good_oval M v = false ->
  ff_construct it M = Raise ValueError.
Proof.
  intros E I G. unfold ff_construct. rewrite E. unfold ocheck.
  replace (forallb (good_oval M) (dvals d)) with false.
  - rewrite andb_false_r. reflexivity.
  - symmetry. apply not_true_is_false. rewrite forallb_forall. intros H.
    rewrite (H v) in G; [discriminate|]. apply in_map_iff. exists (k, v); auto.
Qed.

Lemma mapM_length {A B} (f : A -> res B) l l' : mapM f l = Ok l' -> length l' = length l.
Proof.
  revert l'; induction l as [|a l IH]; simpl; intros l' E; [injection E as <-; auto|].
  destruct (f a); simpl in E; [|discriminate]. destruct (mapM f l); simpl in E; [|discriminate].
  injection E as <-. simpl. f_equal. auto.
Qed.

Lemma ff_construct_inv it M F : ff_construct it M = Ok F -> ff_M F = M /\ rows_wf M (ff_rows F).
Proof.
  unfold ff_construct. unfold ocheck.
  destruct (forallb good_key (dkeys (dict_of it)) && forallb (good_oval M) (dvals (dict_of it))) eqn:C; [|discriminate].
  apply andb_true_iff in C as [C1 C2]. rewrite forallb_forall in C1, C2. cbn [bind].
  destruct (dmapM copy_row (dict_of it)) as [rows|] eqn:E; [|discriminate]. cbn [bind].
  intros X; injection X as <-. split; [reflexivity|]. cbn [ff_rows]. split.
  - unfold wf_dict, dkeys. rewrite map_map. cbn [fst].
    assert (K : map fst rows = map fst (dict_of it)) by (apply (dmapM_keys _ _ _ E)).
    rewrite <- (map_map fst key_str). rewrite K.
    assert (N : NoDup (map fst (dict_of it))) by apply (wf_dict_of it).
    assert (G : forall k, In k (map fst (dict_of it)) -> good_key k = true) by (intros; apply C1; auto).
    clear - N G. induction (map fst (dict_of it)) as [|k l IH]; simpl; [constructor|].
    inversion N as [|? ? Nk Nl]; subst. constructor.
    + intros I. apply in_map_iff in I as (k' & Ek & Ik').
      assert (G1 := G k (or_introl eq_refl)). assert (G2 := G k' (or_intror Ik')).
      destruct k, k'; simpl in *; try discriminate. subst. auto.
    + apply IH; auto. intros; apply G; right; auto.
  - intros k r I. apply in_map_iff in I as ([k0 r0] & X & I). injection X as <- <-. cbn [snd].
    apply dmapM_Ok in E.
    assert (Hr : exists v, In v (dvals (dict_of it)) /\ copy_row v = Ok r0).
    { revert I. clear - E. unfold dvals. induction E as [|[a v] [b r] l l' [H1 H2] F IH]; simpl; [tauto|].
      intros [X|I]; [injection X as -> ->; exists v; auto|]. destruct (IH I) as (v' & I' & E'). exists v'; auto. }
    destruct Hr as (v & Iv & Ev). specialize (C2 v Iv). destruct v as [obj nd l|]; [|discriminate].
    simpl in C2, Ev. apply andb_true_iff in C2 as [C2 _]. apply andb_true_iff in C2 as [_ C2]. apply Nat.eqb_eq in C2.
    destruct (mapM sympify l) as [cells|] eqn:Em; [|discriminate]. simpl in Ev. injection Ev as <-. simpl.
    apply mapM_length in Em. lia.
Qed.

(** A container rebuilt from its items. *)
Lemma row_oval_obj r : r_obj r = true -> row_oval r = OArr true 1 (map SymE (r_cells r)).
Proof. intros E. unfold row_oval. rewrite E. reflexivity. Qed.

Lemma ff_items_symbolic F : symbolic F ->
  ff_items F = map (fun kr => (KStr (fst kr), OArr true 1 (snd kr))) (dmap (fun r => map SymE (r_cells r)) (ff_rows F)).
Proof.
  intros S. unfold ff_items, dmap. rewrite map_map. apply map_ext_in. intros [k r] I. cbn [fst snd].
  rewrite row_oval_obj; auto. apply (S k); auto.
Qed.

Lemma entry_row_sym r : r_obj r = true -> r_cells r <> [] -> entry_row (map SymE (r_cells r)) = r.
Proof.
  intros O N. unfold entry_row. rewrite map_map. simpl. rewrite map_id.
  destruct r as [o [|e l]]; simpl in *; congruence.
Qed.

Lemma ff_rebuild F M : ff_wf F -> symbolic F -> M = ff_M F -> ff_construct (ff_items F) M = Ok F.
Proof.
  intros [W L] S ->. rewrite ff_items_symbolic by auto. rewrite ff_construct_rows.
  - rewrite dmap_dmap. rewrite dmap_id; [destruct F; reflexivity|].
    intros k r I. apply entry_row_sym; [eapply S; eauto|]. specialize (L k r I). destruct (r_cells r); [simpl in L; lia|congruence].
  - apply wf_dmap; auto.
  - intros k es I. apply in_map_iff in I as ([k0 r] & X & I). injection X as <- <-. cbn [snd].
    rewrite map_length. split; [eapply L; eauto|]. apply Forall_forall. intros x Ix. apply in_map_iff in Ix as (e & <- & _). discriminate.
Qed.

Lemma ff_items_dict F : ff_wf F -> dict_of (ff_items F) = ff_items F.
Proof. intros [W _]. apply dict_of_wf. unfold ff_items. apply (wf_key_inj row_oval); auto. Qed.

Lemma ff_rebuild_other F M : ff_wf F -> ff_rows F <> [] -> M <> ff_M F -> ff_construct (ff_items F) M = Raise ValueError.
Proof.
  intros W N D. destruct (ff_rows F) as [|[k r] rows] eqn:E; [congruence|].
  apply (ff_construct_bad (ff_items F) _ _ (KStr k) (row_oval r)).
  - apply ff_items_dict; auto.
  - unfold ff_items. rewrite E. left. reflexivity.
  - destruct W as [_ L]. specialize (L k r). rewrite E in L. specialize (L (or_introl eq_refl)).
    unfold row_oval. cbn [good_oval]. rewrite map_length, L.
    replace (2 * ff_M F + 1 =? 2 * M + 1) with false by (symmetry; apply Nat.eqb_neq; lia). reflexivity.
Qed.

Lemma ff_rebuild_numeric F M k r : ff_wf F -> In (k, r) (ff_rows F) -> r_obj r = false -> ff_construct (ff_items F) M = Raise ValueError.
Proof.
  intros W I O. apply (ff_construct_bad (ff_items F) _ _ (KStr k) (row_oval r)).
  - apply ff_items_dict; auto.
  - unfold ff_items. apply in_map_iff. exists (k, r). auto.
  - unfold row_oval. rewrite O. simpl. apply andb_false_r.
Qed.

(** Every container a program can hold is well formed. *)
Section Ev.
Variable ev : expr -> expr.
Hypothesis EV : sound_ev ev.

Lemma map_rows_wf f F : ff_wf F -> ff_wf (map_rows f F).
Proof.
  intros [W L]. split; cbn [ff_rows ff_M map_rows].
  - apply wf_dmap; auto.
  - intros k r I. apply in_map_iff in I as ([k0 r0] & X & I). injection X as <- <-. cbn [r_cells].
    rewrite map_length, combine_length, length_freqs. cbn [snd]. rewrite (L _ _ I). lia.
Qed.

Lemma map_rows_symbolic f F : symbolic (map_rows f F).
Proof. intros k r I. apply in_map_iff in I as ([k0 r0] & X & I). injection X as <- <-. reflexivity. Qed.

Lemma ff_step_wf F o : ff_wf F -> ff_wf (ff_step ev F o).
Proof.
  intros W. destruct o; simpl; try (apply map_rows_wf; auto).
  unfold ff_subs. destruct (all_cells (ff_rows F)); simpl; auto. apply map_rows_wf; auto.
Qed.

Lemma ff_reachable_wf F : ff_reachable ev F -> ff_wf F.
Proof.
  intros (it & M & F0 & h & E & ->). apply ff_construct_inv in E as [E1 E2].
  assert (W : ff_wf F0) by (unfold ff_wf; rewrite E1; auto). clear E1 E2. revert F0 W.
  induction h as [|o h IH]; simpl; intros; auto. apply IH, ff_step_wf; auto.
Qed.

Lemma all_cells_symbolic F : symbolic F -> all_cells (ff_rows F) = Ok (flat_map (fun kr => r_cells (snd kr)) (ff_rows F)).
Proof.
  intros S. unfold all_cells. replace (forallb _ _) with true; auto.
  symmetry. apply forallb_forall. intros [k r] I. eapply S; eauto.
Qed.

Lemma free_symbols_in F ss x : ff_free_symbols F = Ok ss -> (In x ss <-> ff_occurs F x).
Proof.
  unfold ff_free_symbols, all_cells. destruct (forallb _ _); [|discriminate]. simpl. intros X; injection X as <-.
  rewrite in_symbol_list. unfold ff_occurs. split.
  - intros (e & I & Ix). apply in_flat_map in I as ([k r] & I & Ie). exists k, r, e. auto.
  - intros (k & r & e & I & Ie & Ix). exists e. split; auto. apply in_flat_map. exists (k, r). auto.
Qed.

(** Substituting numbers. *)
Lemma upd_same rho s v e : rho s = v -> eval (upd rho s v) e = eval rho e.
Proof. intros E. apply eval_ext. intros x _. unfold upd. destruct (sym_eqb_spec x s); congruence. Qed.

Lemma subs_seq_eval sa : forall rho e, respects rho -> (forall s q, In (s, q) sa -> rho s = qval q) ->
  eval rho (subs_seq ev (dmap number sa) e) = eval rho e.
Proof.
  unfold subs_seq. induction sa as [|[s q] sa IH]; simpl; intros rho e Hr H; auto.
  rewrite IH; auto. rewrite (proj1 EV) by auto. rewrite eval_subst. apply upd_same.
  rewrite (H s q) by auto. reflexivity.
Qed.

Lemma subs_seq_syms sa : forall e x, In x (syms (subs_seq ev (dmap number sa) e)) -> In x (syms e) /\ ~ In x (map fst sa).
Proof.
  unfold subs_seq. induction sa as [|[s q] sa IH]; simpl; intros e x I; [tauto|].
  apply IH in I as [I N]. apply (proj2 EV) in I. apply syms_subst in I as [[I D]|[_ []]]. split; auto. intros [->|X]; auto.
Qed.

Lemma to_complex_closed e rho : syms e = [] -> to_complex e = Ok (eval rho e).
Proof.
  intros E. unfold to_complex. rewrite E. f_equal. apply eval_ext. rewrite E. intros ? [].
Qed.

Lemma mapM_get (d : list (sym * (Q * Q))) ss : (forall s, In s ss -> In s (dkeys d)) ->
  exists sa, mapM (fun s => do v <- dgetr s d; Ok (s, number v)) ss = Ok (dmap number sa) /\ map fst sa = ss /\ incl sa d.
Proof.
  induction ss as [|s ss IH]; intros H.
  - exists []. repeat split; auto. intros ? [].
  - destruct IH as (sa & E & Ef & Ei); [intros; apply H; right; auto|].
    assert (G : dget s d <> None) by (apply dget_keys, H; left; auto).
    destruct (dget s d) as [q|] eqn:Eq; [|congruence].
    exists ((s, q) :: sa). simpl. unfold dgetr. rewrite Eq. simpl. unfold dgetr in E. rewrite E. simpl.
    split; [reflexivity|]. split; [congruence|]. intros y [<-|I]; [apply dget_In; auto|auto].
Qed.

Lemma mapM_get_err (d : list (sym * (Q * Q))) ss s : In s ss -> ~ In s (dkeys d) ->
  mapM (fun s => do v <- dgetr s d; Ok (s, number v)) ss = Raise KeyError.
Proof.
  induction ss as [|x ss IH]; simpl; [tauto|]. intros I N.
  destruct (dget x d) as [q|] eqn:Eq; unfold dgetr; rewrite Eq; simpl; auto.
  assert (x <> s). { intros ->. apply N. apply dget_keys. congruence. }
  destruct I as [->|I]; [congruence|]. specialize (IH I N). unfold dgetr in IH. rewrite IH. reflexivity.
Qed.

Lemma map_snd_combine {A B C'} (f : B -> C') (l : list A) (l' : list B) : length l = length l' ->
  map (fun p => f (snd p)) (combine l l') = map f l'.
Proof.
  revert l'; induction l as [|a l IH]; intros [|b l'] E; simpl in *; try discriminate; auto. rewrite IH; auto.
Qed.

(** The main conversion: every symbol has a number. *)
Lemma dmapM_dmap {K V W X} (f : W -> res X) (g : V -> W) (d : dict K V) : dmapM f (dmap g d) = dmapM (fun v => f (g v)) d.
Proof. induction d as [|[k v] d IH]; simpl; auto. destruct (f (g v)); simpl; auto. rewrite IH. auto. Qed.

Lemma dmapM_ext_in {K V W} (f g : V -> res W) (d : dict K V) : (forall k v, In (k, v) d -> f v = g v) -> dmapM f d = dmapM g d.
Proof.
  induction d as [|[k v] d IH]; simpl; intros H; auto. rewrite (H k v) by auto. destruct (g v); simpl; auto.
  rewrite IH; auto. intros; eapply H; eauto.
Qed.

Lemma mapM_ext_in {A B} (f g : A -> res B) l : (forall a, In a l -> f a = g a) -> mapM f l = mapM g l.
Proof.
  induction l as [|a l IH]; simpl; intros H; auto. rewrite H by auto. destruct (g a); simpl; auto. rewrite IH; auto.
Qed.

Lemma mapM_pure {A B} (f : A -> B) l : mapM (fun a => Ok (f a)) l = Ok (map f l).
Proof. induction l as [|a l IH]; simpl; auto. rewrite IH. auto. Qed.

Definition values (sa : list (sym * (Q * Q))) (e : expr) : C := eval (fun _ => RtoC 0) (subs_seq ev (dmap number sa) e).

Lemma fform_to_fdat_ok F d : ff_wf F -> symbolic F -> ff_M F = 16 -> (forall s, ff_occurs F s -> In s (dkeys d)) ->
  exists sa, incl sa d /\
    fform_to_fdat ev F d = Ok (mkfdat (dmap (fun r => map (values sa) (r_cells r)) (ff_rows F)) 1 (PNum 0) 16) /\
    forall rho k r e, In (k, r) (ff_rows F) -> In e (r_cells r) -> respects rho -> (forall s q, In (s, q) sa -> rho s = qval q) ->
      values sa e = eval rho e.
Proof.
  intros W S EM H. unfold fform_to_fdat.
  assert (Ess : exists ss, ff_free_symbols F = Ok ss).
  { unfold ff_free_symbols. rewrite all_cells_symbolic by auto. simpl. eauto. }
  destruct Ess as (ss & Ess). rewrite Ess. cbn [bind].
  assert (Iss := fun x => free_symbols_in F ss x Ess).
  destruct (mapM_get d ss) as (sa & Esa & Ef & Ei); [intros s I; apply H, Iss; auto|].
  rewrite Esa. cbn [bind]. rewrite ff_rebuild by auto. cbn [bind]. unfold ff_subs.
  rewrite all_cells_symbolic by auto. cbn [bind].
  assert (Cl : forall k r e, In (k, r) (ff_rows F) -> In e (r_cells r) -> syms (subs_seq ev (dmap number sa) e) = []).
  { intros k r e Ir Ie. destruct (syms (subs_seq ev (dmap number sa) e)) as [|x l] eqn:E; auto. exfalso.
    assert (Ix : In x (syms (subs_seq ev (dmap number sa) e))) by (rewrite E; left; auto).
    apply subs_seq_syms in Ix as [Ix Nx]. apply Nx. rewrite Ef. apply Iss. exists k, r, e. auto. }
  exists sa. split; auto. split.
  - cbn [map_rows ff_rows ff_M]. rewrite dmapM_dmap.
    rewrite (dmapM_ext_in _ (fun r => Ok (map (values sa) (r_cells r)))).
    + rewrite dmapM_pure. cbn [bind]. rewrite EM. rewrite fconstruct_items; auto.
      split; [apply wf_dmap, W|]. apply Forall_forall. intros kv I. apply in_map_iff in I as ([k r] & <- & I). cbn [snd].
      rewrite map_length. destruct W as [_ L]. rewrite (L _ _ I), EM. auto.
    + intros k r I. cbn [r_cells]. rewrite (map_snd_combine (subs_seq ev (dmap number sa))).
      2:{ destruct W as [_ L]. rewrite (L _ _ I), length_freqs. auto. }
      assert (A : forall l, incl l (r_cells r) -> mapM to_complex (map (subs_seq ev (dmap number sa)) l) = Ok (map (values sa) l)).
      { induction l as [|e l IH]; intros Il; simpl; auto.
        rewrite (to_complex_closed _ (fun _ => RtoC 0)) by (eapply Cl; eauto; apply Il; left; auto). simpl.
        rewrite IH by (intros y Iy; apply Il; right; auto). reflexivity. }
      apply A. intros y; auto.
  - intros rho k r e Ir Ie Hr Ha. unfold values.
    rewrite <- (subs_seq_eval sa rho e) by auto. apply eval_ext. rewrite (Cl k r e) by auto. intros ? [].
Qed.

Lemma fform_to_fdat_missing F d s : ff_wf F -> symbolic F -> ff_occurs F s -> ~ In s (dkeys d) ->
  fform_to_fdat ev F d = Raise KeyError.
Proof.
  intros W S O N. unfold fform_to_fdat.
  assert (Ess : exists ss, ff_free_symbols F = Ok ss).
  { unfold ff_free_symbols. rewrite all_cells_symbolic by auto. simpl. eauto. }
  destruct Ess as (ss & Ess). rewrite Ess. cbn [bind].
  rewrite (mapM_get_err d ss s); auto. apply (free_symbols_in F ss s Ess); auto.
Qed.

Lemma fform_to_fdat_other F d : ff_wf F -> ff_rows F <> [] -> ff_M F <> 16 -> exists e, fform_to_fdat ev F d = Raise e.
Proof.
  intros W N D. unfold fform_to_fdat. destruct (ff_free_symbols F) as [ss|]; simpl; eauto.
  destruct (mapM _ ss) as [sa|]; simpl; eauto. rewrite ff_rebuild_other; simpl; eauto.
Qed.

Lemma fform_to_fdat_other_value F d : ff_wf F -> symbolic F -> ff_rows F <> [] -> ff_M F <> 16 ->
  (forall s, ff_occurs F s -> In s (dkeys d)) -> fform_to_fdat ev F d = Raise ValueError.
Proof.
  intros W S N D H. unfold fform_to_fdat.
  assert (Ess : exists ss, ff_free_symbols F = Ok ss).
  { unfold ff_free_symbols. rewrite all_cells_symbolic by auto. simpl. eauto. }
  destruct Ess as (ss & Ess). rewrite Ess. cbn [bind].
  destruct (mapM_get d ss) as (sa & Esa & _); [intros s I; apply H, (free_symbols_in F ss s Ess); auto|].
  rewrite Esa. cbn [bind]. rewrite ff_rebuild_other; auto.
Qed.
End Ev.
