(** What the constructors of Fourier data and formulas accept and keep. *)
From Coq Require Import String List Arith Bool Reals Lia.
From Coquelicot Require Import Complex.
From Verif Require Import PyBase DataModel SpecData DataProofs FDataModel Expr FormModel SpecAccept.
Import ListNotations.
Local Open Scope nat_scope.

Lemma last_given_dget {V} (it : list (pykey * V)) k v : dget k (dict_of it) = Some v <-> last_given it k v.
Proof.
  rewrite dget_dict_of. split.
  - intros E. assert (H : forall l, dget k l = Some v -> exists a b, l = a ++ (k, v) :: b /\ ~ In k (map fst a)).
    { induction l as [|(k', v') l IH]; cbn [dget]; [discriminate|]. destruct (eqb_spec k k') as [<-|N].
      - intros X. injection X as <-. exists [], l. split; [reflexivity|intros []].
      - intros X. destruct (IH X) as (a & b & -> & Na). exists ((k', v') :: a), b. split; [reflexivity|]. cbn. intros [Y|Y]; [congruence|auto]. }
    destruct (H _ E) as (a & b & Er & Na). exists (rev b), (rev a). split.
    + apply (f_equal (@rev _)) in Er. rewrite rev_involutive, rev_app_distr in Er. cbn [rev] in Er. rewrite <- app_assoc in Er. exact Er.
    + rewrite map_rev, <- in_rev. exact Na.
  - intros (a & b & -> & Nb). rewrite rev_app_distr. cbn [rev]. rewrite <- app_assoc. cbn [app].
    assert (H : forall l r, ~ In k (map fst l) -> dget k (l ++ (k, v) :: r) = Some v).
    { induction l as [|(k', v') l IH]; intros r N; cbn [app dget].
      - destruct (eqb_spec k k); congruence.
      - cbn in N. destruct (eqb_spec k k') as [<-|D]; [tauto|]. apply IH. tauto. }
    apply H. rewrite map_rev, <- in_rev. exact Nb.
Qed.
Lemma last_given_fun {V} (it : list (pykey * V)) k v v' : last_given it k v -> last_given it k v' -> v = v'.
Proof. rewrite <- !last_given_dget. congruence. Qed.
Lemma checked {V} (it : list (pykey * V)) (good : V -> bool) :
  forallb good_key (dkeys (dict_of it)) && forallb good (dvals (dict_of it)) = true <->
  forall pk, In pk (map fst it) -> exists k v, pk = KStr k /\ last_given it pk v /\ good v = true.
Proof.
  rewrite andb_true_iff, !forallb_forall. split.
  - intros (A & B) pk I. apply In_dkeys_dict_of in I. pose proof (A pk I) as Gk. destruct pk as [k|k]; [|discriminate].
    destruct (dget (KStr k) (dict_of it)) as [v|] eqn:E; [|apply dget_None in E; contradiction]. exists k, v. split; [reflexivity|].
    split; [apply last_given_dget; exact E|]. apply B. apply dget_In in E. apply (in_map snd) in E. exact E.
  - intros H. split.
    + intros pk I. apply (proj1 (In_dkeys_dict_of _ _)) in I. destruct (H pk I) as (k & v & -> & _). reflexivity.
    + intros v I. unfold dvals in I. apply in_map_iff in I as ((pk, v') & E & I). cbn in E. subst v'. assert (I' := I). apply (in_map fst) in I'. cbn [fst] in I'.
      apply (proj1 (In_dkeys_dict_of it pk)) in I'. destruct (H pk I') as (k & w & -> & L & G). apply last_given_dget in L.
      rewrite (In_dget _ _ _ (wf_dict_of it) I) in L. congruence.
Qed.
Lemma dget_key_str {V W} (g : V -> W) (d : list (pykey * V)) k : forallb good_key (dkeys d) = true ->
  dget k (map (fun kv => (key_str (fst kv), g (snd kv))) d) = option_map g (dget (KStr k) d).
Proof.
  induction d as [|(pk, v) d IH]; intros G; [reflexivity|]. cbn [dkeys map forallb fst] in G. apply andb_true_iff in G as (Ga & Gb).
  destruct pk as [k'|k']; [|discriminate]. cbn [map dget fst snd key_str]. destruct (eqb_spec k k') as [<-|N].
  - destruct (eqb_spec (KStr k) (KStr k)); [reflexivity|congruence].
  - destruct (eqb_spec (KStr k) (KStr k')); [congruence|]. apply IH. exact Gb.
Qed.
Lemma keys_key_str {V W} (g : V -> W) (d : list (pykey * V)) : forallb good_key (dkeys d) = true ->
  map KStr (map fst (map (fun kv => (key_str (fst kv), g (snd kv))) d)) = dkeys d.
Proof.
  intros G. unfold dkeys. rewrite !map_map. apply map_ext_in. intros (pk, v) I. cbn [fst]. rewrite forallb_forall in G.
  specialize (G pk (in_map fst _ _ I)). destruct pk; [reflexivity|discriminate].
Qed.

(** Fourier data *)
Lemma fourier_checked it M : forallb good_key (dkeys (dict_of it)) && forallb (good_fval M) (dvals (dict_of it)) = true <-> fourier_input it M.
Proof.
  rewrite checked. split; intros H pk I.
  - destruct (H pk I) as (k & v & E & L & G). destruct v as [c n l|]; [|discriminate]. cbn in G.
    rewrite !andb_true_iff, !Nat.eqb_eq in G. destruct G as ((-> & ->) & Ll). exists k, l. auto.
  - destruct (H pk I) as (k & l & E & L & Ll). exists k, (FArr true 1 l). split; [exact E|]. split; [exact L|]. cbn [good_fval]. apply Nat.eqb_eq in Ll. rewrite Ll. reflexivity.
Qed.
Lemma fourier_accepts it M :
  (fourier_input it M -> exists f, fconstruct it M = Ok f /\ map KStr (fget_keys f) = first_occ (map fst it) /\
     (forall k l, last_given it (KStr k) (FArr true 1 l) -> fget_pc f k = Ok l) /\ fget_M f = M /\ fget_scale f = 1%R /\ fget_phase_shift f "radians" = Ok (PNum 0)) /\
  (~ fourier_input it M -> fconstruct it M = Raise ValueError).
Proof.
  rewrite <- fourier_checked. unfold fconstruct, fcheck. set (b := _ && _). destruct b eqn:B; unfold b in B; cbn [bind].
  - split; [intros _|intros N; destruct (N eq_refl)]. apply andb_true_iff in B as (B1 & B2). eexists. split; [reflexivity|].
    split; [cbn [fget_keys fd_data]; unfold fget_keys, dkeys; cbn [fd_data]; rewrite (keys_key_str fentries) by exact B1; apply dkeys_dict_of|].
    split; [|repeat split; reflexivity]. intros k l L. apply last_given_dget in L. unfold fget_pc, dgetr. cbn [fd_data].
    rewrite (dget_key_str fentries) by exact B1. rewrite L. reflexivity.
  - split; [discriminate|reflexivity].
Qed.

(** Fourier formulas *)
Lemma sympify_rows l : ~ In Junk l -> exists cells, mapM sympify l = Ok cells /\ Forall2 entry_is l cells.
Proof.
  induction l as [|x l IH]; intros N; [exists []; split; [reflexivity|constructor]|]. destruct IH as (cells & E & F); [intros I; apply N; right; exact I|].
  cbn [mapM]. rewrite E. destruct x as [a b|e|]; cbn [sympify bind].
  - exists (ENum a b :: cells). split; [reflexivity|constructor; [reflexivity|exact F]].
  - exists (e :: cells). split; [reflexivity|constructor; [reflexivity|exact F]].
  - exfalso. apply N. left. reflexivity.
Qed.
Lemma sympify_junk l : In Junk l -> mapM sympify l = Raise ValueError.
Proof.
  induction l as [|x l IH]; intros J; [destruct J|]. destruct J as [-> |I]; [reflexivity|]. cbn [mapM]. rewrite (IH I). destruct x; reflexivity.
Qed.
Lemma sympify_only l e : mapM sympify l = Raise e -> e = ValueError.
Proof.
  induction l as [|x l IH]; cbn [mapM]; [discriminate|]. destruct x as [a b|y|]; cbn [sympify bind]; try congruence;
    destruct (mapM sympify l); cbn [bind]; intros E; try discriminate; apply IH; congruence.
Qed.
Definition good_row (M : nat) (v : oval) : bool :=
  good_oval M v && match v with OArr _ _ l => forallb (fun x => match x with Junk => false | _ => true end) l | ONotArr => false end.
Lemma no_junk l : forallb (fun x => match x with Junk => false | _ => true end) l = true <-> ~ In Junk l.
Proof.
  rewrite forallb_forall. split.
  - intros H I. specialize (H _ I). discriminate.
  - intros N x I. destruct x; try reflexivity. contradiction.
Qed.
Lemma formula_checked it M : forallb good_key (dkeys (dict_of it)) && forallb (good_row M) (dvals (dict_of it)) = true <-> formula_input it M.
Proof.
  rewrite checked. split; intros H pk I.
  - destruct (H pk I) as (k & v & E & L & G). destruct v as [o n l|]; [|discriminate]. unfold good_row in G. cbn [good_oval] in G.
    rewrite !andb_true_iff, !Nat.eqb_eq, no_junk in G. destruct G as (((-> & Ll) & ->) & N). exists k, l. auto.
  - destruct (H pk I) as (k & l & E & L & Ll & N). exists k, (OArr true 1 l). split; [exact E|]. split; [exact L|]. unfold good_row. cbn [good_oval].
    apply Nat.eqb_eq in Ll. rewrite Ll. apply no_junk in N. rewrite N. reflexivity.
Qed.
Lemma dmapM_dget {K V W} `{Eqb K} (f : V -> res W) (d : list (K * V)) d' k : dmapM f d = Ok d' ->
  match dget k d with Some v => exists w, f v = Ok w /\ dget k d' = Some w | None => dget k d' = None end.
Proof.
  revert d'. induction d as [|(k', v) d IH]; intros d' E; cbn [dmapM] in E.
  - injection E as <-. reflexivity.
  - destruct (f v) as [w|] eqn:Ev; cbn [bind] in E; [|discriminate]. destruct (dmapM f d) as [d1|]; cbn [bind] in E; [|discriminate]. injection E as <-.
    cbn [dget]. destruct (eqb k k'); [exists w; auto|apply IH; reflexivity].
Qed.
Lemma dmapM_fails {K V W} `{Eqb K} (f : V -> res W) (d : list (K * V)) x : (forall v, In v (dvals d) -> (exists w, f v = Ok w) \/ f v = Raise x) ->
  (exists d', dmapM f d = Ok d' /\ forall v, In v (dvals d) -> exists w, f v = Ok w) \/ (dmapM f d = Raise x /\ exists v, In v (dvals d) /\ f v = Raise x).
Proof.
  induction d as [|(k, v) d IH]; intros G; cbn [dmapM].
  - left. exists []. split; [reflexivity|intros v []].
  - cbn [dvals map snd] in *. destruct (G v (or_introl eq_refl)) as [(w & E)|E]; rewrite E; cbn [bind].
    + destruct IH as [(d' & -> & A)|(-> & v' & I & E')]; [intros v' I; apply G; right; exact I| |]; cbn [bind].
      * left. eexists. split; [reflexivity|]. intros v' [<-|I]; [eauto|apply A; exact I].
      * right. split; [reflexivity|]. exists v'. split; [right; exact I|exact E'].
    + right. split; [reflexivity|]. exists v. split; [left; reflexivity|exact E].
Qed.
Lemma formula_accepts it M :
  (formula_input it M -> exists F, ff_construct it M = Ok F /\ map KStr (ff_get_keys F) = first_occ (map fst it) /\ ff_M F = M /\
     forall k l, last_given it (KStr k) (OArr true 1 l) -> exists cells, ff_get_pc F k = Ok cells /\ Forall2 entry_is l cells) /\
  (~ formula_input it M -> ff_construct it M = Raise ValueError).
Proof.
  unfold ff_construct, ocheck. set (d := dict_of it). set (b := _ && _).
  assert (Cr : forall v, good_oval M v = true -> (exists w, copy_row v = Ok w) \/ copy_row v = Raise ValueError).
  { intros [o n l|] G; [|discriminate]. cbn [copy_row]. destruct (mapM sympify l) eqn:E; cbn [bind]; [left; eauto|right]. apply sympify_only in E. congruence. }
  assert (Jk : forall v, good_oval M v = true -> (exists w, copy_row v = Ok w) <-> good_row M v = true).
  { intros [o n l|] G; [|discriminate]. unfold good_row. rewrite G. cbn [andb copy_row]. rewrite no_junk. split.
    - intros (w & E) J. rewrite (sympify_junk l J) in E. discriminate.
    - intros J. destruct (sympify_rows l J) as (cells & -> & _). cbn [bind]. eauto. }
  destruct b eqn:B; unfold b in B; cbn [bind].
  - apply andb_true_iff in B as (B1 & B2). rewrite forallb_forall in B2.
    destruct (dmapM_fails copy_row d ValueError) as [(rows & Er & A)|(Er & v & I & Ev)]; [intros v I; apply Cr, B2; exact I| |]; rewrite Er; cbn [bind].
    + split.
      * intros _. eexists. split; [reflexivity|]. assert (Kr : dkeys rows = dkeys d) by exact (dmapM_keys _ _ _ Er).
        split; [|split; [reflexivity|]].
        { unfold ff_get_keys, dkeys. cbn [ff_rows]. rewrite (keys_key_str (fun r : row => r)) by (rewrite Kr; exact B1). rewrite Kr. apply dkeys_dict_of. }
        intros k l L. apply last_given_dget in L. fold d in L. pose proof (dmapM_dget _ _ _ (KStr k) Er) as G. rewrite L in G. destruct G as (w & Ew & Gw).
        unfold ff_get_pc, dgetr. cbn [ff_rows]. rewrite (dget_key_str (fun r : row => r)) by (rewrite Kr; exact B1). rewrite Gw. cbn [option_map bind].
        cbn [copy_row] in Ew. destruct (mapM sympify l) as [cells|] eqn:El; cbn [bind] in Ew; [|discriminate]. injection Ew as <-. exists cells. split; [reflexivity|].
        destruct (sympify_rows l) as (cells' & E' & F'); [|congruence]. intros J. rewrite (sympify_junk l J) in El. discriminate.
      * intros N. exfalso. apply N. apply formula_checked. fold d. rewrite B1. cbn [andb]. apply forallb_forall. intros v I. apply Jk; [apply B2; exact I|apply A; exact I].
    + split; [|reflexivity]. intros Y. exfalso. apply formula_checked in Y. fold d in Y. apply andb_true_iff in Y as (_ & Y). rewrite forallb_forall in Y.
      destruct (proj2 (Jk v (B2 v I)) (Y v I)) as (w & Ew). congruence.
  - split; [|reflexivity]. intros Y. exfalso. apply formula_checked in Y. fold d in Y. apply andb_true_iff in Y as (Y1 & Y2). rewrite Y1 in B. cbn [andb] in B.
    assert (forallb (good_oval M) (dvals d) = true); [|congruence]. rewrite forallb_forall in *. intros v I. specialize (Y2 v I). unfold good_row in Y2.
    apply andb_true_iff in Y2. tauto.
Qed.

(** Formulas *)
Lemma form_accepts it :
  (form_input it -> exists f, form_construct it = Ok f /\ map KStr (dkeys f) = first_occ (map fst it) /\
     forall k e, last_given it (KStr k) (Some e) -> form_get_pc f k = Ok e) /\
  (~ form_input it -> form_construct it = Raise ValueError).
Proof.
  unfold form_construct. set (d := dict_of it). set (g := fun v : option expr => match v with Some e => Ok e | None => Raise ValueError end).
  assert (Ch : forallb good_key (dkeys d) && forallb (fun v => match v with Some _ => true | None => false end) (dvals d) = true <-> form_input it).
  { unfold d. rewrite checked. split; intros H pk I.
    - destruct (H pk I) as (k & [e|] & E & L & G); [|discriminate]. exists k, e. auto.
    - destruct (H pk I) as (k & e & E & L). exists k, (Some e). auto. }
  destruct (forallb good_key (dkeys d)) eqn:B.
  2:{ split; [|reflexivity]. intros Y. apply Ch in Y. discriminate. }
  cbn [andb] in Ch. destruct (dmapM_fails g d ValueError) as [(rows & Er & A)|(Er & v & I & Ev)]; [intros [e|] _; cbn; eauto| |]; rewrite Er; cbn [bind].
  - split.
    + intros _. eexists. split; [reflexivity|]. assert (Kr : dkeys rows = dkeys d) by exact (dmapM_keys _ _ _ Er). split.
      { unfold dkeys. rewrite (keys_key_str (fun e : expr => e)) by (rewrite Kr; exact B). rewrite Kr. apply dkeys_dict_of. }
      intros k e L. apply last_given_dget in L. fold d in L. pose proof (dmapM_dget _ _ _ (KStr k) Er) as G. rewrite L in G. destruct G as (w & Ew & Gw).
      unfold form_get_pc, dgetr. rewrite (dget_key_str (fun e : expr => e)) by (rewrite Kr; exact B). rewrite Gw. cbn [option_map]. cbn in Ew. congruence.
    + intros N. exfalso. apply N, Ch. apply forallb_forall. intros v I. destruct (A v I) as (w & Ew). destruct v; [reflexivity|discriminate].
  - split; [|reflexivity]. intros Y. exfalso. apply Ch in Y. rewrite forallb_forall in Y. specialize (Y v I). destruct v; discriminate.
Qed.
