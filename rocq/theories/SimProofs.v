(** Proofs for C143: the cost as a distance from simulated data. *)
From Coq Require Import String List Arith ZArith QArith Qreals Bool Lia Reals Lra.
From Coquelicot Require Import Complex.
Import ListNotations.
From Verif Require Import PyBase DataProofs2 CBase Expr ExprProofs SpecForm SpecFData FDataModel FDataProofs FormModel FormProofs2 FitModel SpecFit FitProofs FitProofs2 FitProofs3 FitProofs4 FitProofs5
  SpecPipe PipeThms SpecLoop SpecChain ChainProofs SpecSim.
Local Open Scope nat_scope.

Lemma rsum_map {A B} (f : B -> R) (g : A -> B) l : rsum f (map g l) = rsum (fun a => f (g a)) l.
Proof. induction l as [|a l IH]; [reflexivity|]. unfold rsum in *. cbn [map fold_right]. rewrite IH. reflexivity. Qed.
Lemma rsum_coefs M (a b : list C) (f : C -> C -> R) : length a = 2 * M + 1 -> length b = 2 * M + 1 ->
  rsum (fun ab => f (fst ab) (snd ab)) (combine a b) = rsum (fun m => f (coef M a m) (coef M b m)) (freqs M).
Proof.
  intros La Lb. rewrite (list_by_coef M a La) at 1. rewrite (list_by_coef M b Lb) at 1. generalize (freqs M). intros l.
  induction l as [|m l IH]; [reflexivity|]. unfold rsum in *. cbn [map combine fold_right fst snd]. rewrite IH. reflexivity.
Qed.

Section Sim.
Variable ev : expr -> expr.
Hypothesis EV : sound_ev ev.

Lemma simulated_distance F D d S : ff_wf F -> symbolic F -> ff_M F = 16 -> matching F D -> (forall s, ff_occurs F s -> In s (dkeys d)) -> parameter_values d ->
  fform_to_fdat ev F d = Ok S -> misfit F D (dict_env d) = distance S D.
Proof.
  intros W Sy M16 Ma H (N & R) E.
  pose proof (simulated_items ev EV F d S (dict_env d) W Sy M16 H (dict_env_respects d R) (dict_env_agrees d N) E) as I.
  unfold distance, fget_items. rewrite I. unfold dmap. rewrite rsum_map. unfold misfit. apply rsum_ext. intros (k, r) Ir. cbn [fst snd].
  destruct Ma as (FO & DO & EM & K). assert (Ik : In k (map fst (fd_data D))) by (apply K; apply in_map_iff; exists (k, r); split; [reflexivity|exact Ir]).
  apply in_map_iff in Ik as ((k', v) & Ek & Iv). cbn [fst] in Ek. subst k'.
  assert (G : dget k (fd_data D) = Some v) by (apply In_dget; [exact (proj1 DO)|exact Iv]).
  unfold fget_pc, dgetr. rewrite G.
  assert (Lv : length v = 2 * 16 + 1) by (rewrite <- M16, <- EM; exact (proj2 DO k v Iv)).
  assert (Lr : length (r_cells r) = 2 * 16 + 1) by (rewrite <- M16; exact (proj2 FO k r Ir)).
  rewrite (rsum_coefs 16 _ v (fun a b => (Cmod (Cminus a b) ^ 2)%R)) by (rewrite ?map_length; assumption). rewrite M16. apply rsum_ext. intros m Jm.
  unfold dvalue. rewrite G, EM, M16. do 3 f_equal. unfold fcell, coef.
  destruct (index_ok 16 m Jm) as (_ & Lt). rewrite (nth_indep _ (RtoC 0) (eval (dict_env d) (num 0))) by (rewrite map_length; lia). rewrite map_nth. reflexivity.
Qed.
Variable kev : code -> code.
Hypothesis KEV : sound_kev kev.

Lemma cost_distance F D d free xs chunk save fs : ff_wf F -> symbolic F -> ff_M F = 16 -> matching F D -> argument_list F free -> (chunk = true -> ff_rows F <> []) ->
  parameter_values d -> listed d free xs ->
  exists S lib, fform_to_fdat ev F d = Ok S /\ gen_cost_func kev F D (Some free) chunk save fs = (save_lib save lib fs, Ok lib) /\ call lib xs = Some (distance S D).
Proof.
  intros W Sy M16 Ma Ar Ne P L. destruct (listed_assigns d free xs (proj1 P) L) as (As & Le & Inc).
  assert (Oc : forall s, ff_occurs F s -> In s (dkeys d)) by (intros s O; apply Inc, (proj2 Ar); exact O).
  destruct (simulated_matching ev EV F d W Sy M16 Oc) as (S & ES & _). destruct (cost_ok kev KEV F D free chunk save fs Ma Ar Ne) as (lib & G & Cp).
  exists S, lib. split; [exact ES|]. split; [exact G|]. rewrite (Cp xs (dict_env d) Le As). f_equal. exact (simulated_distance F D d S W Sy M16 Ma Oc P ES).
Qed.

(** The dictionary of a fit. *)
Lemma numbers_misfit F D free xd x d : ff_wf F -> symbolic F -> ff_M F = 16 -> matching F D -> ff_free_symbols F = Ok free -> in_order free xd x -> parameter_values d -> same_numbers xd d ->
  exists S, fform_to_fdat ev F d = Ok S /\ misfit F D (valued xd) = distance S D.
Proof.
  intros W Sy M16 Ma FF Io P Sn. pose proof (free_argument_list F free FF) as Ar.
  assert (H : forall s, In s free -> exists v a b, dget s xd = Some v /\ In (s, (a, b)) d /\ (b == 0)%Q /\ v = Q2R a).
  { clear - Io Sn. induction Io as [|s v free x E Io IH]; intros u I; [destruct I|]. destruct I as [<-|I]; [|exact (IH u I)].
    destruct (Sn s v) as (a & b & J & B & Q); [apply dget_In; exact E|]. exists v, a, b. auto. }
  assert (Oc : forall s, ff_occurs F s -> In s (dkeys d)).
  { intros s O. apply (proj2 Ar) in O. destruct (H s O) as (v & a & b & _ & J & _). apply in_map_iff. exists (s, (a, b)). auto. }
  destruct (simulated_matching ev EV F d W Sy M16 Oc) as (S & ES & _). exists S. split; [exact ES|].
  rewrite <- (simulated_distance F D d S W Sy M16 Ma Oc P ES). apply (misfit_same F D free); [apply Ma|exact Ar|].
  intros s I. destruct (H s I) as (v & a & b & E & J & B & ->). unfold valued, dict_env. rewrite E, (In_dget _ _ _ (proj1 P) J). unfold qval. cbn [fst snd].
  unfold RtoC. f_equal. rewrite (Qeq_eqR _ _ B). unfold Q2R. cbn. lra.
Qed.
Lemma fit_distance F D free guess c fs fs' x xd d : ff_wf F -> symbolic F -> ff_M F = 16 -> matching F D -> ff_free_symbols F = Ok free -> improves (optimiser_of c) ->
  fit kev F D guess c fs = (fs', Ok (Fitted x xd)) -> parameter_values d -> same_numbers xd d ->
  exists S, fform_to_fdat ev F d = Ok S /\ misfit F D (valued xd) = distance S D.
Proof.
  intros W Sy M16 Ma FF O X P Sn. destruct (fit_improves kev KEV F D free Ma FF guess c fs fs' x xd O X) as (Io & _).
  exact (numbers_misfit F D free xd x d W Sy M16 Ma FF Io P Sn).
Qed.
End Sim.
