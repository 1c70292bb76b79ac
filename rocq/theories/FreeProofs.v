(** Proofs for C142: fits in stages. *)
From Coq Require Import String List Arith ZArith Bool Lia QArith Qreals Reals Lra.
From Coquelicot Require Import Complex.
Import ListNotations.
From Verif Require Import PyBase CBase Expr ExprProofs SpecForm SpecFData FDataModel FormModel FormProofs2 FitModel SpecFit FitProofs FitProofs2 FitProofs3 FitProofs4 FitProofs5
  SpecSubs SubsProofs ConstrainProofs SpecChain ChainProofs SpecFree.
Local Open Scope nat_scope.

Lemma valued_respects g : respects (valued g).
Proof. intros s _. unfold valued. destruct (dget s g); reflexivity. Qed.
Lemma with_fixed_other fixed : forall xd s, ~ In s (map fst fixed) -> dget s (with_fixed xd fixed) = dget s xd.
Proof.
  induction fixed as [|[u q] fixed IH]; intros xd s N; [reflexivity|]. unfold with_fixed in *. cbn [fold_left fst snd]. cbn in N.
  rewrite IH by tauto. apply dget_dset_neq. intros ->. tauto.
Qed.
Lemma with_fixed_at fixed : NoDup (map fst fixed) -> forall xd s q, In (s, q) fixed -> dget s (with_fixed xd fixed) = Some (Q2R q).
Proof.
  induction fixed as [|[u p] fixed IH]; intros N xd s q I; [destruct I|]. cbn in N. apply NoDup_cons_iff in N as [N0 N].
  destruct I as [I|I].
  - injection I as -> ->. change (with_fixed xd ((s, q) :: fixed)) with (with_fixed (dset s (Q2R q) xd) fixed). rewrite with_fixed_other by exact N0. apply dget_dset_eq.
  - change (with_fixed xd ((u, p) :: fixed)) with (with_fixed (dset u (Q2R p) xd) fixed). apply IH; assumption.
Qed.
Lemma held_In fixed s q : In (s, q) (held fixed) -> exists p, q = (p, 0%Q) /\ In (s, p) fixed.
Proof. intros I. apply in_map_iff in I as ([u p] & E & I). injection E as <- <-. exists p. split; [reflexivity|exact I]. Qed.
Lemma held_keys fixed : map fst (held fixed) = map fst fixed.
Proof. unfold held. rewrite map_map. reflexivity. Qed.

Section Free.
Variable ev : expr -> expr.
Hypothesis EV : sound_ev ev.

(** The misfit with parameters held is the misfit of the whole formula at the start
    of the next stage. *)
Lemma fixed_misfit F D fixed F' xd : matching F D -> NoDup (map fst fixed) -> ff_subs ev F (dmap number (held fixed)) = Ok F' ->
  misfit F' D (valued xd) = misfit F D (valued (with_fixed xd fixed)).
Proof.
  intros Ma N E. apply subs_inv in E. subst F'. apply misfit_map; [apply Ma|]. intros k r m _ _.
  rewrite (eval_ext (valued xd) (valued (with_fixed xd fixed))).
  - apply (subs_seq_eval ev EV); [apply valued_respects|]. intros s q I. apply held_In in I as (p & -> & I). unfold valued.
    rewrite (with_fixed_at fixed N xd s p I). unfold qval, RtoC. cbn [fst snd]. f_equal. unfold Q2R. cbn. lra.
  - intros s S. apply (subs_seq_syms ev EV) in S as [_ S]. rewrite held_keys in S. unfold valued. rewrite with_fixed_other by exact S. reflexivity.
Qed.
Lemma tied_misfit F D sa F' free xd g : matching F D -> ff_free_symbols F = Ok free -> declared_subs sa -> ff_subs ev F sa = Ok F' ->
  (forall s, In s free -> valued g s = after_subs sa (valued xd) s) -> misfit F' D (valued xd) = misfit F D (valued g).
Proof.
  intros Ma FF De E H. apply subs_inv in E. subst F'. transitivity (misfit F D (after_subs sa (valued xd))).
  - apply misfit_map; [apply Ma|]. intros k r m _ _. apply (after_eval ev EV); [exact De|apply valued_respects].
  - apply (misfit_same F D free); [apply Ma|apply free_argument_list; exact FF|]. intros s I. symmetry. apply H. exact I.
Qed.
Variable kev : code -> code.
Hypothesis KEV : sound_kev kev.

Lemma free_step F D fixed F' free xd c fs fs' x xd' : matching F D -> ff_free_symbols F = Ok free -> NoDup (map fst fixed) ->
  ff_subs ev F (dmap number (held fixed)) = Ok F' -> improves (optimiser_of c) -> fit kev F D (with_fixed xd fixed) c fs = (fs', Ok (Fitted x xd')) ->
  (misfit F D (valued xd') <= misfit F' D (valued xd))%R.
Proof.
  intros Ma FF N E O X. rewrite (fixed_misfit F D fixed F' xd Ma N E). exact (proj2 (fit_improves kev KEV F D free Ma FF _ c fs fs' x xd' O X)).
Qed.
Lemma tied_step F D sa F' free xd g c fs fs' x xd' : matching F D -> ff_free_symbols F = Ok free -> declared_subs sa ->
  ff_subs ev F sa = Ok F' -> (forall s, In s free -> valued g s = after_subs sa (valued xd) s) ->
  improves (optimiser_of c) -> fit kev F D g c fs = (fs', Ok (Fitted x xd')) -> (misfit F D (valued xd') <= misfit F' D (valued xd))%R.
Proof.
  intros Ma FF De E H O X. rewrite (tied_misfit F D sa F' free xd g Ma FF De E H). exact (proj2 (fit_improves kev KEV F D free Ma FF _ c fs fs' x xd' O X)).
Qed.

(** Every parameter not held is in the result of the first stage. *)
Lemma in_order_of free (d : list (sym * R)) : (forall s, In s free -> exists v, dget s d = Some v) -> exists x, in_order free d x.
Proof.
  induction free as [|s free IH]; intros H; [exists []; constructor|]. destruct (H s (or_introl eq_refl)) as (v & V).
  destruct (IH (fun u I => H u (or_intror I))) as (x & X). exists (v :: x). constructor; assumption.
Qed.
Lemma in_order_has free (d : list (sym * R)) x s : in_order free d x -> In s free -> exists v, dget s d = Some v.
Proof. intros O I. induction O as [|u v free x E O IH]; [destruct I|]. destruct I as [<-|I]; [exists v; exact E|exact (IH I)]. Qed.
Lemma free_complete F D fixed F' free free' guess xd c fs fs' x : matching F D -> ff_free_symbols F = Ok free -> ff_free_symbols F' = Ok free' -> NoDup (map fst fixed) ->
  ff_subs ev F (dmap number (held fixed)) = Ok F' -> (forall s, In s free -> In s free' \/ In s (map fst fixed)) ->
  improves (optimiser_of c) -> fit kev F' D guess c fs = (fs', Ok (Fitted x xd)) -> exists x0, in_order free (with_fixed xd fixed) x0.
Proof.
  intros Ma FF FF' N E H O X. assert (Ma' : matching F' D) by (apply subs_inv in E; subst F'; apply matching_map; exact Ma).
  destruct (fit_improves kev KEV F' D free' Ma' FF' guess c fs fs' x xd O X) as (Io & _). apply in_order_of. intros s I.
  destruct (in_dec sym_eq_dec s (map fst fixed)) as [J|J].
  - apply in_map_iff in J as ([u q] & <- & J). exists (Q2R q). apply with_fixed_at; assumption.
  - rewrite with_fixed_other by exact J. apply (in_order_has free' xd x); [exact Io|]. destruct (H s I); [assumption|contradiction].
Qed.
End Free.

(** ** A start found through the values of the cost functions *)
Lemma start_found kev F F' D free free' lib lib' xd : sound_kev kev -> matching F D -> matching F' D -> argument_list F free -> argument_list F' free' ->
  gen_cost_func kev F D (Some free) false None [] = ([], Ok lib) -> gen_cost_func kev F' D (Some free') false None [] = ([], Ok lib') ->
  (forall xs', length xs' = length free' -> exists xs c, length xs = length free /\ call lib' xs' = Some c /\ call lib xs = Some c) ->
  exists g x0, in_order free g x0 /\ misfit F D (valued g) = misfit F' D (valued xd).
Proof.
  intros KEV Ma Ma' A A' G G' H.
  destruct (cost_ok kev KEV F D free false None [] Ma A ltac:(discriminate)) as (l1 & G1 & Cp). assert (l1 = lib) by (cbn [save_lib] in G1; congruence). subst l1.
  destruct (cost_ok kev KEV F' D free' false None [] Ma' A' ltac:(discriminate)) as (l2 & G2 & Cp'). assert (l2 = lib') by (cbn [save_lib] in G2; congruence). subst l2.
  destruct (H (map (fun s => Re (valued xd s)) free') (map_length _ _)) as (xs & c & L & E' & E).
  rewrite (Cp' _ (valued xd)) in E'; [|rewrite map_length; lia|apply values_on; intros s _; unfold valued; destruct (dget s xd); reflexivity]. injection E' as E'.
  rewrite (Cp xs (reading free xs)) in E; [|lia|apply reading_assigns; [apply A|lia]]. injection E as E.
  exists (combine free xs), xs. split; [apply combine_in_order; [apply A|exact L]|].
  rewrite (misfit_same F D free (valued (combine free xs)) (reading free xs) (proj1 Ma) A) by (intros s _; apply reading_dget; exact L). congruence.
Qed.
