(** Symbols of the generated Fourier formulas. *)
From Coq Require Import String List Arith ZArith QArith Bool Lia.
Import ListNotations.
From Verif Require Import PyBase Expr ExprProofs DataModel FormModel SpecForm FormProofs3 TensorModel SpecTensor TensorInst TensorProofs UtilModel
  FormgenModel FformgenModel FformgenOrder FDataProofs FormProofs2 DataProofs2 RoundProofs SpecParam ParamProofs ParamProofs2.
Local Open Scope nat_scope.
Local Open Scope list_scope.

Section S.
Variable ev expand : expr -> expr.
Hypothesis EV : sound_ev ev.
Hypothesis EX : sound_ev expand.
Ltac st E := match type of E with context [bind ?r _] => let n := fresh "E" in destruct r as [?|] eqn:n; cbn [bind] in E; [|discriminate] end.
Variable P : sym -> Prop.

Lemma in_conjugate t : inside P t -> inside P (conjugate_tensor ev t).
Proof. apply in_tmap. intros e U. apply (uses_ev ev EV). exact U. Qed.

Lemma each_in M f F G : (forall t u, inside P t -> f t = Ok u -> inside P u) -> Forall (inside P) F -> each M f F = Ok G -> Forall (inside P) G.
Proof.
  intros Hf HF E. apply Forall_forall. intros t I. destruct (mapM_In _ _ _ _ E I) as (m & _ & Em). st Em.
  apply (Hf a); [|exact Em]. apply py_nth_In in E0. rewrite Forall_forall in HF. auto.
Qed.
Lemma contract_in chi l t u : inside P chi -> inside P t ->
  (do p <- tensor_product (H := Sig_ev ev) [t; chi]; tensor_contract (H := Sig_ev ev) p l) = Ok u -> inside P u.
Proof.
  intros C T E. st E. apply (in_contract ev EV P a l u); [|exact E].
  apply (in_product ev EV P [t; chi]); [|exact E0]. constructor; [exact T|]. constructor; [exact C|constructor].
Qed.

Lemma term_in M h c1 c2 l1 l2 acc v : Forall (inside P) h -> inside P c1 -> inside P c2 -> Forall (uses P) acc ->
  contract_term ev M h c1 c2 l1 l2 acc = Ok v -> Forall (uses P) v.
Proof.
  intros H C1 C2 A E. unfold contract_term in E. do 3 st E. apply ok_inj in E. subst v.
  pose proof (each_in _ _ _ _ (fun t u T => contract_in c1 l1 t u C1 T) H E0) as H8.
  pose proof (each_in _ _ _ _ (fun t u T => contract_in c2 l2 t u C2 T) H8 E1) as H9.
  apply Forall_forall. intros e I. apply in_map_iff in I. destruct I as ((x, y) & <- & I). cbn [fst snd].
  apply (uses_add ev EV).
  - rewrite Forall_forall in A. apply A. exact (in_combine_l _ _ _ _ I).
  - apply in_combine_r in I. destruct (mapM_In _ _ _ _ E2 I) as (t & It & Et). unfold scalar in Et.
    destruct (shape t) eqn:Sh; [|discriminate]. apply ok_inj in Et. subst y. rewrite Forall_forall in H9. apply (H9 t It). rewrite Sh. constructor.
Qed.

Lemma terms_in M chi1 chi2 hs : forall k acc v, Forall (Forall (inside P)) hs -> Forall (inside P) chi1 -> Forall (inside P) chi2 -> Forall (uses P) acc ->
  contract_terms ev M k hs chi1 chi2 acc = Ok v -> Forall (uses P) v.
Proof.
  induction hs as [|h hs IH]; intros k acc v H C1 C2 A E; cbn [contract_terms] in E; [apply ok_inj in E; subst v; exact A|].
  inversion H as [|? ? Hh Hs]; subst. do 5 st E.
  apply (IH (S k) a3 v Hs C1 C2); [|exact E].
  apply py_nth_In in E0, E1. rewrite Forall_forall in C1, C2. exact (term_in _ _ _ _ _ _ _ _ Hh (C1 _ E0) (C2 _ E1) A E4).
Qed.

Lemma round_uses nd e : uses P e -> uses P (round_expr ev expand nd e).
Proof. intros U. apply (uses_ev ev EV). intros s I. rewrite round_syms in I. apply U, (proj2 EX), I. Qed.

Lemma contracted_uses prefix fs d q M nd D : inside P d -> inside P q ->
  (forall pc ts, In pc ["pp"; "ps"; "sp"; "ss"]%string -> dget (npy prefix pc) fs = Some ts -> Forall (Forall (inside P)) ts) ->
  contracted_dict ev expand prefix fs d q M nd = Ok D ->
  forall k es, In (k, es) D -> Forall (uses P) es.
Proof.
  intros Hd Hq HF E. unfold contracted_dict in E. st E. st E. st E. cbv zeta in E. intros k es I.
  destruct (mapM_In _ _ _ _ E I) as ((pc, ts) & It & Et). cbn [fst snd] in Et.
  destruct (mapM_In _ _ _ _ E2 It) as (pc' & Ip & Ep). unfold load_npy in Ep.
  destruct (dget (npy prefix (lower pc')) fs) as [ts'|] eqn:Eg; [|discriminate]. cbn [bind] in Ep. apply ok_inj in Ep.
  assert (ts' = ts) by congruence. subst ts'.
  assert (Hts : Forall (Forall (inside P)) ts).
  { apply (HF (lower pc') ts); [|exact Eg]. destruct Ip as [<-|[<-|[<-|[<-|[]]]]]; cbn; auto. }
  st Et. apply ok_inj in Et.
  assert (Ha : Forall (uses P) a2).
  { refine (terms_in _ _ _ _ _ _ _ Hts _ _ _ E3).
    - repeat (apply Forall_cons; [assumption|]); apply Forall_nil.
    - repeat (apply Forall_cons; [apply in_conjugate; assumption|]); apply Forall_nil.
    - apply Forall_forall. intros e Ie. apply in_map_iff in Ie. destruct Ie as (m & <- & _). apply uses_num. }
  assert (es = match nd with None => a2 | Some n => map (round_expr ev expand n) a2 end) by congruence. subst es.
  destruct nd; [|exact Ha]. apply Forall_forall. intros e Ie. apply in_map_iff in Ie. destruct Ie as (x & <- & Ix).
  rewrite Forall_forall in Ha. apply round_uses, Ha, Ix.
Qed.
End S.

(** A declared-real tensor's parameters are not the beam symbols, which are
    declared neither real nor not. *)
Lemma real_not_beam s : sreal s = Some true -> ~ beam s.
Proof. intros H [->|[->| ->]]; discriminate. Qed.

(** Reading back what was written. *)
Lemma loaded_inv (srepr : expr -> string) parse D F : (forall e, parse (srepr e) = Ok e) -> wf_dict D ->
  load_fform parse (dmap (map srepr) D) = Ok F -> F = mkff (dmap (mkrow true) D) 16.
Proof.
  intros Pa W E. unfold load_fform in E.
  assert (R : dmapM (mapM parse) (dmap (map srepr) D) = Ok D).
  { clear - Pa. induction D as [|(k, es) D IH]; [reflexivity|]. cbn [dmap map fst snd] in *. cbn [dmapM].
    assert (Q : mapM parse (map srepr es) = Ok es) by (induction es as [|e es IHe]; [reflexivity|]; cbn [map mapM]; rewrite Pa, IHe; reflexivity).
    unfold dmapM in *. cbn [mapM fst snd] in *. rewrite Q. cbn [bind]. unfold dmap in IH. rewrite IH. reflexivity. }
  rewrite R in E. cbn [bind] in E.
  assert (L : forall k es, In (k, es) D -> length es = 33).
  { intros k es I. unfold ff_construct in E. rewrite dict_of_wf in E by (apply (wf_key_inj (fun es => OArr true 1 (map SymE es))); exact W).
    unfold ocheck in E. match type of E with context [if ?b then _ else _] => destruct b eqn:B; [|discriminate] end.
    apply andb_true_iff in B. destruct B as [_ B]. rewrite forallb_forall in B.
    assert (G : good_oval 16 (OArr true 1 (map SymE es)) = true).
    { apply B. unfold dvals. rewrite map_map. cbn [snd]. apply in_map_iff. exists (k, es). auto. }
    cbn [good_oval] in G. rewrite map_length in G. apply andb_true_iff in G. destruct G as [G _]. apply andb_true_iff in G. destruct G as [_ G].
    apply Nat.eqb_eq in G. exact G. }
  pose proof (ff_construct_rows (dmap (map SymE) D) 16) as Q.
  assert (E' : ff_construct (map (fun kr => (KStr (fst kr), OArr true 1 (snd kr))) (dmap (map SymE) D)) 16 = Ok F).
  { rewrite <- E. f_equal. unfold dmap. rewrite map_map. reflexivity. }
  rewrite Q in E'.
  - apply ok_inj in E'. subst F. f_equal. unfold dmap. rewrite map_map. cbn [fst snd]. apply map_ext_in. intros (k, es) I. cbn [fst snd]. f_equal.
    unfold entry_row. rewrite map_map. specialize (L k es I). destruct es as [|e es]; [discriminate|]. cbn. f_equal. f_equal. apply map_id.
  - apply wf_dmap. exact W.
  - intros k es I. apply In_dmap in I. destruct I as (w & I & ->). rewrite map_length. split; [exact (L k w I)|].
    apply Forall_forall. intros x Ix. apply in_map_iff in Ix. destruct Ix as (e & <- & _). discriminate.
Qed.
