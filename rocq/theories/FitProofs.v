(** Code generation: values, the cost, chunks. *)
From Coq Require Import String Ascii List Arith ZArith Bool Lia Reals QArith Qreals Lra Permutation.
From Coquelicot Require Import Complex.
Import ListNotations.
From Verif Require Import PyBase CBase Expr ExprProofs DataModel FDataModel SpecFData FDataProofs FormModel SpecForm FormProofs2 FitModel SpecFit.
Local Open Scope nat_scope.

Section CodeInd.
  Variable P : code -> Prop.
  Hypothesis HNum : forall z, P (KNum z).
  Hypothesis HSym : forall s, P (KSym s).
  Hypothesis HVar : forall i, P (KVar i).
  Hypothesis HAdd : forall l, Forall P l -> P (KAdd l).
  Hypothesis HMul : forall l, Forall P l -> P (KMul l).
  Hypothesis HPow : forall b n, P b -> P (KPow b n).
  Hypothesis HCos : forall e, P e -> P (KCos e).
  Hypothesis HSin : forall e, P e -> P (KSin e).
  Hypothesis HConj : forall e, P e -> P (KConj e).
  Hypothesis HRe : forall e, P e -> P (KRe e).
  Hypothesis HIm : forall e, P e -> P (KIm e).
  Fixpoint code_ind' (e : code) : P e :=
    let go := fix go (l : list code) : Forall P l :=
      match l with [] => Forall_nil P | a :: l' => Forall_cons a (code_ind' a) (go l') end in
    match e with
    | KNum z => HNum z | KSym s => HSym s | KVar i => HVar i
    | KAdd l => HAdd l (go l) | KMul l => HMul l (go l) | KPow b n => HPow b n (code_ind' b)
    | KCos e => HCos e (code_ind' e) | KSin e => HSin e (code_ind' e) | KConj e => HConj e (code_ind' e)
    | KRe e => HRe e (code_ind' e) | KIm e => HIm e (code_ind' e)
    end.
End CodeInd.

Lemma map_ext_F {A B} (f g : A -> B) l : Forall (fun a => f a = g a) l -> map f l = map g l.
Proof. induction 1; simpl; congruence. Qed.

Lemma keval_embed rho xs e : keval rho xs (embed e) = eval rho e.
Proof.
  induction e using expr_ind'; cbn [embed keval eval]; rewrite ?map_map; try congruence; auto.
  - f_equal. apply map_ext_F. auto.
  - f_equal. apply map_ext_F. auto.
Qed.
Lemma ksyms_embed e : ksyms (embed e) = syms e.
Proof.
  induction e using expr_ind'; cbn [embed ksyms syms]; auto.
  - induction H; simpl; congruence.
  - induction H; simpl; congruence.
Qed.
Lemma kvars_embed e : kvars (embed e) = [].
Proof.
  induction e using expr_ind'; cbn [embed kvars]; auto.
  - induction H as [|a l E _ IH]; simpl; [auto|]. rewrite E, IH. auto.
  - induction H as [|a l E _ IH]; simpl; [auto|]. rewrite E, IH. auto.
Qed.

Definition mapped (mp : list (sym * nat)) (rho : sym -> C) (xs : nat -> R) : sym -> C :=
  fun s => match dget s mp with Some i => RtoC (xs i) | None => rho s end.
Lemma mapped_respects mp rho xs : respects rho -> respects (mapped mp rho xs).
Proof. intros R s E. unfold mapped. destruct (dget s mp); [reflexivity|auto]. Qed.
Lemma keval_xreplace mp rho xs e : keval rho xs (xreplace mp e) = keval (mapped mp rho xs) xs e.
Proof.
  induction e using code_ind'; cbn [xreplace keval]; rewrite ?map_map; try congruence; auto.
  - unfold mapped. destruct (dget s mp); reflexivity.
  - f_equal. apply map_ext_F. auto.
  - f_equal. apply map_ext_F. auto.
Qed.
Lemma ksyms_xreplace mp e s : In s (ksyms (xreplace mp e)) -> In s (ksyms e) /\ dget s mp = None.
Proof.
  induction e using code_ind'; cbn [xreplace ksyms]; auto; try (intros []).
  - destruct (dget s0 mp) eqn:E; cbn [ksyms]; [intros []|]. intros [<-|[]]. simpl; auto.
  - rewrite flat_map_concat_map, map_map, <- flat_map_concat_map, !in_flat_map. intros (x & I & J).
    rewrite Forall_forall in H. destruct (H x I J). split; auto. exists x; auto.
  - rewrite flat_map_concat_map, map_map, <- flat_map_concat_map, !in_flat_map. intros (x & I & J).
    rewrite Forall_forall in H. destruct (H x I J). split; auto. exists x; auto.
Qed.
Lemma kvars_xreplace mp e i : In i (kvars (xreplace mp e)) -> In i (kvars e) \/ exists s, dget s mp = Some i.
Proof.
  induction e using code_ind'; cbn [xreplace kvars]; auto; try (intros []).
  - destruct (dget s mp) eqn:E; cbn [kvars]; [intros [<-|[]]; eauto|intros []].
  - rewrite flat_map_concat_map, map_map, <- flat_map_concat_map, !in_flat_map. intros (x & I & J).
    rewrite Forall_forall in H. destruct (H x I J); auto. left. exists x; auto.
  - rewrite flat_map_concat_map, map_map, <- flat_map_concat_map, !in_flat_map. intros (x & I & J).
    rewrite Forall_forall in H. destruct (H x I J); auto. left. exists x; auto.
Qed.
Lemma keval_ext rho rho' xs xs' e : (forall s, In s (ksyms e) -> rho s = rho' s) -> (forall i, In i (kvars e) -> xs i = xs' i) ->
  keval rho xs e = keval rho' xs' e.
Proof.
  induction e using code_ind'; cbn [ksyms kvars keval]; intros S V; auto.
  - apply S. left; auto.
  - rewrite V; auto. left; auto.
  - f_equal. apply map_ext_in. intros a I. rewrite Forall_forall in H.
    apply (H a I); intros; [apply S|apply V]; apply in_flat_map; eauto.
  - f_equal. apply map_ext_in. intros a I. rewrite Forall_forall in H.
    apply (H a I); intros; [apply S|apply V]; apply in_flat_map; eauto.
  - rewrite IHe; auto.
  - rewrite IHe; auto.
  - rewrite IHe; auto.
  - rewrite IHe; auto.
  - rewrite IHe; auto.
  - rewrite IHe; auto.
Qed.

(** ** The mapping *)
Lemma dget_mapping free : NoDup free -> forall i s, nth_error free i = Some s -> dget s (mapping free) = Some i.
Proof.
  intros N i s E. unfold mapping.
  assert (W : wf_dict (combine free (seq 0 (length free)))).
  { unfold wf_dict, dkeys.
    assert (X : forall (l : list sym) k, map fst (combine l (seq k (length l))) = l) by (clear; induction l; simpl; intros; congruence).
    rewrite X. exact N. }
  rewrite dict_of_wf by exact W. apply In_dget; [exact W|].
  assert (X : forall (l : list sym) k i s, nth_error l i = Some s -> In (s, k + i) (combine l (seq k (length l)))).
  { clear. induction l as [|a l IH]; intros k [|i] s E; simpl in *; try discriminate.
    - left. rewrite Nat.add_0_r. congruence.
    - right. specialize (IH (S k) i s E). replace (k + S i) with (S k + i) by lia. exact IH. }
  apply (X free 0 i s E).
Qed.
Lemma dget_mapping_bound free s i : NoDup free -> dget s (mapping free) = Some i -> i < length free.
Proof.
  intros N E. destruct (in_dec sym_eq_dec s free) as [I|I].
  - apply In_nth_error in I as (j & J). rewrite (dget_mapping free N j s J) in E. injection E as <-.
    apply nth_error_Some. congruence.
  - exfalso. unfold mapping in E. rewrite dget_dict_of in E. apply dget_In in E. apply in_rev in E. apply in_combine_l in E. auto.
Qed.
Lemma dget_mapping_None free s : dget s (mapping free) = None -> ~ In s free.
Proof.
  intros E I. unfold mapping in E. rewrite dget_dict_of in E. apply dget_None in E. apply E. unfold dkeys.
  rewrite map_rev, <- in_rev.
  assert (X : forall (l : list sym) k, map fst (combine l (seq k (length l))) = l) by (clear; induction l; simpl; intros; congruence).
  rewrite X. exact I.
Qed.
Lemma mapped_assigns free xs rho rho0 s : NoDup free -> assigns free xs rho -> In s free -> mapped (mapping free) rho0 (at_xs xs) s = rho s.
Proof.
  intros N A I. apply In_nth_error in I as (i & E). unfold mapped. rewrite (dget_mapping free N i s E). symmetry. apply (A i s E).
Qed.

Lemma Re_sum l : Re (fold_right Cplus (RtoC 0) l) = fold_right Rplus 0%R (map Re l).
Proof. induction l as [|a l IH]; [reflexivity|]. cbn [map fold_right]. rewrite <- IH. reflexivity. Qed.

Lemma rsum_ext {A} (f g : A -> R) l : (forall a, In a l -> f a = g a) -> rsum f l = rsum g l.
Proof. induction l as [|a l IH]; intros H; [reflexivity|]. cbn [rsum fold_right]. unfold rsum in IH. rewrite IH, H; auto; [left; auto|intros; apply H; right; auto]. Qed.
Lemma rsum_app {A} (f : A -> R) l l' : rsum f (l ++ l') = (rsum f l + rsum f l')%R.
Proof. unfold rsum. induction l as [|a l IH]; simpl; [ring|]. rewrite IH. ring. Qed.
Lemma rsum_map {A B} (g : A -> B) (f : B -> R) l : rsum f (map g l) = rsum (fun a => f (g a)) l.
Proof. unfold rsum. induction l as [|a l IH]; simpl; congruence. Qed.
Lemma rsum_flat_map {A B} (g : A -> list B) (f : B -> R) l : rsum f (flat_map g l) = rsum (fun a => rsum f (g a)) l.
Proof. induction l as [|a l IH]; [reflexivity|]. cbn [flat_map]. rewrite rsum_app, IH. reflexivity. Qed.
Lemma rsum_nonneg {A} (f : A -> R) l : (forall a, In a l -> 0 <= f a)%R -> (0 <= rsum f l)%R.
Proof.
  unfold rsum. induction l as [|a l IH]; intros H; simpl; [lra|].
  pose proof (H a (or_introl eq_refl)). assert (0 <= fold_right (fun a s => (f a + s)%R) 0%R l)%R by (apply IH; intros; apply H; right; auto). lra.
Qed.
Lemma rsum_zero {A} (f : A -> R) l : (forall a, In a l -> 0 <= f a)%R -> rsum f l = 0%R -> forall a, In a l -> f a = 0%R.
Proof.
  induction l as [|a l IH]; intros H E b I; [destruct I|].
  assert (P := rsum_nonneg f l (fun a I => H a (or_intror I))). pose proof (H a (or_introl eq_refl)).
  assert (E' : (f a + rsum f l)%R = 0%R) by exact E.
  destruct I as [<-|I]; [lra|]. apply IH; auto; [intros; apply H; right; auto|lra].
Qed.

Section Cost.
Variable kev : code -> code.
Hypothesis KEV : sound_kev kev.

Lemma kev_val rho xs e : respects rho -> keval rho xs (kev e) = keval rho xs e.
Proof. apply KEV. Qed.
Lemma kev_syms e : incl (ksyms (kev e)) (ksyms e).
Proof. apply KEV. Qed.
Lemma kev_vars e : incl (kvars (kev e)) (kvars e).
Proof. apply KEV. Qed.

(** A generated expression: no symbols, elements below n, a given value *)
Definition good (free : list sym) (t : code) (v : (sym -> C) -> C) : Prop :=
  ksyms t = [] /\ (forall i, In i (kvars t) -> i < length free) /\
  forall xs rho rho0, respects rho0 -> assigns free xs rho -> keval rho0 (at_xs xs) t = v rho.

Lemma good_xreplace free e v : NoDup free -> incl (ksyms e) free -> kvars e = [] ->
  (forall rho xs, respects rho -> keval rho xs e = v rho) ->
  (forall rho rho', (forall s, In s free -> rho s = rho' s) -> v rho = v rho') ->
  good free (kev (xreplace (mapping free) e)) v.
Proof.
  intros N S V E X. split; [|split].
  - destruct (ksyms (kev (xreplace (mapping free) e))) as [|s l] eqn:K; [reflexivity|exfalso].
    assert (I : In s (ksyms (xreplace (mapping free) e))) by (apply kev_syms; rewrite K; left; auto).
    apply ksyms_xreplace in I as (I & D). apply dget_mapping_None in D. apply D. apply S. exact I.
  - intros i I. apply kev_vars in I. apply kvars_xreplace in I as [I|(s & D)]; [rewrite V in I; destruct I|].
    apply (dget_mapping_bound free s i N D).
  - intros xs rho rho0 R A. rewrite kev_val by exact R. rewrite keval_xreplace, E by (apply mapped_respects; exact R).
    apply X. intros s I. apply mapped_assigns; auto.
Qed.

(** Rows *)
Lemma row_of_key F k : formula_ok F -> In k (ff_get_keys F) -> exists r, In (k, r) (ff_rows F) /\ ff_get_pc F k = Ok (r_cells r).
Proof.
  intros (W & _) I. unfold ff_get_keys, dkeys in I. apply in_map_iff in I as ((k', r) & E & I). simpl in E. subst k'.
  exists r. split; [exact I|]. unfold ff_get_pc, dgetr. rewrite (In_dget k r (ff_rows F) W I). reflexivity.
Qed.
Lemma index_ok (M : nat) m : In m (freqs M) -> (0 <= m + Z.of_nat M)%Z /\ Z.to_nat (m + Z.of_nat M) < 2 * M + 1.
Proof. intros I. apply In_freqs in I. lia. Qed.
Lemma py_nth_cell {A} (l : list A) (M : nat) m d : In m (freqs M) -> 2 * M + 1 <= length l -> py_nth l (m + Z.of_nat M) = Ok (nth (Z.to_nat (m + Z.of_nat M)) l d).
Proof.
  intros I L. destruct (index_ok M m I) as (P & B). rewrite py_nth_nonneg by exact P.
  rewrite (nth_error_nth' l d) by lia. reflexivity.
Qed.

Definition square (F : fform) (D : fdat) (r : row) (k : string) (m : Z) (rho : sym -> C) : C :=
  RtoC (Cmod (Cminus (eval rho (fcell (ff_M F) r m)) (dvalue D k m)) ^ 2)%R.

Lemma fcell_In F k r m : formula_ok F -> In (k, r) (ff_rows F) -> In m (freqs (ff_M F)) -> In (fcell (ff_M F) r m) (r_cells r).
Proof. intros (_ & L) I Im. apply nth_In. rewrite (L k r I). apply index_ok. exact Im. Qed.

Lemma term_good F D free k r m : matching F D -> argument_list F free -> In (k, r) (ff_rows F) -> In m (freqs (ff_M F)) ->
  exists t, term kev F D (mapping free) k m = Ok t /\ good free t (square F D r k m).
Proof.
  intros (FO & DO & EM & KS) (N & S) I Jm. pose proof FO as (W & L). pose proof DO as (WD & LD).
  assert (Kd : In k (map fst (fd_data D))) by (apply KS; apply (in_map fst) in I; exact I).
  apply in_map_iff in Kd as ((k' & v) & E & Id). simpl in E. subst k'.
  assert (Ev : dget k (fd_data D) = Some v) by (apply In_dget; auto).
  unfold term, ff_get_pc, fget_pc, dgetr. rewrite (In_dget k r (ff_rows F) W I), Ev. cbn [bind].
  rewrite (py_nth_cell (r_cells r) (ff_M F) m (num 0)) by (auto; rewrite (L k r I); lia). cbn [bind].
  rewrite (py_nth_cell v (ff_M F) m (RtoC 0)) by (auto; rewrite (LD k v Id); lia). cbn [bind].
  eexists. split; [reflexivity|].
  set (e := nth (Z.to_nat (m + Z.of_nat (ff_M F))) (r_cells r) (num 0)).
  set (d := nth (Z.to_nat (m + Z.of_nat (ff_M F))) v (RtoC 0)).
  assert (Ie : incl (syms e) free).
  { intros s Is. apply S. exists k, r, e. split; [exact I|]. split; [|exact Is]. apply (fcell_In F k r m FO I Jm). }
  assert (Sy : incl (ksyms (KAdd [embed e; KMul [KNum (RtoC (-1)); KNum d]])) free).
  { cbn [ksyms flat_map]. rewrite ksyms_embed, !app_nil_r. exact Ie. }
  assert (Va : kvars (KAdd [embed e; KMul [KNum (RtoC (-1)); KNum d]]) = []).
  { cbn [kvars flat_map]. rewrite kvars_embed. reflexivity. }
  set (e0 := kev (KAdd [embed e; KMul [KNum (RtoC (-1)); KNum d]])).
  assert (S0 : incl (ksyms e0) free) by (intros s Is; apply Sy; apply kev_syms; exact Is).
  assert (V0 : incl (kvars e0) []) by (intros i Ii; rewrite <- Va; apply kev_vars; exact Ii).
  apply good_xreplace; auto.
  - intros s Is. apply kev_syms in Is. cbn [ksyms flat_map] in Is. rewrite app_nil_r in Is. apply in_app_or in Is as [Is|Is]; auto.
    apply kev_syms in Is. apply S0. exact Is.
  - apply incl_l_nil. intros i Ii. apply kev_vars in Ii. cbn [kvars flat_map] in Ii. rewrite app_nil_r in Ii.
    apply in_app_or in Ii as [Ii|Ii]; auto. apply kev_vars in Ii. apply V0. exact Ii.
  - intros rho xs R. rewrite kev_val by exact R. cbn [keval map fold_right]. rewrite kev_val by exact R. cbn [keval].
    assert (E0 : keval rho xs e0 = Cminus (eval rho e) d).
    { unfold e0. rewrite kev_val by exact R. cbn [keval map fold_right]. rewrite keval_embed. unfold Cminus.
      apply C_ext; unfold Re, Im; simpl; ring. }
    rewrite E0, Cmult_1_r, Cmult_conj. unfold square, dvalue. rewrite Ev. unfold fcell, coef. rewrite EM. reflexivity.
  - intros rho rho' X. unfold square. fold e. f_equal. f_equal. f_equal. f_equal. apply eval_ext. intros s Is. apply X. apply Ie. exact Is.
Qed.

Lemma terms_good F D free : matching F D -> argument_list F free ->
  exists ts, terms kev F D (Some free) = Ok (ts, length free) /\ length ts = length (ff_rows F) * (2 * ff_M F + 1) /\
    Forall (fun t => ksyms t = [] /\ forall i, In i (kvars t) -> i < length free) ts /\
    forall xs rho rho0, respects rho0 -> assigns free xs rho ->
      rsum (fun t => Re (keval rho0 (at_xs xs) t)) ts = misfit F D rho /\
      fold_right Cplus (RtoC 0) (map (keval rho0 (at_xs xs)) ts) = RtoC (misfit F D rho).
Proof.
  intros Ma Ar. pose proof Ma as (FO & _ & _ & _). pose proof FO as (W & L).
  unfold terms, symbols_or. cbn [bind]. unfold ff_get_keys, dkeys.
  assert (H : forall rows, incl rows (ff_rows F) -> exists ts,
     mapM (fun km => term kev F D (mapping free) (fst km) (snd km)) (list_prod (map fst rows) (freqs (ff_M F))) = Ok ts /\
     length ts = length rows * (2 * ff_M F + 1) /\
     Forall (fun t => ksyms t = [] /\ forall i, In i (kvars t) -> i < length free) ts /\
     forall xs rho rho0, respects rho0 -> assigns free xs rho ->
      rsum (fun t => Re (keval rho0 (at_xs xs) t)) ts =
        rsum (fun kr => rsum (fun m => (Cmod (Cminus (eval rho (fcell (ff_M F) (snd kr) m)) (dvalue D (fst kr) m)) ^ 2)%R) (freqs (ff_M F))) rows /\
      fold_right Cplus (RtoC 0) (map (keval rho0 (at_xs xs)) ts) = 
        RtoC (rsum (fun kr => rsum (fun m => (Cmod (Cminus (eval rho (fcell (ff_M F) (snd kr) m)) (dvalue D (fst kr) m)) ^ 2)%R) (freqs (ff_M F))) rows)).
  { induction rows as [|(k, r) rows IH]; intros In_.
    - exists []. split; [reflexivity|]. split; [reflexivity|]. split; [constructor|]. intros. split; reflexivity.
    - destruct IH as (ts & E & Lt & G & V); [intros x I; apply In_; right; exact I|].
      assert (Ikr : In (k, r) (ff_rows F)) by (apply In_; left; reflexivity).
      assert (Hm : forall ms, incl ms (freqs (ff_M F)) -> exists us,
         mapM (fun km => term kev F D (mapping free) (fst km) (snd km)) (map (fun m => (k, m)) ms) = Ok us /\ length us = length ms /\
         Forall (fun t => ksyms t = [] /\ forall i, In i (kvars t) -> i < length free) us /\
         forall xs rho rho0, respects rho0 -> assigns free xs rho ->
           rsum (fun t => Re (keval rho0 (at_xs xs) t)) us =
             rsum (fun m => (Cmod (Cminus (eval rho (fcell (ff_M F) r m)) (dvalue D k m)) ^ 2)%R) ms /\
           fold_right Cplus (RtoC 0) (map (keval rho0 (at_xs xs)) us) =
             RtoC (rsum (fun m => (Cmod (Cminus (eval rho (fcell (ff_M F) r m)) (dvalue D k m)) ^ 2)%R) ms)).
      { induction ms as [|m ms IHm]; intros Im.
        - exists []. split; [reflexivity|]. split; [reflexivity|]. split; [constructor|]. intros. split; reflexivity.
        - destruct IHm as (us & E1 & L1 & G1 & V1); [intros x I; apply Im; right; exact I|].
          destruct (term_good F D free k r m Ma Ar Ikr (Im m (or_introl eq_refl))) as (t & E2 & S2 & K2 & V2).
          exists (t :: us). cbn [map mapM fst snd]. rewrite E2. cbn [bind]. rewrite E1. cbn [bind].
          split; [reflexivity|]. split; [simpl; congruence|]. split; [constructor; [split; auto|exact G1]|].
          intros xs rho rho0 R A. destruct (V1 xs rho rho0 R A) as (Va & Vb). specialize (V2 xs rho rho0 R A). unfold square in V2. split.
          + cbn [rsum fold_right]. unfold rsum in Va. rewrite Va, V2. reflexivity.
          + cbn [map fold_right]. rewrite Vb, V2. cbn [rsum fold_right]. rewrite RtoC_plus. reflexivity. }
      destruct (Hm (freqs (ff_M F)) (incl_refl _)) as (us & E1 & L1 & G1 & V1).
      exists (us ++ ts)%list. cbn [list_prod map fst].
      split.
      { apply mapM_Ok. apply Forall2_app; apply mapM_Ok; assumption. }
      split; [rewrite app_length, L1, Lt, length_freqs; simpl; lia|].
      split; [apply Forall_app; auto|].
      intros xs rho rho0 R A. destruct (V1 xs rho rho0 R A) as (Va & Vb). destruct (V xs rho rho0 R A) as (Vc & Vd). split.
      + rewrite rsum_app, Va, Vc. reflexivity.
      + rewrite map_app. 
        assert (FA : forall a b, fold_right Cplus (RtoC 0) (a ++ b) = Cplus (fold_right Cplus (RtoC 0) a) (fold_right Cplus (RtoC 0) b)).
        { clear. induction a as [|x a IH]; intros b; simpl; [ring|]. rewrite IH. ring. }
        rewrite FA, Vb, Vd, <- RtoC_plus. reflexivity. }
  destruct (H (ff_rows F) (incl_refl _)) as (ts & E & Lt & G & V). exists ts. rewrite E. cbn [bind].
  split; [reflexivity|]. split; [exact Lt|]. split; [exact G|]. exact V.
Qed.

Lemma energy_good F D free : matching F D -> argument_list F free ->
  exists e, energy_expr kev F D (Some free) = Ok (e, length free) /\ good free e (fun rho => RtoC (misfit F D rho)).
Proof.
  intros Ma Ar. destruct (terms_good F D free Ma Ar) as (ts & E & _ & G & V). unfold energy_expr. rewrite E. cbn [bind].
  eexists. split; [reflexivity|].
  assert (H : forall ts a, Forall (fun t => ksyms t = [] /\ forall i, In i (kvars t) -> i < length free) (a :: ts) ->
    let e := fold_left (fun acc t => kev (KAdd [acc; t])) ts a in
    ksyms e = [] /\ (forall i, In i (kvars e) -> i < length free) /\
    forall rho xs, respects rho -> keval rho xs e = Cplus (keval rho xs a) (fold_right Cplus (RtoC 0) (map (keval rho xs) ts))).
  { clear - KEV. induction ts as [|t ts IH]; intros a Fo; inversion Fo as [|? ? Ha Ht]; subst; cbn zeta.
    - cbn [fold_left]. split; [apply Ha|]. split; [apply Ha|]. intros. cbn [map fold_right]. ring.
    - cbn [fold_left]. inversion Ht as [|? ? Ht1 Ht2]; subst. destruct Ha as (Ha & Hb), Ht1 as (Hc & Hd).
      destruct (IH (kev (KAdd [a; t]))) as (I1 & I2 & I3).
      + constructor; [|exact Ht2]. split.
        * apply incl_l_nil. intros s Is. apply kev_syms in Is. cbn [ksyms flat_map] in Is. rewrite Ha, Hc in Is. exact Is.
        * intros i Ii. apply kev_vars in Ii. cbn [kvars flat_map] in Ii. rewrite app_nil_r in Ii. apply in_app_or in Ii as [Ii|Ii]; auto.
      + split; [exact I1|]. split; [exact I2|]. intros rho xs R. rewrite I3, kev_val by exact R. cbn [keval map fold_right]. ring. }
  destruct (H ts (KNum (RtoC 0))) as (I1 & I2 & I3).
  { constructor; [|exact G]. split; [reflexivity|]. intros i []. }
  split; [exact I1|]. split; [exact I2|]. intros xs rho rho0 R A. rewrite I3 by exact R.
  destruct (V xs rho rho0 R A) as (_ & ->). cbn [keval]. ring.
Qed.

(** Calls *)
Lemma zero_respects : respects (fun _ => RtoC 0).
Proof. intros s _. reflexivity. Qed.
Lemma callable_intro n e : ksyms e = [] -> (forall i, In i (kvars e) -> i < n) -> callable n e = true.
Proof. intros S V. unfold callable. rewrite S. apply forallb_forall. intros i I. apply Nat.ltb_lt. auto. Qed.

Lemma call_one free e v xs rho : good free e v -> length free <= length xs -> assigns free xs rho -> call [e] xs = Some (Re (v rho)).
Proof.
  intros (S & V & E) L A. unfold call. cbn [forallb map fold_right]. rewrite callable_intro by (auto; intros i I; apply V in I; lia). cbn [andb].
  rewrite (E xs rho _ zero_respects A), Rplus_0_r. reflexivity.
Qed.

(** The cost function *)
Lemma cost_ok F D free chunk save fs : matching F D -> argument_list F free -> (chunk = true -> ff_rows F <> []) ->
  exists lib, gen_cost_func kev F D (Some free) chunk save fs = (save_lib save lib fs, Ok lib) /\ computes F D free lib.
Proof.
  intros Ma Ar NE. unfold gen_cost_func. destruct chunk.
  - destruct (terms_good F D free Ma Ar) as (ts & E & Lt & G & V). rewrite E. exists ts. split.
    + unfold chunked. rewrite (proj2 (forallb_forall _ ts)).
      * destruct ts as [|t ts]; [|reflexivity]. exfalso. apply (NE eq_refl). destruct (ff_rows F); [reflexivity|simpl in Lt; lia].
      * rewrite Forall_forall in G. intros t I. destruct (G t I) as (-> & _). reflexivity.
    + intros xs rho L A. unfold call. rewrite (proj2 (forallb_forall _ ts)).
      * destruct (V xs rho _ zero_respects A) as (<- & _). f_equal. unfold rsum. clear. induction ts as [|t ts IH]; [reflexivity|].
        cbn [map fold_right]. rewrite IH. reflexivity.
      * rewrite Forall_forall in G. intros t I. destruct (G t I) as (S & Vv). apply callable_intro; [exact S|]. intros i Ii. apply Vv in Ii. lia.
  - destruct (energy_good F D free Ma Ar) as (e & E & G). rewrite E. exists [e]. split; [reflexivity|].
    intros xs rho L A. rewrite (call_one free e _ xs rho G L A). reflexivity.
Qed.
End Cost.

(** ** The misfit *)
Lemma misfit_nonneg F D rho : (0 <= misfit F D rho)%R.
Proof. apply rsum_nonneg. intros kr _. apply rsum_nonneg. intros m _. apply pow2_ge_0. Qed.
Lemma misfit_zero F D rho : misfit F D rho = 0%R <-> reproduces F D rho.
Proof.
  split.
  - intros E k r m I Im.
    assert (E1 := rsum_zero _ _ (fun kr _ => rsum_nonneg _ _ (fun m _ => pow2_ge_0 _)) E (k, r) I). cbv beta in E1.
    assert (E2 := rsum_zero _ _ (fun m _ => pow2_ge_0 _) E1 m Im). cbv beta in E2. cbn [fst snd] in E2.
    assert (E3 : Cmod (Cminus (eval rho (fcell (ff_M F) r m)) (dvalue D k m)) = 0%R).
    { destruct (Req_dec (Cmod (Cminus (eval rho (fcell (ff_M F) r m)) (dvalue D k m))) 0) as [Z|Z]; auto.
      exfalso. apply (pow_nonzero _ 2 Z E2). }
    apply Cmod_eq_0 in E3. transitivity (Cplus (Cminus (eval rho (fcell (ff_M F) r m)) (dvalue D k m)) (dvalue D k m)); [ring|].
    rewrite E3. ring.
  - intros H. unfold misfit. rewrite (rsum_ext _ (fun _ => 0%R)).
    + unfold rsum. induction (ff_rows F) as [|a l IH]; simpl; [reflexivity|]. rewrite Rplus_0_l. apply IH.
    + intros (k, r) I. rewrite (rsum_ext _ (fun _ => 0%R)).
      * unfold rsum. induction (freqs (ff_M F)) as [|a l IH]; simpl; [reflexivity|]. rewrite Rplus_0_l. apply IH.
      * intros m Im. cbn [fst snd]. rewrite (H k r m I Im).
        replace (Cminus (dvalue D k m) (dvalue D k m)) with (RtoC 0) by ring. rewrite Cmod_0. ring.
Qed.

(** Parseval on a grid *)
Lemma RtoC_rsum {A} (f : A -> R) l : RtoC (rsum f l) = Csum (fun a => RtoC (f a)) l.
Proof. induction l as [|a l IH]; [reflexivity|]. rewrite Csum_cons, <- IH, <- RtoC_plus. reflexivity. Qed.
Lemma parseval M (c : Z -> C) n : 2 * M < n ->
  (/ INR n * rsum (fun j => Cmod (Csum (fun m => Cmult (c m) (cis (IZR m * (2 * PI * INR j / INR n)))) (freqs M)) ^ 2) (seq 0 n) =
   rsum (fun m => Cmod (c m) ^ 2) (freqs M))%R.
Proof.
  intros L. assert (NZ : INR n <> 0%R) by (apply not_0_INR; lia).
  apply RtoC_inj. rewrite RtoC_mult, !RtoC_rsum.
  set (nd := fun j => (2 * PI * INR j / INR n)%R).
  assert (Hj : forall j, RtoC (Cmod (Csum (fun m => Cmult (c m) (cis (IZR m * nd j))) (freqs M)) ^ 2) =
    Csum (fun m => Csum (fun m' => Cmult (Cmult (c m) (Cconj (c m'))) (cis (IZR (m - m') * nd j))) (freqs M)) (freqs M)).
  { intros j. rewrite <- Cmult_conj, Csum_conj, <- Csum_mult_r. apply Csum_ext. intros m. rewrite <- Csum_mult_l. apply Csum_ext. intros m'.
    rewrite Cconj_mult, <- cis_opp, minus_IZR. replace ((IZR m - IZR m') * nd j)%R with (IZR m * nd j + - (IZR m' * nd j))%R by ring.
    rewrite cis_plus. ring. }
  rewrite (Csum_ext (fun j => RtoC (Cmod (Csum (fun m => Cmult (c m) (cis (IZR m * (2 * PI * INR j / INR n)))) (freqs M)) ^ 2)%R) _ _ Hj).
  rewrite Csum_swap, <- Csum_mult_l. apply Csum_ext_in. intros m Im.
  rewrite Csum_swap, <- Csum_mult_l.
  rewrite (Csum_single_Z _ m).
  - rewrite Csum_mult_l. rewrite (Csum_ext _ (fun _ => RtoC 1)) by (intros j; rewrite Z.sub_diag, Rmult_0_l; apply cis_0).
    rewrite Csum_const, seq_length, Cmult_1_r, Cmult_conj. rewrite RtoC_inv by exact NZ. field. intros X. apply NZ. apply RtoC_inj. exact X.
  - apply NoDup_zrange.
  - exact Im.
  - intros m' Im' N. rewrite Csum_mult_l.
    assert (Z0 : Csum (fun j => cis (IZR (m - m') * nd j)) (seq 0 n) = RtoC 0).
    { pose proof (roots_sum n (m - m') ltac:(lia)) as X. unfold node in X. unfold nd. rewrite X.
      destruct ((m - m') mod Z.of_nat n =? 0)%Z eqn:E; [|reflexivity]. exfalso.
      apply Z.eqb_eq, Z.mod_divide in E; [|lia]. destruct E as (q & E). apply In_freqs in Im, Im'.
      assert (q = 0%Z) by nia. subst q. lia. }
    rewrite Z0. ring.
Qed.
Lemma misfit_grid F D rho n : matching F D -> 2 * ff_M F < n -> misfit F D rho = mean_square F D rho n.
Proof.
  intros (_ & _ & EM & _) L. unfold misfit, mean_square. apply rsum_ext. intros (k, r) _. cbn [fst snd].
  rewrite <- (parseval (ff_M F) (fun m => Cminus (eval rho (fcell (ff_M F) r m)) (dvalue D k m)) n L). f_equal.
  apply rsum_ext. intros j _. f_equal. f_equal. unfold formula_at, data_at. rewrite EM.
  unfold Cminus. rewrite <- Csum_opp, <- Csum_plus. apply Csum_ext. intros m. ring.
Qed.
