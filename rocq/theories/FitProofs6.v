(** The cost for argument lists that miss parameters of the formula (or repeat
    some). *)
From Coq Require Import String Ascii List Arith ZArith Bool Lia Reals QArith Qreals Lra Permutation.
From Coquelicot Require Import Complex.
Import ListNotations.
From Verif Require Import PyBase CBase Expr ExprProofs DataModel FDataModel SpecFData FDataProofs FormModel SpecForm FormProofs2 FitModel SpecFit FitProofs.
Local Open Scope nat_scope.

Lemma mapping_nth args s i : dget s (mapping args) = Some i -> nth_error args i = Some s.
Proof.
  unfold mapping. rewrite dget_dict_of. intros E. apply dget_In in E. apply in_rev in E.
  assert (X : forall (l : list sym) k, In (s, i) (combine l (seq k (length l))) -> k <= i /\ nth_error l (i - k) = Some s).
  { clear. induction l as [|a l IH]; intros k I; [destruct I|]. cbn [length seq combine] in I. destruct I as [I|I].
    - injection I as -> ->. rewrite Nat.sub_diag. split; [lia|reflexivity].
    - destruct (IH (S k) I) as (L & N). split; [lia|]. replace (i - k) with (S (i - S k)) by lia. exact N. }
  destruct (X args 0 E) as (_ & N). rewrite Nat.sub_0_r in N. exact N.
Qed.
Lemma mapped_same args xs rho s : assigns args xs rho -> mapped (mapping args) rho (at_xs xs) s = rho s.
Proof.
  intros A. unfold mapped. destruct (dget s (mapping args)) as [i|] eqn:E; [|reflexivity].
  symmetry. apply A. apply mapping_nth. exact E.
Qed.

Section Cost.
Variable kev : code -> code.
Hypothesis KEV : sound_kev kev.

(** A generated expression of a given value, elements within the arguments *)
Definition fair (args : list sym) (t : code) (v : (sym -> C) -> C) : Prop :=
  (forall i, In i (kvars t) -> i < length args) /\
  forall xs rho, respects rho -> assigns args xs rho -> keval rho (at_xs xs) t = v rho.

Lemma term_fair F D args k r m : matching F D -> In (k, r) (ff_rows F) -> In m (freqs (ff_M F)) ->
  exists t, term kev F D (mapping args) k m = Ok t /\ fair args t (square F D r k m).
Proof.
  intros (FO & DO & EM & KS) I Jm. pose proof FO as (W & L). pose proof DO as (WD & LD).
  assert (Kd : In k (map fst (fd_data D))) by (apply KS; apply (in_map fst) in I; exact I).
  apply in_map_iff in Kd as ((k' & v) & E & Id). simpl in E. subst k'.
  assert (Ev : dget k (fd_data D) = Some v) by (apply In_dget; auto).
  unfold term, ff_get_pc, fget_pc, dgetr. rewrite (In_dget k r (ff_rows F) W I), Ev. cbn [bind].
  rewrite (py_nth_cell (r_cells r) (ff_M F) m (num 0)) by (auto; rewrite (L k r I); lia). cbn [bind].
  rewrite (py_nth_cell v (ff_M F) m (RtoC 0)) by (auto; rewrite (LD k v Id); lia). cbn [bind].
  eexists. split; [reflexivity|].
  set (e := nth (Z.to_nat (m + Z.of_nat (ff_M F))) (r_cells r) (num 0)).
  set (d := nth (Z.to_nat (m + Z.of_nat (ff_M F))) v (RtoC 0)).
  assert (Va : kvars (KAdd [embed e; KMul [KNum (RtoC (-1)); KNum d]]) = []).
  { cbn [kvars flat_map]. rewrite kvars_embed. reflexivity. }
  set (e0 := kev (KAdd [embed e; KMul [KNum (RtoC (-1)); KNum d]])).
  assert (V0 : incl (kvars e0) []) by (intros i Ii; rewrite <- Va; apply (kev_vars kev KEV); exact Ii).
  split.
  - intros i Ii. apply (kev_vars kev KEV) in Ii. apply kvars_xreplace in Ii as [Ii|(s & Ds)].
    + exfalso. apply (kev_vars kev KEV) in Ii. cbn [kvars flat_map] in Ii. rewrite app_nil_r in Ii.
      apply in_app_or in Ii as [Ii|Ii]; [exact (V0 _ Ii)|]. apply (kev_vars kev KEV) in Ii. exact (V0 _ Ii).
    + apply nth_error_Some. rewrite (mapping_nth args s i Ds). discriminate.
  - intros xs rho R A. rewrite (kev_val kev KEV) by exact R. rewrite keval_xreplace.
    rewrite (keval_ext (mapped (mapping args) rho (at_xs xs)) rho (at_xs xs) (at_xs xs)) by (intros; auto; apply mapped_same; exact A).
    rewrite (kev_val kev KEV) by exact R. cbn [keval map fold_right]. rewrite (kev_val kev KEV) by exact R. cbn [keval].
    assert (E0 : keval rho (at_xs xs) e0 = Cminus (eval rho e) d).
    { unfold e0. rewrite (kev_val kev KEV) by exact R. cbn [keval map fold_right]. rewrite keval_embed. unfold Cminus.
      apply C_ext; unfold Re, Im; simpl; ring. }
    rewrite E0, Cmult_1_r, Cmult_conj. unfold square, dvalue. rewrite Ev. unfold fcell, coef. rewrite EM. reflexivity.
Qed.

Lemma Csum_app_list a b : fold_right Cplus (RtoC 0) (a ++ b) = Cplus (fold_right Cplus (RtoC 0) a) (fold_right Cplus (RtoC 0) b).
Proof. induction a as [|x a IH]; simpl; [ring|]. rewrite IH. ring. Qed.

Lemma terms_fair F D args : matching F D ->
  exists ts, terms kev F D (Some args) = Ok (ts, length args) /\ length ts = length (ff_rows F) * (2 * ff_M F + 1) /\
    Forall (fun t => forall i, In i (kvars t) -> i < length args) ts /\
    forall xs rho, respects rho -> assigns args xs rho ->
      fold_right Cplus (RtoC 0) (map (keval rho (at_xs xs)) ts) = RtoC (misfit F D rho).
Proof.
  intros Ma. unfold terms, symbols_or. cbn [bind]. unfold ff_get_keys, dkeys.
  assert (H : forall rows, incl rows (ff_rows F) -> exists ts,
     mapM (fun km => term kev F D (mapping args) (fst km) (snd km)) (list_prod (map fst rows) (freqs (ff_M F))) = Ok ts /\
     length ts = length rows * (2 * ff_M F + 1) /\
     Forall (fun t => forall i, In i (kvars t) -> i < length args) ts /\
     forall xs rho, respects rho -> assigns args xs rho ->
      fold_right Cplus (RtoC 0) (map (keval rho (at_xs xs)) ts) = 
        RtoC (rsum (fun kr => rsum (fun m => (Cmod (Cminus (eval rho (fcell (ff_M F) (snd kr) m)) (dvalue D (fst kr) m)) ^ 2)%R) (freqs (ff_M F))) rows)).
  { induction rows as [|(k, r) rows IH]; intros In_.
    - exists []. split; [reflexivity|]. split; [reflexivity|]. split; [constructor|]. intros. reflexivity.
    - destruct IH as (ts & E & Lt & G & V); [intros x I; apply In_; right; exact I|].
      assert (Ikr : In (k, r) (ff_rows F)) by (apply In_; left; reflexivity).
      assert (Hm : forall ms, incl ms (freqs (ff_M F)) -> exists us,
         mapM (fun km => term kev F D (mapping args) (fst km) (snd km)) (map (fun m => (k, m)) ms) = Ok us /\ length us = length ms /\
         Forall (fun t => forall i, In i (kvars t) -> i < length args) us /\
         forall xs rho, respects rho -> assigns args xs rho ->
           fold_right Cplus (RtoC 0) (map (keval rho (at_xs xs)) us) =
             RtoC (rsum (fun m => (Cmod (Cminus (eval rho (fcell (ff_M F) r m)) (dvalue D k m)) ^ 2)%R) ms)).
      { induction ms as [|m ms IHm]; intros Jm.
        - exists []. split; [reflexivity|]. split; [reflexivity|]. split; [constructor|]. intros. reflexivity.
        - destruct IHm as (us & E1 & L1 & G1 & V1); [intros x I; apply Jm; right; exact I|].
          destruct (term_fair F D args k r m Ma Ikr (Jm m (or_introl eq_refl))) as (t & E2 & K2 & V2).
          exists (t :: us). cbn [map mapM fst snd]. rewrite E2. cbn [bind]. rewrite E1. cbn [bind].
          split; [reflexivity|]. split; [simpl; congruence|]. split; [constructor; [exact K2|exact G1]|].
          intros xs rho R A. specialize (V1 xs rho R A). specialize (V2 xs rho R A). unfold square in V2.
          cbn [map fold_right]. rewrite V1, V2. cbn [rsum fold_right]. rewrite RtoC_plus. reflexivity. }
      destruct (Hm (freqs (ff_M F)) (incl_refl _)) as (us & E1 & L1 & G1 & V1).
      exists (us ++ ts)%list. cbn [list_prod map fst].
      split; [apply mapM_Ok; apply Forall2_app; apply mapM_Ok; assumption|].
      split; [rewrite app_length, L1, Lt, length_freqs; simpl; lia|].
      split; [apply Forall_app; auto|].
      intros xs rho R A. rewrite map_app, Csum_app_list, (V1 xs rho R A), (V xs rho R A), <- RtoC_plus. reflexivity. }
  destruct (H (ff_rows F) (incl_refl _)) as (ts & E & Lt & G & V). exists ts. rewrite E. cbn [bind].
  split; [reflexivity|]. split; [exact Lt|]. split; [exact G|]. exact V.
Qed.

Lemma energy_fair F D args : matching F D ->
  exists e, energy_expr kev F D (Some args) = Ok (e, length args) /\ fair args e (fun rho => RtoC (misfit F D rho)).
Proof.
  intros Ma. destruct (terms_fair F D args Ma) as (ts & E & _ & G & V). unfold energy_expr. rewrite E. cbn [bind].
  eexists. split; [reflexivity|].
  assert (H : forall ts a, Forall (fun t => forall i, In i (kvars t) -> i < length args) (a :: ts) ->
    let e := fold_left (fun acc t => kev (KAdd [acc; t])) ts a in
    (forall i, In i (kvars e) -> i < length args) /\
    forall rho xs, respects rho -> keval rho xs e = Cplus (keval rho xs a) (fold_right Cplus (RtoC 0) (map (keval rho xs) ts))).
  { clear - KEV. induction ts as [|t ts IH]; intros a Fo; inversion Fo as [|? ? Ha Ht]; subst; cbn zeta.
    - cbn [fold_left]. split; [apply Ha|]. intros. cbn [map fold_right]. ring.
    - cbn [fold_left]. inversion Ht as [|? ? Ht1 Ht2]; subst.
      destruct (IH (kev (KAdd [a; t]))) as (I2 & I3).
      + constructor; [|exact Ht2].
        intros i Ii. apply (kev_vars kev KEV) in Ii. cbn [kvars flat_map] in Ii. rewrite app_nil_r in Ii. apply in_app_or in Ii as [Ii|Ii]; auto.
      + split; [exact I2|]. intros rho xs R. rewrite I3, (kev_val kev KEV) by exact R. cbn [keval map fold_right]. ring. }
  destruct (H ts (KNum (RtoC 0))) as (I2 & I3).
  { constructor; [|exact G]. intros i []. }
  split; [exact I2|]. intros xs rho R A. rewrite I3 by exact R. rewrite (V xs rho R A). cbn [keval]. ring.
Qed.

(** Expressions without symbols can be called, and have the value for every
    assignment. *)
Lemma call_closed (args : list sym) (ts : list code) xs rho : Forall (fun t => forall i, In i (kvars t) -> i < length args) ts ->
  Forall (fun t => ksyms t = []) ts -> length args <= length xs ->
  call ts xs = Some (Re (fold_right Cplus (RtoC 0) (map (keval rho (at_xs xs)) ts))).
Proof.
  intros G S L. unfold call. rewrite Forall_forall in G, S. rewrite (proj2 (forallb_forall _ ts)).
  - f_equal. rewrite Re_sum, map_map. f_equal. apply map_ext_in. intros t I. f_equal. apply keval_ext.
    + rewrite (S t I). intros s [].
    + reflexivity.
  - intros t I. apply callable_intro; [apply S; exact I|]. intros i Ii. apply (G t I) in Ii. lia.
Qed.
Lemma call_open (ts : list code) xs : Exists (fun t => ksyms t <> []) ts -> call ts xs = None.
Proof.
  intros X. unfold call. destruct (forallb (callable (length xs)) ts) eqn:E; [|reflexivity]. exfalso.
  rewrite forallb_forall in E. apply Exists_exists in X as (t & I & N). specialize (E t I). unfold callable in E.
  destruct (ksyms t); [congruence|discriminate].
Qed.
Lemma closed_or_open (ts : list code) : Forall (fun t => ksyms t = []) ts \/ Exists (fun t => ksyms t <> []) ts.
Proof.
  induction ts as [|t ts [IH|IH]]; [left; constructor| |right; right; exact IH].
  destruct (ksyms t) eqn:E; [left; constructor; auto|right; left; rewrite E; discriminate].
Qed.

Lemma plain_outcome F D args save fs : matching F D ->
  exists fs' lib, gen_cost_func kev F D (Some args) false save fs = (fs', Ok lib) /\
    ((forall xs, call lib xs = None) \/
     forall xs rho, respects rho -> length args <= length xs -> assigns args xs rho -> call lib xs = Some (misfit F D rho)).
Proof.
  intros Ma. destruct (energy_fair F D args Ma) as (e & E & G & V). unfold gen_cost_func. rewrite E. cbn [autowrap].
  eexists _, [e]. split; [reflexivity|]. destruct (closed_or_open [e]) as [C|O]; [right|left].
  - intros xs rho R L A. rewrite (call_closed args [e] xs rho (Forall_cons e G (Forall_nil _)) C L).
    cbn [map fold_right]. rewrite (V xs rho R A), Cplus_0_r. reflexivity.
  - intros xs. apply call_open. exact O.
Qed.

Lemma chunked_outcome F D args save fs : matching F D -> ff_rows F <> [] ->
  gen_cost_func kev F D (Some args) true save fs = (fs, Raise CodeGenArgumentListError) \/
  exists fs' lib, gen_cost_func kev F D (Some args) true save fs = (fs', Ok lib) /\
    forall xs rho, respects rho -> length args <= length xs -> assigns args xs rho -> call lib xs = Some (misfit F D rho).
Proof.
  intros Ma NE. destruct (terms_fair F D args Ma) as (ts & E & Lt & G & V). unfold gen_cost_func. rewrite E. unfold chunked.
  destruct (forallb _ ts) eqn:X; [right|left; reflexivity].
  assert (S : Forall (fun t => ksyms t = []) ts).
  { apply Forall_forall. intros t I. rewrite forallb_forall in X. specialize (X t I). cbv beta in X. destruct (ksyms t); [reflexivity|discriminate]. }
  destruct ts as [|t ts].
  - exfalso. apply NE. destruct (ff_rows F); [reflexivity|simpl in Lt; lia].
  - eexists _, (t :: ts). split; [reflexivity|]. intros xs rho R L A. rewrite (call_closed args (t :: ts) xs rho G S L).
    rewrite (V xs rho R A). reflexivity.
Qed.
End Cost.
