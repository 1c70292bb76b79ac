(** Tables of formulas. *)
From Coq Require Import String List ZArith Arith Lia Bool.
From Verif Require Import PyBase Expr DataModel DataProofs DataProofs2 FDataModel FDataProofs FormModel SpecForm FormProofs FormProofs2 MiscModel MiscProofs ViewModel SpecView.
Import ListNotations.
Local Open Scope nat_scope.

(** The rows of one polarization. *)
Definition block (M : nat) (kr : string * row) : list (string * Z * expr) :=
  map (fun q => (fst kr, fst q, snd q)) (combine (freqs M) (r_cells (snd kr))).

Lemma over_rows {B} F (g : string -> list expr -> res B) : ff_wf F ->
  mapM (fun k => do v <- ff_get_pc F k; g k v) (ff_get_keys F) = mapM (fun kr => g (fst kr) (r_cells (snd kr))) (ff_rows F).
Proof.
  intros [W _]. unfold ff_get_keys, dkeys.
  assert (G : forall l, incl l (ff_rows F) -> mapM (fun k => do v <- ff_get_pc F k; g k v) (map fst l) = mapM (fun kr => g (fst kr) (r_cells (snd kr))) l).
  { induction l as [|[k r] l IH]; intros I; [reflexivity|]. cbn [map fst mapM].
    unfold ff_get_pc at 1, dgetr. rewrite (In_dget _ _ _ W (I _ (or_introl eq_refl))). cbn [bind snd].
    rewrite IH by (intros z Z; apply I; right; auto). reflexivity. }
  apply G, incl_refl.
Qed.

Lemma ff_table_none F : ff_wf F -> ff_as_pandas F "none" = Ok (flat_map (block (ff_M F)) (ff_rows F)).
Proof.
  intros W. unfold ff_as_pandas. change (String.eqb "none" "multi") with false. change (String.eqb "none" "none") with true. cbv iota.
  rewrite (over_rows F (fun k v => do rows <- frame (freqs (ff_M F)) v; Ok (map (fun q => (k, fst q, snd q)) rows)) W).
  rewrite (mapM_ok_map _ (block (ff_M F))).
  - cbn [bind]. rewrite <- flat_map_concat_map. reflexivity.
  - intros [k r] I. destruct W as [_ L]. specialize (L _ _ I).
    unfold frame. cbn [fst snd]. rewrite length_freqs, L, Nat.eqb_refl. reflexivity.
Qed.

Lemma ff_table_multi F : ff_wf F -> ff_as_pandas F "multi" = Ok (flat_map (block (ff_M F)) (ff_rows F)).
Proof.
  intros W. unfold ff_as_pandas. rewrite (String.eqb_refl "multi").
  replace (mapM (ff_get_pc F) (ff_get_keys F)) with (mapM (fun k => do v <- ff_get_pc F k; Ok v) (ff_get_keys F)).
  2:{ generalize (ff_get_keys F). induction l; simpl; auto. rewrite IHl. destruct (ff_get_pc F a); auto. }
  rewrite (over_rows F (fun _ v => Ok v) W).
  rewrite (mapM_ok_map _ (fun kr => r_cells (snd kr))) by reflexivity. cbn [bind].
  assert (L : forall kr, In kr (ff_rows F) -> length (r_cells (snd kr)) = 2 * ff_M F + 1).
  { intros [k r] I. apply (proj2 W k r I). }
  set (cells := fun kr : string * row => r_cells (snd kr)) in *.
  assert (S : np_stack (map cells (ff_rows F)) = Ok (concat (map cells (ff_rows F)))).
  { destruct (ff_rows F) as [|kr r]; [reflexivity|]. cbn [map np_stack].
    replace (forallb _ (map cells r)) with true; [reflexivity|]. symmetry. apply forallb_forall. intros v I.
    apply in_map_iff in I as [kr' [<- I]]. apply Nat.eqb_eq. unfold cells. rewrite !L; auto; [left|right]; auto. }
  rewrite S. cbn [bind]. unfold frame, ff_get_keys, dkeys.
  assert (G : forall l : list (string * row), (forall kr, In kr l -> length (r_cells (snd kr)) = 2 * ff_M F + 1) ->
    length (concat (map cells l)) = length l * (2 * ff_M F + 1) /\
    combine (from_product (map fst l) (freqs (ff_M F))) (concat (map cells l)) = flat_map (block (ff_M F)) l).
  { induction l as [|kr l IH]; intros Ll; [auto|]. destruct IH as [I1 I2]; [intros; apply Ll; right; auto|].
    assert (L0 := Ll kr (or_introl eq_refl)). cbn [map concat flat_map length from_product]. split.
    - rewrite app_length, I1. unfold cells. rewrite L0. lia.
    - unfold cells at 1. rewrite combine_app by (rewrite map_length, length_freqs; auto). f_equal; [|exact I2].
      unfold block. generalize (freqs (ff_M F)) as z. generalize (r_cells (snd kr)) as v. clear.
      induction v; intros [|m z]; simpl; auto. f_equal; auto. }
  destruct (G (ff_rows F) L) as [G1 G2]. rewrite product_length, map_length, length_freqs, G1, Nat.eqb_refl, G2. reflexivity.
Qed.

Lemma block_labels M kr : length (r_cells (snd kr)) = 2 * M + 1 -> map fst (block M kr) = map (pair (fst kr)) (freqs M).
Proof.
  intros L. unfold block. rewrite map_map. cbn [fst]. assert (E : length (freqs M) = length (r_cells (snd kr))) by (rewrite length_freqs; auto).
  revert E. generalize (freqs M) as z. generalize (r_cells (snd kr)) as v. clear. induction v; intros [|m z]; simpl; intros; try discriminate; auto.
  f_equal. apply IHv. lia.
Qed.

Lemma table_labels F : ff_wf F -> map fst (flat_map (block (ff_M F)) (ff_rows F)) = labels F.
Proof.
  intros [_ L]. unfold labels, ff_get_keys, dkeys.
  assert (G : forall l : list (string * row), incl l (ff_rows F) -> map fst (flat_map (block (ff_M F)) l) = list_prod (map fst l) (freqs (ff_M F))).
  { induction l as [|[k r] l IH]; intros I; [reflexivity|]. cbn [flat_map map list_prod fst]. rewrite map_app. f_equal.
    - apply (block_labels _ (k, r)). apply (L k r), I. left; auto.
    - apply IH. intros z Z. apply I. right; auto. }
  apply G, incl_refl.
Qed.

Lemma NoDup_prod {A B} (a : list A) (b : list B) : NoDup a -> NoDup b -> NoDup (list_prod a b).
Proof.
  induction 1 as [|x a N H IH]; intros Hb; [constructor|]. cbn [list_prod].
  apply NoDup_app'; auto.
  - apply FinFun.Injective_map_NoDup; auto. intros y z E. congruence.
  - intros [u v] I1 I2. apply in_map_iff in I1 as (y & E & _). injection E as <- <-. apply in_prod_iff in I2 as [I2 _]. auto.
Qed.

Lemma labels_NoDup F : ff_wf F -> NoDup (labels F).
Proof. intros [W _]. apply NoDup_prod; [exact W|apply NoDup_zrange]. Qed.

Lemma in_combine_nth {A B} (a : list A) (b : list B) x y : In (x, y) (combine a b) <-> exists i, nth_error a i = Some x /\ nth_error b i = Some y.
Proof.
  revert b. induction a as [|x0 a IH]; intros [|y0 b]; simpl.
  - split; [intros []|]. intros (i & E & _). destruct i; discriminate.
  - split; [intros []|]. intros (i & E & _). destruct i; discriminate.
  - split; [intros []|]. intros (i & _ & E). destruct i; discriminate.
  - rewrite IH. split.
    + intros [E|(i & E)]; [exists 0; injection E as <- <-; auto|exists (S i); auto].
    + intros ([|i] & E1 & E2); [left; simpl in *; congruence|right; exists i; auto].
Qed.

Lemma nth_error_freqs M i : i < 2 * M + 1 -> nth_error (freqs M) i = Some (Z.of_nat i - Z.of_nat M)%Z.
Proof. intros L. rewrite (nth_error_nth' _ 0%Z) by (rewrite length_freqs; auto). rewrite freqs_nth by auto. reflexivity. Qed.

Lemma table_In F k m e : ff_wf F -> In (k, m, e) (flat_map (block (ff_M F)) (ff_rows F)) <-> formula_of F k m e.
Proof.
  intros [W L]. rewrite in_flat_map. unfold formula_of, block. split.
  - intros ([k' r] & I & B). apply in_map_iff in B as ([m' e'] & E & B). cbn [fst snd] in *. injection E as -> -> ->.
    apply in_combine_nth in B as (i & B1 & B2).
    exists (r_cells r). split; [unfold ff_get_pc, dgetr; rewrite (In_dget _ _ _ W I); reflexivity|].
    assert (Ii : i < 2 * ff_M F + 1) by (rewrite <- (L k r I); apply nth_error_Some; congruence).
    rewrite nth_error_freqs in B1 by auto. injection B1 as <-. split; [lia|].
    replace (Z.to_nat _) with i by lia. auto.
  - intros (v & E & B & N). unfold ff_get_pc, dgetr in E. destruct (dget k (ff_rows F)) as [r|] eqn:D; [|discriminate]. injection E as <-.
    exists (k, r). split; [apply dget_In; auto|]. apply in_map_iff. exists (m, e). split; [reflexivity|]. cbn [snd].
    apply in_combine_nth. exists (Z.to_nat (m + Z.of_nat (ff_M F))). split; auto. rewrite nth_error_freqs by lia. f_equal. lia.
Qed.

Lemma form_pcs f {B} (g : string -> expr -> B) : wf_dict f ->
  mapM (fun k => do e <- form_get_pc f k; Ok (g k e)) (dkeys f) = Ok (map (fun kv => g (fst kv) (snd kv)) f).
Proof.
  intros W. unfold dkeys.
  assert (G : forall l, incl l f -> mapM (fun k => do e <- form_get_pc f k; Ok (g k e)) (map fst l) = Ok (map (fun kv => g (fst kv) (snd kv)) l)).
  { induction l as [|[k e] l IH]; intros I; [reflexivity|]. cbn [map fst mapM snd].
    unfold form_get_pc at 1, dgetr. rewrite (In_dget _ _ _ W (I _ (or_introl eq_refl))). cbn [bind].
    rewrite IH by (intros z Z; apply I; right; auto). reflexivity. }
  apply G, incl_refl.
Qed.

Lemma form_table f index : wf_dict f -> (index = "multi" \/ index = "none")%string -> form_as_pandas f index = Ok f.
Proof.
  intros W [-> | ->]; unfold form_as_pandas.
  - rewrite (String.eqb_refl "multi").
    replace (mapM (form_get_pc f) (dkeys f)) with (mapM (fun k => do e <- form_get_pc f k; Ok e) (dkeys f)).
    2:{ generalize (dkeys f). induction l; simpl; auto. rewrite IHl. destruct (form_get_pc f a); auto. }
    rewrite (form_pcs f (fun _ e => e) W). cbn [bind]. unfold frame, dkeys. rewrite !map_length, Nat.eqb_refl. f_equal.
    clear W. induction f as [|[k e] f IH]; simpl; auto. f_equal. auto.
  - change (String.eqb "none" "multi") with false. change (String.eqb "none" "none") with true. cbv iota.
    rewrite (form_pcs f (fun k e => [(k, e)]) W). cbn [bind]. f_equal. clear W. induction f as [|[k e] f IH]; simpl; auto. f_equal. auto.
Qed.
