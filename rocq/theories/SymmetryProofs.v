(** Lemmas about subgroups and permutation symmetry. *)
From Coq Require Import String List Arith Bool Lia Permutation.
From Coquelicot Require Import Complex.
From Verif Require Import PyBase CBase Expr TensorModel SpecTensor TensorProofs TensorProofs2 TensorInst SpecGroups
  GroupProofs GroupProofs2 SpecSymmetry.
Import ListNotations.
Local Open Scope nat_scope.

(** ** Subgroups *)
Lemma special_of_invariant (t t' : tensor expr) gens gens' n :
  shape t = repeat 3 (S n) -> shape t' = repeat 3 (S n) -> complete_table t gens -> invariant_table t' gens' -> subgroup gens gens' ->
  special_case t' t.
Proof.
  intros St St' Co Inv Sub rho'. apply Co.
  - cbn [instance tmap shape]. congruence.
  - intros g Ig. destruct (Sub (matmul 3 (identity 3) (mat g))) as (R & G & T); [apply gen_step; [constructor|exact Ig]|].
    assert (E : teq (matmul 3 (identity 3) (mat g)) (mat g)).
    { split; [reflexivity|]. intros i Ii. apply in_indices in Ii. simpl in Ii.
      pose proof (fits_length _ _ Ii) as L. destruct i as [|i [|j [|]]]; try discriminate.
      pose proof (fits_nth _ _ 0 Ii). pose proof (fits_nth _ _ 1 Ii). simpl in *.
      assert (Li : i < 3) by lia. destruct i as [|[|[|i]]]; [..|lia]; simpl; ring. }
    apply (invariant_teq _ R _ n); [exact St'|exact (generated_shape _ _ G)| |exact (Inv rho' R G)].
    exact (teq_trans _ _ _ T E).
Qed.

(** ** Permutations of the indices *)
Fixpoint swp (n : nat) (l : list nat) : list nat :=
  match n, l with
  | O, a :: b :: l' => b :: a :: l'
  | S n', a :: l' => a :: swp n' l'
  | _, _ => l
  end.
Lemma swp_swp n : forall l, swp n (swp n l) = l.
Proof. induction n as [|n IH]; intros [|a [|b l]]; cbn; auto; rewrite ?IH; auto. Qed.
Lemma swp_length n : forall l, length (swp n l) = length l.
Proof. induction n as [|n IH]; intros [|a [|b l]]; cbn; auto; f_equal; apply IH. Qed.
Lemma swp_perm n : forall l, Permutation l (swp n l).
Proof. induction n as [|n IH]; intros [|a [|b l]]; cbn; auto; constructor. Qed.
Lemma swp_app i : forall a b j, swp (length i) (i ++ a :: b :: j) = i ++ b :: a :: j.
Proof. induction i as [|x i IH]; intros; cbn; [reflexivity|]. rewrite IH. reflexivity. Qed.

Lemma fits_cube d n i : fits (repeat d n) i <-> length i = n /\ Forall (fun x => x < d) i.
Proof.
  unfold fits. revert n. induction i as [|x i IH]; intros [|n]; cbn.
  - split; auto.
  - split; [intros H; inversion H|intros [H _]; discriminate].
  - split; [intros H; inversion H|intros [H _]; discriminate].
  - split.
    + intros H. inversion H; subst. apply IH in H5. destruct H5 as [-> F]. auto.
    + intros [L F]. inversion F; subst. constructor; [exact H1|]. apply IH. split; [congruence|exact H2].
Qed.
Lemma fits_perm d n i j : Permutation i j -> fits (repeat d n) i -> fits (repeat d n) j.
Proof.
  intros P F. apply fits_cube in F. destruct F as [L F]. apply fits_cube. split.
  - rewrite <- L. symmetry. apply Permutation_length, P.
  - rewrite Forall_forall in *. intros x I. apply F. apply (Permutation_in x (Permutation_sym P) I).
Qed.

Section Sums.
Context {A : Type} {S : Sig A} {L : CSR A}.

Lemma prod_swp (R : tensor A) n : forall i a, length i = length a ->
  prod_entries R (swp n i) (swp n a) = prod_entries R i a.
Proof.
  induction n as [|n IH]; intros [|x [|y i]] [|u [|v a]] E; cbn; try discriminate; auto.
  - rewrite !mul_A, (mul_C (at_ R [y; v])). reflexivity.
  - f_equal. apply IH. cbn in *. lia.
  - f_equal. apply IH. cbn in *. lia.
Qed.

(** Reindexing the sum. *)
Lemma indices_swp d r n : Permutation (indices (repeat d r)) (map (swp n) (indices (repeat d r))).
Proof.
  apply NoDup_Permutation.
  - apply NoDup_indices.
  - apply FinFun.Injective_map_NoDup; [|apply NoDup_indices]. intros x y E. rewrite <- (swp_swp n x), <- (swp_swp n y), E. reflexivity.
  - intros x. rewrite in_map_iff. split.
    + intros I. exists (swp n x). split; [apply swp_swp|]. apply in_indices in I. apply in_indices. apply (fits_perm _ _ _ _ (swp_perm n x) I).
    + intros (y & <- & I). apply in_indices in I. apply in_indices. apply (fits_perm _ _ _ _ (swp_perm n y) I).
Qed.
Lemma rotated_swp (t R : tensor A) d r n i : shape t = repeat d r -> length i = r ->
  (forall a, fits (repeat d r) a -> at_ t (swp n a) = at_ t a) -> rotated t R (swp n i) = rotated t R i.
Proof.
  intros Sh Li Sy. unfold rotated. rewrite Sh.
  rewrite (sumv_perm _ _ (Permutation_map (fun a => mul (prod_entries R (swp n i) a) (at_ t a)) (indices_swp d r n))).
  rewrite map_map. apply sum_ext_in. intros a I. apply in_indices in I.
  pose proof (proj1 (proj1 (fits_cube _ _ _) I)) as La.
  rewrite prod_swp by congruence. rewrite Sy by exact I. reflexivity.
Qed.

Lemma exchange_swp d r n (t : tensor A) : shape t = repeat d r -> exchange_symmetric n t ->
  forall a, fits (repeat d r) a -> at_ t (swp n a) = at_ t a.
Proof.
  intros Sh X a F.
  destruct (le_lt_dec (length a) (n + 1)) as [Le|Lt].
  - assert (E : forall n l, length l <= n + 1 -> swp n l = l).
    { clear. induction n as [|n IH]; intros [|x [|y l]] E; cbn in *; auto; try lia; f_equal; apply IH; cbn; lia. }
    rewrite E by exact Le. reflexivity.
  - destruct (skipn n a) as [|x [|y l]] eqn:Es.
    + apply (f_equal (@length _)) in Es. rewrite skipn_length in Es. cbn in Es. lia.
    + apply (f_equal (@length _)) in Es. rewrite skipn_length in Es. cbn in Es. lia.
    + assert (Ea : a = firstn n a ++ x :: y :: l) by (rewrite <- Es; symmetry; apply firstn_skipn).
      assert (Ln : length (firstn n a) = n) by (rewrite firstn_length; lia).
      rewrite Ea at 1. rewrite <- Ln at 1. rewrite swp_app, <- X by (auto; rewrite Sh, <- Ea; exact F). rewrite <- Ea. reflexivity.
Qed.

Lemma exchange_transform (t R u : tensor A) d n : is_matrix d R -> is_cube d t -> 1 <= rank t ->
  transform t R = Ok u -> exchange_symmetric n t -> exchange_symmetric n u.
Proof.
  intros HR HC Hr T X i a b j Li F.
  destruct (transform_ok t R d HR HC Hr) as (u' & E & Su & Hu). assert (u' = u) by congruence. subst u'.
  rewrite Su in F. unfold is_cube in HC. pose proof F as F'. rewrite HC in F'.
  assert (P : Permutation (i ++ a :: b :: j) (i ++ b :: a :: j)) by (apply Permutation_app_head; constructor).
  rewrite !Hu; [|rewrite HC; apply (fits_perm _ _ _ _ P F')|exact F].
  subst n. rewrite <- (swp_app i a b j). symmetry. apply (rotated_swp t R d (rank t)); [exact HC|apply (proj1 (fits_cube _ _ _) F')|].
  apply (exchange_swp d (rank t)); auto.
Qed.

Lemma full_exchange n (t : tensor A) : fully_symmetric t -> exchange_symmetric n t.
Proof. intros X i a b j _ F. apply X; [exact F|]. apply Permutation_app_head. constructor. Qed.
Lemma exchange_full (t : tensor A) d : is_cube d t -> (forall n, exchange_symmetric n t) -> fully_symmetric t.
Proof.
  intros HC X. unfold is_cube in HC.
  assert (G : forall i j, Permutation i j -> forall p, fits (shape t) (p ++ i) -> at_ t (p ++ i) = at_ t (p ++ j)).
  { induction 1; intros p F.
    - reflexivity.
    - change (p ++ x :: l) with (p ++ [x] ++ l) in *. change (p ++ x :: l') with (p ++ [x] ++ l'). rewrite !app_assoc in *. auto.
    - apply (X (length p)); auto.
    - rewrite IHPermutation1 by exact F. apply IHPermutation2. rewrite HC in *.
      apply (fits_perm _ _ (p ++ l)); [|exact F]. apply Permutation_app_head. assumption. }
  intros i j F P. exact (G i j P [] F).
Qed.
Lemma full_transform (t R u : tensor A) d : is_matrix d R -> is_cube d t -> 1 <= rank t ->
  transform t R = Ok u -> fully_symmetric t -> fully_symmetric u.
Proof.
  intros HR HC Hr T X.
  destruct (transform_ok t R d HR HC Hr) as (u' & E & Su & Hu). assert (u' = u) by congruence. subst u'.
  apply (exchange_full u d).
  - unfold is_cube, rank in *. rewrite Su. exact HC.
  - intros n. apply (exchange_transform t R u d n HR HC Hr T). apply full_exchange, X.
Qed.
End Sums.

(** Deciding the subgroup relation. *)
Definition sub_check (gens gens' : list smat) : bool :=
  closed gens (elements gens) && forallb (fun z => mem z (elements gens')) (elements gens).
Lemma sub_check_ok gens gens' : sub_check gens gens' = true -> subgroup gens gens'.
Proof.
  unfold sub_check. rewrite andb_true_iff, forallb_forall. intros [Cl H] R G.
  destruct (closed_all _ _ Cl R G) as (z & Iz & T).
  destruct (elements_reached gens' z (mem_In _ _ (H z Iz))) as (R' & G' & T'). exists R'. split; [exact G'|].
  exact (teq_trans _ _ _ T' (teq_sym _ _ T)).
Qed.
