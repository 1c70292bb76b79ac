(** Derivatives at minima; the misfit does not depend on the order of the rows. *)
From Coq Require Import String List Arith ZArith QArith Reals Lra Lia Permutation.
From Coquelicot Require Import Complex.
From Verif Require Import PyBase CBase Expr ExprProofs DataModel FDataModel SpecFData FormModel SpecForm FitModel SpecFit FitProofs FitProofs2 FitProofs3 LsqProofs2.
Import ListNotations.
Local Open Scope nat_scope.

Lemma minimum_derivative f x l : derivable_pt_lim f x l -> (forall y, f x <= f y)%R -> l = 0%R.
Proof.
  intros D H. assert (pr : derivable_pt f x) by (exists l; exact D).
  rewrite <- (derive_pt_eq_0 f x l pr D). apply (deriv_minimum f (x - 1) (x + 1) x pr); try lra. intros; apply H.
Qed.
Lemma set_nth_same i xs : set_nth i (nth i xs 0%R) xs = xs.
Proof.
  revert i. induction xs as [|x xs IH]; intros [|i]; cbn [set_nth nth]; try reflexivity. f_equal. apply IH.
Qed.
Lemma set_nth_length i t xs : length (set_nth i t xs) = length xs.
Proof. revert i. induction xs as [|x xs IH]; intros [|i]; cbn [set_nth length]; auto. Qed.

Lemma gradient_at_minimum F D free xs g :
  length g = length free ->
  (forall i gi, nth_error g i = Some gi -> derivable_pt_lim (fun t => misfit F D (reading free (set_nth i t xs))) (nth i xs 0%R) gi) ->
  (forall ys, length ys = length xs -> misfit F D (reading free xs) <= misfit F D (reading free ys))%R ->
  g = repeat 0%R (length free).
Proof.
  intros L H M. rewrite <- L. clear L. assert (A : forall z, In z g -> z = 0%R).
  { intros z I. apply In_nth_error in I. destruct I as (i & E). specialize (H i z E).
    apply (minimum_derivative _ _ _ H). intros t. rewrite set_nth_same. apply M. apply set_nth_length. }
  clear H M. induction g as [|z g IH]; [reflexivity|]. cbn [length repeat]. f_equal; [apply A; left; reflexivity|].
  apply IH. intros y I. apply A. right; exact I.
Qed.

Lemma rows_back F F' k r : formula_ok F -> formula_ok F' -> (forall k, ff_get_pc F k = ff_get_pc F' k) -> In (k, r) (ff_rows F') ->
  exists r0, In (k, r0) (ff_rows F) /\ r_cells r0 = r_cells r.
Proof.
  intros O O' H I. specialize (H k). unfold ff_get_pc, dgetr in H. rewrite (In_dget k r (ff_rows F') (proj1 O') I) in H.
  destruct (dget k (ff_rows F)) as [r0|] eqn:E; [|discriminate]. exists r0. split; [apply dget_In; exact E|]. cbn [bind] in H. congruence.
Qed.
Lemma misfit_rows F F' D D' rho : matching F D -> matching F' D' -> ff_M F = ff_M F' ->
  (forall k, ff_get_pc F k = ff_get_pc F' k) -> (forall k, In k (ff_get_keys F) -> fget_pc D k = fget_pc D' k) ->
  misfit F D rho = misfit F' D' rho.
Proof.
  intros (O & _ & MD & _) (O' & _ & MD' & _) M H HD.
  assert (P : Permutation (map (fun kr => (fst kr, r_cells (snd kr))) (ff_rows F)) (map (fun kr => (fst kr, r_cells (snd kr))) (ff_rows F'))).
  { apply NoDup_Permutation.
    - apply (NoDup_map_inv fst). rewrite map_map. apply O.
    - apply (NoDup_map_inv fst). rewrite map_map. apply O'.
    - assert (G : forall A B, formula_ok A -> formula_ok B -> (forall k, ff_get_pc A k = ff_get_pc B k) -> forall x,
        In x (map (fun kr => (fst kr, r_cells (snd kr))) (ff_rows B)) -> In x (map (fun kr => (fst kr, r_cells (snd kr))) (ff_rows A))).
      { intros A B OA OB E x I. apply in_map_iff in I. destruct I as ([k r] & <- & I). destruct (rows_back A B k r OA OB E I) as (r0 & I0 & E0).
        apply in_map_iff. exists (k, r0). cbn [fst snd]. rewrite E0. auto. }
      intros x. split; apply G; auto. }
  pose (cost := fun kc : string * list expr => rsum (fun m => (Cmod (Cminus (eval rho (nth (Z.to_nat (m + Z.of_nat (ff_M F))) (snd kc) (num 0%Q))) (dvalue D (fst kc) m)) ^ 2)%R) (freqs (ff_M F))).
  assert (Q : forall A (f : A -> string * list expr) l, rsum (fun a => cost (f a)) l = rsum cost (map f l)).
  { intros A f l. unfold rsum. induction l as [|a l IH]; [reflexivity|]. cbn [map fold_right]. rewrite IH. reflexivity. }
  transitivity (rsum cost (map (fun kr => (fst kr, r_cells (snd kr))) (ff_rows F))); [rewrite <- Q; reflexivity|].
  rewrite (rsum_perm _ _ _ P), <- Q. unfold misfit. apply rsum_ext. intros [k r] I. unfold cost. cbn [fst snd]. unfold fcell. rewrite <- M.
  apply rsum_ext. intros m _. unfold dvalue.
  assert (Ik : In k (ff_get_keys F)).
  { destruct (rows_back F F' k r O O' H I) as (r0 & I0 & _). unfold ff_get_keys, dkeys. apply in_map_iff. exists (k, r0). auto. }
  specialize (HD k Ik). unfold fget_pc, dgetr in HD. rewrite MD, MD', <- M.
  destruct (dget k (fd_data D)), (dget k (fd_data D')); try discriminate; [injection HD as <-|]; reflexivity.
Qed.
