(** Evaluating what [gen_S] and [formgen] build. *)
From Coq Require Import String List Arith Bool Lia Reals QArith Qreals Lra.
From Coquelicot Require Import Complex.
Import ListNotations.
From Verif Require Import PyBase CBase Expr ExprProofs SpecForm TensorModel SpecTensor TensorInst TensorNat UtilModel
  DataModel FormModel FormgenModel SpecFormgen.
Local Open Scope nat_scope.

Lemma eval_num0 rho : eval rho (num 0) = RtoC 0.
Proof. rewrite eval_num, Q2R_0'. reflexivity. Qed.
Lemma eval_num1 rho : eval rho (num 1) = RtoC 1.
Proof. rewrite eval_num, Q2R_1'. reflexivity. Qed.
Lemma eval_numm1 rho : eval rho (num (-1)) = Copp (RtoC 1).
Proof. rewrite eval_num, Q2R_neg1. apply C_ext; unfold Re, Im; simpl; ring. Qed.

(** Products followed by a contraction, on numbers *)
Definition cprodC (ts : list (tensor C)) (pairs : list (list nat)) : res (tensor C) :=
  do p <- tensor_product ts; tensor_contract p pairs.

Lemma destruct_shape {A} (t : tensor A) sh : shape t = sh -> t = mkT sh (at_ t).
Proof. intros <-. destruct t; reflexivity. Qed.

(** One step of a contraction, with the sum kept folded *)
Definition sumN {A} `{Sig A} (n : nat) (f : nat -> A) : A := sumv (map f (seq 0 n)).

Lemma loop_step {A} `{Sig A} sh (f : list nat -> A) idx a b rest p q idx' n :
  mapM (fun x => list_index x idx) [a; b] = Ok [p; q] ->
  fold_left (fun acc x => do l <- acc; list_remove x l) [a; b] (Ok idx) = Ok idx' ->
  (p <? length sh) && (q <? length sh) && (p <? q) = true ->
  min (nth p sh 0) (nth q sh 0) = n ->
  contract_loop (mkT sh f) idx ([a; b] :: rest) =
  contract_loop (mkT (del p (del q sh)) (fun o => sumN n (fun v => f (ins q v (ins p v o))))) idx' rest.
Proof.
  intros M L B N. cbn [contract_loop]. rewrite M. cbn [bind]. unfold trace, rank. cbn [shape at_].
  rewrite !andb_true_iff, !Nat.ltb_lt in B. destruct B as [[B1 B2] B3].
  rewrite (proj2 (Nat.ltb_lt _ _) B1), (proj2 (Nat.ltb_lt _ _) B2), (proj2 (Nat.eqb_neq _ _) (Nat.lt_neq _ _ B3)).
  cbn [andb negb bind]. rewrite L. cbn [bind].
  rewrite (Nat.min_l p q), (Nat.max_r p q) by lia. rewrite N. reflexivity.
Qed.

Ltac run :=
  unfold cprodC, outer, tensor_contract, rank; cbv [tensor_product bind shape app length]; unfold outer, rank;
  cbv [shape app length seq];
  repeat (erewrite loop_step; [|reflexivity|reflexivity|reflexivity|reflexivity]; cbv [del ins firstn skipn app]);
  cbn [contract_loop at_];
  eexists; split; [reflexivity|split; [reflexivity|]].

(** Explicit sums, for entries of any kind *)
Section Generic.
Context {A : Type} `{Sig A}.
Notation cprod ts pairs := (do p <- tensor_product ts; tensor_contract p pairs).
Ltac rung :=
  unfold outer, tensor_contract, rank; cbv [tensor_product bind shape app length]; unfold outer, rank;
  cbv [shape app length seq];
  repeat (erewrite loop_step; [|reflexivity|reflexivity|reflexivity|reflexivity]; cbv [del ins firstn skipn app]);
  cbn [contract_loop at_];
  eexists; split; [reflexivity|split; [reflexivity|]].

Lemma rotate3G (R t : tensor A) : shape R = [3; 3] -> shape t = [3; 3; 3] ->
  exists u, cprod [R; R; R; t] [[1; 6]; [3; 7]; [5; 8]] = Ok u /\ shape u = [3; 3; 3] /\
  forall i j k, at_ u [i; j; k] =
    sumN 3 (fun n => sumN 3 (fun m => sumN 3 (fun l => mul (at_ R [i; l]) (mul (at_ R [j; m]) (mul (at_ R [k; n]) (at_ t [l; m; n])))))).
Proof.
  intros HR Ht. rewrite (destruct_shape R _ HR), (destruct_shape t _ Ht). generalize (at_ R) (at_ t). clear HR Ht R t. intros r f.
  cbn [at_ shape]. rung. reflexivity.
Qed.
Lemma rotate4G (R t : tensor A) : shape R = [3; 3] -> shape t = [3; 3; 3; 3] ->
  exists u, cprod [R; R; R; R; t] [[1; 8]; [3; 9]; [5; 10]; [7; 11]] = Ok u /\ shape u = [3; 3; 3; 3] /\
  forall i j k h, at_ u [i; j; k; h] =
    sumN 3 (fun o => sumN 3 (fun n => sumN 3 (fun m => sumN 3 (fun l =>
      mul (at_ R [i; l]) (mul (at_ R [j; m]) (mul (at_ R [k; n]) (mul (at_ R [h; o]) (at_ t [l; m; n; o])))))))).
Proof.
  intros HR Ht. rewrite (destruct_shape R _ HR), (destruct_shape t _ Ht). generalize (at_ R) (at_ t). clear HR Ht R t. intros r f.
  cbn [at_ shape]. rung. reflexivity.
Qed.
Lemma dipoleG (t F : tensor A) : shape t = [3; 3; 3] -> shape F = [3] ->
  exists u, cprod [t; F; F] [[1; 3]; [2; 4]] = Ok u /\ shape u = [3] /\
  forall i, at_ u [i] = sumN 3 (fun k => sumN 3 (fun j => mul (at_ t [i; j; k]) (mul (at_ F [j]) (at_ F [k])))).
Proof.
  intros Ht HF. rewrite (destruct_shape t _ Ht), (destruct_shape F _ HF). generalize (at_ F) (at_ t). clear Ht HF t F. intros r f.
  cbn [at_ shape]. rung. reflexivity.
Qed.
Lemma quadrupoleG (t k F : tensor A) : shape t = [3; 3; 3; 3] -> shape k = [3] -> shape F = [3] ->
  exists u, cprod [t; k; F; F] [[1; 4]; [2; 5]; [3; 6]] = Ok u /\ shape u = [3] /\
  forall i, at_ u [i] =
    sumN 3 (fun m => sumN 3 (fun l => sumN 3 (fun j => mul (at_ t [i; j; l; m]) (mul (at_ k [j]) (mul (at_ F [l]) (at_ F [m])))))).
Proof.
  intros Ht Hk HF. rewrite (destruct_shape k _ Hk), (destruct_shape t _ Ht), (destruct_shape F _ HF).
  generalize (at_ k) (at_ t) (at_ F). clear Ht Hk HF t k F. intros k t F.
  cbn [at_ shape]. rung. reflexivity.
Qed.
End Generic.

(** Sums as [np.trace] writes them *)
Definition sumt (f : nat -> C) : C := (f 0 + (f 1 + (f 2 + RtoC 0)))%C.
Lemma sumt_sum3 : sumt = sum3.
Proof. apply FunctionalExtensionality.functional_extensionality. intros f. unfold sumt, sum3. ring. Qed.
Lemma sum3_ext f g : (forall i, i < 3 -> f i = g i) -> sum3 f = sum3 g.
Proof. intros H. unfold sum3. rewrite !H by lia. reflexivity. Qed.
Lemma sum3_swap (f : nat -> nat -> C) : sum3 (fun i => sum3 (fun j => f i j)) = sum3 (fun j => sum3 (fun i => f i j)).
Proof. unfold sum3. ring. Qed.
Lemma sum3_mult_l c f : sum3 (fun i => c * f i)%C = (c * sum3 f)%C.
Proof. unfold sum3. ring. Qed.
Lemma sum3_mult_r c f : sum3 (fun i => f i * c)%C = (sum3 f * c)%C.
Proof. unfold sum3. ring. Qed.
Lemma sum3_plus f g : sum3 (fun i => f i + g i)%C = (sum3 f + sum3 g)%C.
Proof. unfold sum3. ring. Qed.
Lemma sum3_rev3 (f : nat -> nat -> nat -> C) :
  sum3 (fun k => sum3 (fun j => sum3 (fun i => f i j k))) = sum3 (fun i => sum3 (fun j => sum3 (fun k => f i j k))).
Proof.
  transitivity (sum3 (fun k => sum3 (fun i => sum3 (fun j => f i j k)))).
  - apply sum3_ext. intros. apply sum3_swap.
  - rewrite sum3_swap. apply sum3_ext. intros. apply sum3_swap.
Qed.
Lemma sum3_rev4 (f : nat -> nat -> nat -> nat -> C) :
  sum3 (fun h => sum3 (fun k => sum3 (fun j => sum3 (fun i => f i j k h)))) =
  sum3 (fun i => sum3 (fun j => sum3 (fun k => sum3 (fun h => f i j k h)))).
Proof.
  transitivity (sum3 (fun h => sum3 (fun i => sum3 (fun j => sum3 (fun k => f i j k h))))).
  - apply sum3_ext. intros. apply (sum3_rev3 (fun i j k => f i j k _)).
  - rewrite sum3_swap. apply sum3_ext. intros. rewrite sum3_swap. apply sum3_ext. intros. apply sum3_swap.
Qed.
Ltac same_sum := repeat (apply sum3_ext; intros); ring.

Lemma rotate3C (R t : tensor C) : shape R = [3; 3] -> shape t = [3; 3; 3] ->
  exists u, cprodC [R; R; R; t] [[1; 6]; [3; 7]; [5; 8]] = Ok u /\ shape u = [3; 3; 3] /\
  forall i j k, at_ u [i; j; k] =
    sum3 (fun l => sum3 (fun m => sum3 (fun n => at_ R [i; l] * at_ R [j; m] * at_ R [k; n] * at_ t [l; m; n])))%C.
Proof.
  intros HR Ht. rewrite (destruct_shape R _ HR), (destruct_shape t _ Ht). generalize (at_ R) (at_ t). clear. intros r f.
  cbn [at_ shape]. run. intros i j k. cbn [at_].
  change (sumt (fun n => sumt (fun m => sumt (fun l => r [i; l] * (r [j; m] * (r [k; n] * f [l; m; n])))))%C =
    sum3 (fun l => sum3 (fun m => sum3 (fun n => r [i; l] * r [j; m] * r [k; n] * f [l; m; n])))%C).
  rewrite sumt_sum3. rewrite sum3_rev3. same_sum.
Qed.

Lemma rotate4C (R t : tensor C) : shape R = [3; 3] -> shape t = [3; 3; 3; 3] ->
  exists u, cprodC [R; R; R; R; t] [[1; 8]; [3; 9]; [5; 10]; [7; 11]] = Ok u /\ shape u = [3; 3; 3; 3] /\
  forall i j k h, at_ u [i; j; k; h] =
    sum3 (fun l => sum3 (fun m => sum3 (fun n => sum3 (fun o =>
      at_ R [i; l] * at_ R [j; m] * at_ R [k; n] * at_ R [h; o] * at_ t [l; m; n; o]))))%C.
Proof.
  intros HR Ht. rewrite (destruct_shape R _ HR), (destruct_shape t _ Ht). generalize (at_ R) (at_ t). clear. intros r f.
  cbn [at_ shape]. run. intros i j k h. cbn [at_].
  change (sumt (fun o => sumt (fun n => sumt (fun m => sumt (fun l =>
      r [i; l] * (r [j; m] * (r [k; n] * (r [h; o] * f [l; m; n; o]))))))%C) =
    sum3 (fun l => sum3 (fun m => sum3 (fun n => sum3 (fun o => r [i; l] * r [j; m] * r [k; n] * r [h; o] * f [l; m; n; o]))))%C).
  rewrite sumt_sum3. rewrite sum3_rev4. same_sum.
Qed.

Lemma dipoleC (t F : tensor C) : shape t = [3; 3; 3] -> shape F = [3] ->
  exists u, cprodC [t; F; F] [[1; 3]; [2; 4]] = Ok u /\ shape u = [3] /\
  forall i, at_ u [i] = sum3 (fun j => sum3 (fun k => at_ t [i; j; k] * at_ F [j] * at_ F [k]))%C.
Proof.
  intros Ht HF. rewrite (destruct_shape t _ Ht), (destruct_shape F _ HF). generalize (at_ F) (at_ t). clear. intros r f.
  cbn [at_ shape]. run. intros i. cbn [at_].
  change (sumt (fun k => sumt (fun j => f [i; j; k] * (r [j] * r [k]))) = sum3 (fun j => sum3 (fun k => f [i; j; k] * r [j] * r [k])))%C.
  rewrite sumt_sum3, sum3_swap. same_sum.
Qed.

Lemma magneticC (z k t F : tensor C) : shape z = [3; 3; 3] -> shape k = [3] -> shape t = [3; 3; 3] -> shape F = [3] ->
  exists u, cprodC [z; k; t; F; F] [[1; 3]; [2; 4]; [5; 7]; [6; 8]] = Ok u /\ shape u = [3] /\
  forall i, at_ u [i] = sum3 (fun a => sum3 (fun b => at_ z [i; a; b] * at_ k [a] *
    sum3 (fun j => sum3 (fun l => at_ t [b; j; l] * at_ F [j] * at_ F [l]))))%C.
Proof.
  intros Hz Hk Ht HF. rewrite (destruct_shape z _ Hz), (destruct_shape k _ Hk), (destruct_shape t _ Ht), (destruct_shape F _ HF).
  generalize (at_ z) (at_ k) (at_ t) (at_ F). clear. intros z k t F.
  cbn [at_ shape]. run. intros i. cbn [at_].
  change (sumt (fun l => sumt (fun j => sumt (fun b => sumt (fun a => z [i; a; b] * (k [a] * (t [b; j; l] * (F [j] * F [l]))))))) =
    sum3 (fun a => sum3 (fun b => z [i; a; b] * k [a] * sum3 (fun j => sum3 (fun l => t [b; j; l] * F [j] * F [l])))))%C.
  rewrite sumt_sum3, sum3_rev4. do 2 (apply sum3_ext; intros). rewrite <- sum3_mult_l. apply sum3_ext; intros.
  rewrite <- sum3_mult_l. same_sum.
Qed.

Lemma quadrupoleC (t k F : tensor C) : shape t = [3; 3; 3; 3] -> shape k = [3] -> shape F = [3] ->
  exists u, cprodC [t; k; F; F] [[1; 4]; [2; 5]; [3; 6]] = Ok u /\ shape u = [3] /\
  forall i, at_ u [i] = sum3 (fun j => sum3 (fun l => sum3 (fun m => at_ t [i; j; l; m] * at_ k [j] * at_ F [l] * at_ F [m])))%C.
Proof.
  intros Ht Hk HF. rewrite (destruct_shape k _ Hk), (destruct_shape t _ Ht), (destruct_shape F _ HF).
  generalize (at_ k) (at_ t) (at_ F). clear. intros k t F.
  cbn [at_ shape]. run. intros i. cbn [at_].
  change (sumt (fun m => sumt (fun l => sumt (fun j => t [i; j; l; m] * (k [j] * (F [l] * F [m]))))) =
    sum3 (fun j => sum3 (fun l => sum3 (fun m => t [i; j; l; m] * k [j] * F [l] * F [m]))))%C.
  rewrite sumt_sum3, sum3_rev3. same_sum.
Qed.
