(** The contraction with the susceptibilities. *)
From Coq Require Import String List Arith ZArith Bool Lia Reals QArith Qreals Lra.
From Coquelicot Require Import Complex.
Import ListNotations.
From Verif Require Import PyBase CBase Expr ExprProofs FormModel SpecForm SpecFData FDataModel FDataProofs FormProofs3 TensorInst UtilModel
  FormgenProofs3 FformgenModel SpecFormgen SpecFformgen
  FormgenProofs FformgenProofs FformgenProofs2 FformgenProofs3 FformgenAlg FformgenProofs4.
From Verif Require Import SpecTensor TensorModel.
Local Open Scope nat_scope.

Lemma map_add_length {A} (f : A * A -> A) (a b : list A) n : length a = n -> length b = n -> length (map f (combine a b)) = n.
Proof. intros. rewrite map_length, combine_length. lia. Qed.

Lemma map_combine_nth (f : expr * expr -> expr) (a b : list expr) d i : length a = length b -> i < length a ->
  nth i (map f (combine a b)) d = f (nth i a d, nth i b d).
Proof.
  intros L H. rewrite (nth_indep _ d (f (d, d))) by (rewrite map_length, combine_length; lia).
  rewrite map_nth, combine_nth by auto. reflexivity.
Qed.

Section Contr.
Variable ev : expr -> expr.
Hypothesis EV : sound_ev ev.
Variable rho : sym -> C.
Hypothesis RS : respects rho.

(** A row of coefficients and the function it stands for *)
Definition row_is (M b : nat) (l : list expr) (v : R -> C) : Prop :=
  length l = 2 * M + 1 /\
  (forall n, In n (freqs M) -> (Z.of_nat b < Z.abs n)%Z -> eval rho (nth (Z.to_nat (n + Z.of_nat M)) l (num 0)) = RtoC 0) /\
  forall x, Csum (fun n => eval rho (nth (Z.to_nat (n + Z.of_nat M)) l (num 0)) * cis (IZR n * x))%C (freqs M) = v x.

Lemma row_ext M b l v w : row_is M b l v -> (forall x, v x = w x) -> row_is M b l w.
Proof. intros (L & B & S) E. split; [|split]; auto. intros x. rewrite S. apply E. Qed.

Lemma row_zero M b : row_is M b (map (fun _ => num 0) (freqs M)) (fun _ => RtoC 0).
Proof.
  assert (Z : forall i, eval rho (nth i (map (fun _ : Z => num 0) (freqs M)) (num 0)) = RtoC 0).
  { intros i. rewrite (map_nth (fun _ : Z => num 0) (freqs M) 0%Z). apply eval_num0. }
  split; [|split].
  - rewrite map_length. apply length_freqs.
  - intros n _ _. apply Z.
  - intros x. apply Csum_0_in. intros n _. rewrite Z. ring.
Qed.

Lemma contract_term_row M b sh sh' l1 l2 L1 L2 chi1 chi2 h v acc va : b <= 8 ->
  applies rho sh sh' (fun t => do p <- @tensor_product expr (Sig_ev ev) [t; chi1]; @tensor_contract expr (Sig_ev ev) p l1) L1 ->
  applies rho sh' [] (fun t => do p <- @tensor_product expr (Sig_ev ev) [t; chi2]; @tensor_contract expr (Sig_ev ev) p l2) L2 ->
  carries rho M b sh h v -> row_is M 8 acc va ->
  exists acc', contract_term ev M h chi1 chi2 l1 l2 acc = Ok acc' /\
    row_is M 8 acc' (fun x => va x + L2 [] (fun o => L1 o (v x)))%C.
Proof.
  intros Hb A1 A2 Ch (La & Ba & Sa). unfold contract_term.
  destruct (each_carries rho M b sh sh' _ L1 h v A1 Ch) as (t8 & E8 & C8).
  destruct (each_carries rho M b sh' [] _ L2 t8 _ A2 C8) as (t9 & E9 & (W & B & S)).
  unfold Sig_fform. rewrite E8. cbn [bind]. rewrite E9. cbn [bind].
  assert (V : mapM scalar t9 = Ok (map (fun t => at_ t []) t9)).
  { destruct W as [_ W]. clear - W. induction W as [|t l H W IH]; simpl; auto.
    unfold scalar at 1. rewrite H. cbn [bind]. rewrite IH. reflexivity. }
  rewrite V. cbn [bind]. eexists. split; [reflexivity|]. destruct W as [Lt _].
  assert (N : forall n, In n (freqs M) ->
    eval rho (nth (Z.to_nat (n + Z.of_nat M)) (map (fun ab => @add expr (Sig_ev ev) (fst ab) (snd ab)) (combine acc (map (fun t => at_ t []) t9))) (num 0)) =
    (eval rho (nth (Z.to_nat (n + Z.of_nat M)) acc (num 0)) + coefficient rho M t9 n [])%C).
  { intros n I. apply In_freqs in I.
    rewrite (map_combine_nth (fun ab => @add expr (Sig_ev ev) (fst ab) (snd ab))) by (rewrite ?map_length; lia).
    cbn [fst snd]. rewrite (eval_add ev EV rho RS). f_equal. unfold coefficient.
    rewrite (map_nth (fun t : tensor expr => at_ t []) t9 (mkT [] (fun _ => num 0))). reflexivity. }
  assert (F0 : fits [] []) by constructor.
  split; [|split].
  - apply map_add_length; rewrite ?map_length; lia.
  - intros n I H. rewrite N by auto. rewrite Ba, B by (auto; lia). ring.
  - intros x. rewrite <- Sa, <- (S [] x F0). unfold synthesis. rewrite <- Csum_plus. apply Csum_ext_in. intros n I.
    rewrite N by auto. ring.
Qed.

Lemma conj_shape t : shape (conjugate_tensor ev t) = shape t.
Proof. reflexivity. Qed.
Lemma conj_at t i : eval rho (at_ (conjugate_tensor ev t) i) = Cconj (eval rho (at_ t i)).
Proof. unfold conjugate_tensor, tmap. cbn [at_]. unfold FormgenModel.conjugate. rewrite (proj1 EV) by auto. reflexivity. Qed.

(** One polarization combination *)
Lemma contract_terms_row g inp out L d q : real_setup g -> shape d = [3; 3; 3] -> shape q = [3; 3; 3; 3] ->
  stored_terms rho g inp out L ->
  exists v, contract_terms ev 16 0 L [d; d; q; q] [conjugate_tensor ev d; conjugate_tensor ev q; conjugate_tensor ev d; conjugate_tensor ev q]
      (map (fun _ => num 0) (freqs 16)) = Ok v /\
    row_is 16 8 v (fun x => RtoC (setup_intensity g (val3 rho (Some d)) (val4 rho (Some q)) inp out x)).
Proof.
  intros RG Sd Sq (t1 & t2 & t3 & t4 & -> & C1 & C2 & C3 & C4).
  pose proof (row_zero 16 8) as R0. set (z := map (fun _ => num 0) (freqs 16)) in *.
  assert (Sd' : shape (conjugate_tensor ev d) = [3; 3; 3]) by exact Sd.
  assert (Sq' : shape (conjugate_tensor ev q) = [3; 3; 3; 3]) by exact Sq.
  destruct (contract_term_row 16 6 _ _ _ _ _ _ d (conjugate_tensor ev d) t1 _ z _ ltac:(lia)
    (first_1 ev EV rho RS d Sd) (second_3 ev EV rho RS _ Sd') C1 R0) as (a1 & E1 & R1).
  destruct (contract_term_row 16 7 _ _ _ _ _ _ d (conjugate_tensor ev q) t2 _ a1 _ ltac:(lia)
    (first_2 ev EV rho RS d Sd) (second_4 ev EV rho RS _ Sq') C2 R1) as (a2 & E2 & R2).
  destruct (contract_term_row 16 7 _ _ _ _ _ _ q (conjugate_tensor ev d) t3 _ a2 _ ltac:(lia)
    (first_3 ev EV rho RS q Sq) (second_3 ev EV rho RS _ Sd') C3 R2) as (a3 & E3 & R3).
  destruct (contract_term_row 16 8 _ _ _ _ _ _ q (conjugate_tensor ev q) t4 _ a3 _ ltac:(lia)
    (first_4 ev EV rho RS q Sq) (second_4 ev EV rho RS _ Sq') C4 R3) as (a4 & E4 & R4).
  exists a4. split.
  - cbn [contract_terms py_nth]. 
    change (py_nth [d; d; q; q] (Z.of_nat 0)) with (@Ok (tensor expr) d).
    change (py_nth [d; d; q; q] (Z.of_nat 1)) with (@Ok (tensor expr) d).
    change (py_nth [d; d; q; q] (Z.of_nat 2)) with (@Ok (tensor expr) q).
    change (py_nth [d; d; q; q] (Z.of_nat 3)) with (@Ok (tensor expr) q).
    set (dc := conjugate_tensor ev d) in *. set (qc := conjugate_tensor ev q) in *.
    change (py_nth [dc; qc; dc; qc] (Z.of_nat 0)) with (@Ok (tensor expr) dc).
    change (py_nth [dc; qc; dc; qc] (Z.of_nat 1)) with (@Ok (tensor expr) qc).
    change (py_nth [dc; qc; dc; qc] (Z.of_nat 2)) with (@Ok (tensor expr) dc).
    change (py_nth [dc; qc; dc; qc] (Z.of_nat 3)) with (@Ok (tensor expr) qc).
    repeat match goal with |- context [py_nth ?l (Z.of_nat ?n)] =>
      let r := eval vm_compute in (py_nth l (Z.of_nat n)) in change (py_nth l (Z.of_nat n)) with r end.
    cbn [bind]. rewrite E1. cbn [bind]. rewrite E2. cbn [bind]. rewrite E3. cbn [bind]. rewrite E4. reflexivity.
  - eapply row_ext; [exact R4|]. intros x. cbv beta. rewrite <- (total g RG).
    unfold term1, term2, term3, term4, val3, val4. rewrite Cplus_0_l. cbn [nth].
    assert (X3 : forall (f : nat -> nat -> nat -> C),
      sum3 (fun c => sum3 (fun b => sum3 (fun a => f a b c * eval rho (at_ (conjugate_tensor ev d) [a; b; c]))))%C =
      sum3 (fun c => sum3 (fun b => sum3 (fun a => f a b c * Cconj (eval rho (at_ d [a; b; c])))))%C).
    { intros. do 3 (apply sum3_ext; intros). rewrite conj_at. reflexivity. }
    assert (X4 : forall (f : nat -> nat -> nat -> nat -> C),
      sum3 (fun e => sum3 (fun c => sum3 (fun b => sum3 (fun a => f a b c e * eval rho (at_ (conjugate_tensor ev q) [a; e; b; c])))))%C =
      sum3 (fun e => sum3 (fun c => sum3 (fun b => sum3 (fun a => f a b c e * Cconj (eval rho (at_ q [a; e; b; c]))))))%C).
    { intros. do 4 (apply sum3_ext; intros). rewrite conj_at. reflexivity. }
    f_equal; [f_equal; [f_equal|]|].
    + rewrite X3. reflexivity.
    + rewrite X4. reflexivity.
    + rewrite X3. reflexivity.
    + rewrite X4. reflexivity.
Qed.
End Contr.
