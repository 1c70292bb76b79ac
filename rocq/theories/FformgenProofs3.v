(** What the uncontracted transforms stand for. *)
From Coq Require Import String List Arith ZArith Bool Lia Reals QArith Qreals Lra.
From Coquelicot Require Import Complex.
Import ListNotations.
From Verif Require Import PyBase CBase Expr ExprProofs FormModel SpecForm TensorInst FformgenModel SpecFormgen SpecFformgen
  FormgenProofs FformgenProofs FformgenProofs2.
From Verif Require Import SpecTensor TensorModel.
Local Open Scope nat_scope.

Lemma half_val : Q2R half = (/ 2)%R.
Proof. unfold half, Q2R. simpl. lra. Qed.
Lemma mhalf_val : Q2R mhalf = (- / 2)%R.
Proof. unfold mhalf, Q2R. simpl. lra. Qed.

Section Terms.
Variable ev : expr -> expr.
Hypothesis EV : sound_ev ev.
Variable rho : sym -> C.
Hypothesis RS : respects rho.
Notation carries := (carries rho 16).

Definition rot_value (x : R) (o : list nat) : C := Rz x (nth 0 o 0) (nth 1 o 0).

Lemma rotation_carries M : 1 <= M -> exists rR, rotation M = Ok rR /\ FformgenProofs.carries rho M 1 [3; 3] rR rot_value.
Proof.
  intros HM. unfold rotation. destruct (Nat.eqb_spec M 0) as [?|_]; [lia|]. eexists. split; [reflexivity|]. apply map_carries.
  - intros n _. destruct (Z.eqb n (-1)), (Z.eqb n 0), (Z.eqb n 1); reflexivity.
  - intros n o _ _ H. destruct (Z.eqb_spec n (-1)), (Z.eqb_spec n 0), (Z.eqb_spec n 1); subst; try (simpl in H; lia).
    apply eval_num0.
  - intros o x Fo. rewrite (Csum_support Z.eq_dec _ (freqs M) [(-1)%Z; 0%Z; 1%Z]).
    + apply fits_cons_inv in Fo as (i & o' & -> & Hi & Fo). apply fits_cons_inv in Fo as (j & o'' & -> & Hj & _). unfold rot_value. cbn [nth Csum fold_right]. cbn [Z.eqb Pos.eqb].
      rewrite Rmult_0_l, cis_0, Rmult_1_l. replace (-1 * x)%R with (- x)%R by ring. rewrite cis_opp.
      destruct i as [|[|[|i]]]; [..|lia]; (destruct j as [|[|[|j]]]; [..|lia]);
        cbv [R_minus R_zero R_plus matrix at_ nth Rz num eval]; rewrite ?half_val, ?mhalf_val, ?Q2R_0', ?Q2R_1';
        apply C_ext; unfold Re, Im; simpl; field.
    + apply NoDup_freqs.
    + repeat constructor; simpl; intuition discriminate.
    + intros n _ H. destruct (Z.eqb_spec n (-1)), (Z.eqb_spec n 0), (Z.eqb_spec n 1); subst; try (exfalso; apply H; simpl; tauto).
      cbn [zeros at_]. rewrite eval_num0. ring.
    + intros n H K. exfalso. apply K, In_freqs. simpl in H. destruct H as [<-|[<-|[<-|[]]]]; lia.
Qed.

Ltac conv_step H1 H2 r E :=
  let K := fresh in
  pose proof (conv_carries ev EV rho RS _ _ _ _ _ _ _ _ H1 H2) as K; destruct (K ltac:(lia)) as (r & E & ?); clear K.

(** The factors, as functions of phi *)
Section Factors.
Variable A : nat -> nat -> C.
Variable F k : nat -> C.
Definition H1 (x : R) (i j : nat) : C := sum3 (fun a => A i a * Rz x a j)%C.
Definition H2 (x : R) (j j' : nat) : C := sum3 (fun i => H1 x i j * H1 x i j')%C.
Definition fr (x : R) (j : nat) : C := sum3 (fun i => Rz x i j * F i)%C.
Definition kr (x : R) (j : nat) : C := sum3 (fun i => Rz x i j * k i)%C.
Definition T1 (x : R) (o : list nat) : C :=
  (H2 x (nth 0 o 0%nat) (nth 1 o 0%nat) * fr x (nth 2 o 0%nat) * fr x (nth 3 o 0%nat) * fr x (nth 4 o 0%nat) * fr x (nth 5 o 0%nat))%C.

Lemma terms_carry rR rF rk r1 : carries 1 [3; 3] rR rot_value -> carries 0 [3] rF (fun _ o => F (nth 0 o 0)) ->
  carries 0 [3] rk (fun _ o => k (nth 0 o 0)) ->
  carries 1 [3; 3; 3; 3] r1 (fun x o => A (nth 0 o 0) (nth 1 o 0) * Rz x (nth 2 o 0%nat) (nth 3 o 0%nat))%C ->
  exists t1 t2 t3 t4, uncontracted_terms ev 16 rR rF rk r1 = Ok (t1, t2, t3, t4) /\
    carries 6 [3; 3; 3; 3; 3; 3] t1 T1 /\
    carries 7 [3; 3; 3; 3; 3; 3; 3] t2 (fun x o => T1 x o * (- Ci * kr x (nth 6 o 0%nat)))%C /\
    carries 7 [3; 3; 3; 3; 3; 3; 3] t3 (fun x o => T1 x o * (Ci * kr x (nth 6 o 0%nat)))%C /\
    carries 8 [3; 3; 3; 3; 3; 3; 3; 3] t4 (fun x o => T1 x o * (- Ci * kr x (nth 6 o 0%nat)) * (Ci * kr x (nth 7 o 0%nat)))%C.
Proof.
  intros CR CF CK C1. unfold uncontracted_terms.
  destruct (each_carries rho 16 1 _ _ _ _ r1 _ (contract_12 ev EV rho RS) C1) as (h1 & E1 & Ch1). rewrite E1. cbn [bind]. clear E1.
  assert (Ch1' : carries 1 [3; 3] h1 (fun x o => H1 x (nth 0 o 0) (nth 1 o 0))).
  { eapply carries_ext; [exact Ch1|]. intros. fitsinv. reflexivity. }
  clear Ch1.
  destruct (conv_carries ev EV rho RS _ _ _ _ _ _ _ _ Ch1' Ch1' ltac:(lia)) as (r2 & E & Cr2). rewrite E. cbn [bind]. clear E.
  assert (Cr2' : carries 2 [3; 3; 3; 3] r2 (fun x o => H1 x (nth 0 o 0%nat) (nth 1 o 0%nat) * H1 x (nth 2 o 0%nat) (nth 3 o 0%nat))%C).
  { eapply carries_ext; [exact Cr2|]. intros. cbn [app length] in *. fitsinv. reflexivity. }
  clear Cr2.
  destruct (each_carries rho 16 2 _ _ _ _ r2 _ (contract_02 ev EV rho RS) Cr2') as (h2 & E & Ch2). rewrite E. cbn [bind]. clear E.
  assert (Ch2' : carries 2 [3; 3] h2 (fun x o => H2 x (nth 0 o 0) (nth 1 o 0))).
  { eapply carries_ext; [exact Ch2|]. intros. fitsinv. reflexivity. }
  clear Ch2.
  destruct (conv_carries ev EV rho RS _ _ _ _ _ _ _ _ CR CF ltac:(lia)) as (r3 & E & Cr3). rewrite E. cbn [bind]. clear E.
  assert (Cr3' : carries 1 [3; 3; 3] r3 (fun x o => Rz x (nth 0 o 0%nat) (nth 1 o 0%nat) * F (nth 2 o 0%nat))%C).
  { eapply carries_ext; [exact Cr3|]. intros. cbn [app length] in *. fitsinv. reflexivity. }
  clear Cr3.
  destruct (each_carries rho 16 1 _ _ _ _ r3 _ (contract_02' ev EV rho RS) Cr3') as (h3 & E & Ch3). rewrite E. cbn [bind]. clear E.
  assert (Ch3' : carries 1 [3] h3 (fun x o => fr x (nth 0 o 0))).
  { eapply carries_ext; [exact Ch3|]. intros. fitsinv. reflexivity. }
  clear Ch3.
  destruct (conv_carries ev EV rho RS _ _ _ _ _ _ _ _ Ch2' Ch3' ltac:(lia)) as (h4 & E & Ch4). rewrite E. cbn [bind]. clear E.
  assert (Ch4' : carries 3 [3; 3; 3] h4 (fun x o => H2 x (nth 0 o 0%nat) (nth 1 o 0%nat) * fr x (nth 2 o 0%nat))%C).
  { eapply carries_ext; [exact Ch4|]. intros. cbn [app length] in *. fitsinv. reflexivity. }
  clear Ch4.
  destruct (conv_carries ev EV rho RS _ _ _ _ _ _ _ _ Ch4' Ch3' ltac:(lia)) as (h5 & E & Ch5). rewrite E. cbn [bind]. clear E.
  assert (Ch5' : carries 4 [3; 3; 3; 3] h5 (fun x o => H2 x (nth 0 o 0%nat) (nth 1 o 0%nat) * fr x (nth 2 o 0%nat) * fr x (nth 3 o 0%nat))%C).
  { eapply carries_ext; [exact Ch5|]. intros. cbn [app length] in *. fitsinv. reflexivity. }
  clear Ch5.
  destruct (conv_carries ev EV rho RS _ _ _ _ _ _ _ _ Ch5' Ch3' ltac:(lia)) as (h6 & E & Ch6). rewrite E. cbn [bind]. clear E.
  assert (Ch6' : carries 5 [3; 3; 3; 3; 3] h6 (fun x o => H2 x (nth 0 o 0%nat) (nth 1 o 0%nat) * fr x (nth 2 o 0%nat) * fr x (nth 3 o 0%nat) * fr x (nth 4 o 0%nat))%C).
  { eapply carries_ext; [exact Ch6|]. intros. cbn [app length] in *. fitsinv. reflexivity. }
  clear Ch6.
  destruct (conv_carries ev EV rho RS _ _ _ _ _ _ _ _ Ch6' Ch3' ltac:(lia)) as (h7 & E & Ch7). rewrite E. cbn [bind]. clear E.
  assert (Ch7' : carries 6 [3; 3; 3; 3; 3; 3] h7 T1).
  { eapply carries_ext; [exact Ch7|]. intros. cbn [app length] in *. fitsinv. reflexivity. }
  clear Ch7.
  pose proof (scale_carries ev EV rho RS 16 0 [3] (ENum 0 (-1)) rk _ CK) as Ck.
  destruct (conv_carries ev EV rho RS _ _ _ _ _ _ _ _ CR Ck ltac:(lia)) as (r4 & E & Cr4). rewrite E. cbn [bind]. clear E.
  assert (mi : eval rho (ENum 0 (-1)) = (- Ci)%C).
  { cbn. rewrite Q2R_0', Q2R_neg1. apply C_ext; unfold Re, Im; simpl; ring. }
  assert (Cr4' : carries 1 [3; 3; 3] r4 (fun x o => Rz x (nth 0 o 0%nat) (nth 1 o 0%nat) * (- Ci * k (nth 2 o 0%nat)))%C).
  { eapply carries_ext; [exact Cr4|]. intros. cbn [app length] in *. fitsinv. rewrite mi. reflexivity. }
  clear Cr4.
  destruct (each_carries rho 16 1 _ _ _ _ r4 _ (contract_02' ev EV rho RS) Cr4') as (h8 & E & Ch8). rewrite E. cbn [bind]. clear E.
  assert (Ch8' : carries 1 [3] h8 (fun x o => - Ci * kr x (nth 0 o 0%nat))%C).
  { eapply carries_ext; [exact Ch8|]. intros. fitsinv. unfold kr, sum3. cbn [nth]. ring. }
  clear Ch8.
  destruct (conv_carries ev EV rho RS _ _ _ _ _ _ _ _ Ch7' Ch8' ltac:(lia)) as (h9 & E & Ch9). rewrite E. cbn [bind]. clear E.
  assert (Ch9' : carries 7 [3; 3; 3; 3; 3; 3; 3] h9 (fun x o => T1 x o * (- Ci * kr x (nth 6 o 0%nat)))%C).
  { eapply carries_ext; [exact Ch9|]. intros. cbn [app length] in *. fitsinv. reflexivity. }
  clear Ch9.
  assert (m1 : eval rho (num (-1)) = (- RtoC 1)%C) by apply eval_numm1.
  pose proof (scale_carries ev EV rho RS 16 1 [3] (num (-1)) h8 _ Ch8') as Cm8.
  destruct (conv_carries ev EV rho RS _ _ _ _ _ _ _ _ Ch9' Cm8 ltac:(lia)) as (h10 & E & Ch10). rewrite E. cbn [bind]. clear E.
  do 4 eexists. split; [reflexivity|]. split; [exact Ch7'|]. split; [exact Ch9'|]. split.
  - eapply carries_ext; [exact (scale_carries ev EV rho RS 16 7 _ (num (-1)) h9 _ Ch9')|]. intros. cbv beta. rewrite m1. ring.
  - eapply carries_ext; [exact Ch10|]. intros. cbn [app length] in *. fitsinv. rewrite m1. cbn [firstn skipn nth].
    unfold T1. cbn [nth]. ring.
Qed.
End Factors.
End Terms.
