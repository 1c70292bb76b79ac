(** Index groups that are not pairs. *)
From Coq Require Import List Arith Bool Lia.
Import ListNotations.
From Verif Require Import PyBase TensorModel.

Lemma index_of_in x l : In x l -> exists p, index_of x l = Some p.
Proof.
  induction l as [|y l IH]; [intros []|]. cbn [index_of]. destruct (Nat.eqb_spec x y) as [->|N]; [eauto|].
  intros [E|I]; [congruence|]. destruct (IH I) as (p & ->). cbn. eauto.
Qed.
Lemma index_of_out x l : ~ In x l -> index_of x l = None.
Proof.
  induction l as [|y l IH]; [reflexivity|]. intros N. cbn [index_of]. destruct (Nat.eqb_spec x y) as [->|D].
  - exfalso. apply N. left. reflexivity.
  - rewrite IH; [reflexivity|]. intros I. apply N. right. exact I.
Qed.
Lemma index_of_seq x n k : x < n -> index_of (k + x) (seq k n) = Some x.
Proof.
  revert x k. induction n as [|n IH]; intros x k L; [lia|]. cbn [seq index_of]. destruct x as [|x].
  - rewrite Nat.add_0_r, Nat.eqb_refl. reflexivity.
  - destruct (Nat.eqb_spec (k + S x) k) as [E|_]; [lia|]. replace (k + S x) with (S k + x) by lia. rewrite IH by lia. reflexivity.
Qed.

Lemma index_of_seq0 x n : x < n -> index_of x (seq 0 n) = Some x.
Proof. exact (index_of_seq x n 0). Qed.

Lemma remove_first x l p : index_of x l = Some p -> NoDup l ->
  NoDup (del p l) /\ forall y, In y (del p l) <-> In y l /\ y <> x.
Proof.
  revert p. induction l as [|z l IH]; intros p; cbn [index_of]; [discriminate|]. intros E N. apply NoDup_cons_iff in N as [Nz N].
  destruct (Nat.eqb_spec x z) as [->|D].
  - injection E as <-. unfold del. cbn. split; [exact N|]. intros y. split.
    + intros I. split; [right; exact I|]. intros ->. contradiction.
    + intros [[E|I] D]; [congruence|exact I].
  - destruct (index_of x l) as [p'|] eqn:X; [|discriminate]. injection E as <-. destruct (IH p' eq_refl N) as [N' H].
    change (del (S p') (z :: l)) with (z :: del p' l). split.
    + constructor; [|exact N']. intros I. apply H in I as [I _]. contradiction.
    + intros y. cbn [In]. rewrite H. split; [intros [<-|[I D']]; auto|intros [[<-|I] D']; auto].
Qed.

Definition removes := fold_left (fun acc x => do l <- acc; list_remove x l).
Lemma removes_raise e g : removes g (Raise e) = Raise e.
Proof. unfold removes. induction g as [|x g IH]; [reflexivity|exact IH]. Qed.

Lemma removes_spec g : forall l, NoDup l ->
  (NoDup g /\ incl g l -> exists l', removes g (Ok l) = Ok l') /\ (~ (NoDup g /\ incl g l) -> removes g (Ok l) = Raise ValueError).
Proof.
  induction g as [|x g IH]; intros l N.
  - split; [intros _; exists l; reflexivity|]. intros H. exfalso. apply H. split; [constructor|intros y []].
  - change (removes (x :: g) (Ok l)) with (removes g (list_remove x l)). unfold list_remove.
    destruct (in_dec Nat.eq_dec x l) as [I|O].
    + destruct (index_of_in x l I) as (p & E). rewrite E. destruct (remove_first x l p E N) as [N' H]. destruct (IH (del p l) N') as [A B]. split.
      * intros [Ng Ig]. apply NoDup_cons_iff in Ng as [Nx Ng]. apply A. split; [exact Ng|]. intros y Iy. apply H. split; [apply Ig; right; exact Iy|].
        intros ->. contradiction.
      * intros F. apply B. intros [Ng Ig]. apply F. split.
        -- constructor; [|exact Ng]. intros Ix. apply Ig, H in Ix as [_ Ix]. apply Ix. reflexivity.
        -- intros y [<-|Iy]; [exact I|]. apply Ig, H in Iy. tauto.
    + rewrite (index_of_out x l O). rewrite removes_raise. split; [|reflexivity]. intros [_ Ig]. exfalso. apply O. apply Ig. left. reflexivity.
Qed.

Lemma indices_found g n : Forall (fun x => x < n) g -> mapM (fun x => list_index x (seq 0 n)) g = Ok g.
Proof.
  induction 1 as [|x g L F IH]; [reflexivity|]. cbn [mapM]. unfold list_index at 1. rewrite (index_of_seq0 x n L). cbn [bind]. rewrite IH. reflexivity.
Qed.
Lemma indices_missing g n : ~ Forall (fun x => x < n) g -> mapM (fun x => list_index x (seq 0 n)) g = Raise ValueError.
Proof.
  induction g as [|x g IH]; intros N; [exfalso; apply N; constructor|]. cbn [mapM]. unfold list_index at 1.
  destruct (Nat.lt_ge_cases x n) as [L|G].
  - rewrite (index_of_seq0 x n L). cbn [bind]. rewrite IH; [reflexivity|]. intros F. apply N. constructor; assumption.
  - rewrite index_of_out; [reflexivity|]. intros I. apply in_seq in I. lia.
Qed.

Section Group.
Context {A : Type} `{Sig A}.
Lemma contract_group (t : tensor A) g :
  (~ Forall (fun x => x < rank t) g -> tensor_contract t [g] = Raise ValueError) /\
  (Forall (fun x => x < rank t) g -> length g < 2 -> tensor_contract t [g] = Raise IndexError) /\
  (Forall (fun x => x < rank t) g -> 2 <= length g -> ~ NoDup g -> tensor_contract t [g] = Raise ValueError) /\
  (Forall (fun x => x < rank t) g -> NoDup g -> forall p q g', g = p :: q :: g' -> tensor_contract t [g] = tensor_contract t [[p; q]]).
Proof.
  unfold tensor_contract. split; [|split; [|split]].
  - intros N. cbn [contract_loop]. rewrite indices_missing by exact N. reflexivity.
  - intros F L. cbn [contract_loop]. rewrite indices_found by exact F. destruct g as [|p [|q g]]; cbn in L; try lia; reflexivity.
  - intros F L N. cbn [contract_loop]. rewrite indices_found by exact F. destruct g as [|p [|q g]]; cbn in L; try lia. cbn [bind].
    destruct (trace t p q) as [u|e] eqn:T.
    + cbn [bind]. destruct (removes_spec (p :: q :: g) (seq 0 (rank t)) (seq_NoDup _ _)) as [_ B]. unfold removes in B.
      rewrite B; [reflexivity|]. intros [X _]. contradiction.
    + unfold trace in T. destruct (_ && _); [discriminate|]. injection T as <-. reflexivity.
  - intros F N p q g' ->. cbn [contract_loop]. rewrite indices_found by exact F.
    assert (F2 : Forall (fun x => x < rank t) [p; q]).
    { inversion F as [|? ? Lp F1]; subst. inversion F1 as [|? ? Lq _]; subst. repeat constructor; assumption. }
    rewrite indices_found by exact F2. cbn [bind]. destruct (trace t p q) as [u|e]; [|reflexivity]. cbn [bind].
    assert (I : forall g, Forall (fun x => x < rank t) g -> incl g (seq 0 (rank t))).
    { intros h Fh x Ix. rewrite Forall_forall in Fh. apply in_seq. specialize (Fh x Ix). lia. }
    assert (N2 : NoDup [p; q]).
    { apply NoDup_cons_iff in N as [Np N]. repeat constructor; [|intros []]. intros [E|[]]. apply Np. left. exact E. }
    destruct (proj1 (removes_spec (p :: q :: g') _ (seq_NoDup _ _)) (conj N (I _ F))) as (l1 & E1).
    destruct (proj1 (removes_spec [p; q] _ (seq_NoDup _ _)) (conj N2 (I _ F2))) as (l2 & E2).
    unfold removes in E1, E2. rewrite E1, E2. reflexivity.
Qed.
End Group.
