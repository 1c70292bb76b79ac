(** Malformed pair lists, order of pairs, products and transformations. *)
From Coq Require Import List Arith Bool Lia Permutation.
Import ListNotations.
From Verif Require Import PyBase TensorModel SpecTensor TensorProofs.

Lemma NoDup_app {X} (l1 l2 : list X) :
  NoDup (l1 ++ l2) <-> NoDup l1 /\ NoDup l2 /\ (forall x, In x l1 -> ~ In x l2).
Proof.
  induction l1 as [|x l1 IH]; simpl.
  - split; [intros N; repeat split; auto; constructor|tauto].
  - split.
    + intros N; inversion N as [|? ? NI N']; subst. apply IH in N' as (N1 & N2 & D).
      rewrite in_app_iff in NI. repeat split; auto.
      * constructor; auto.
      * intros y [->|I]; auto.
    + intros (N1 & N2 & D). inversion N1; subst. constructor.
      * rewrite in_app_iff. intros [I|I]; auto. apply (D x); auto.
      * apply IH. repeat split; auto.
Qed.

Lemma In_firstn {X} (x : X) n l : In x (firstn n l) -> In x l.
Proof. intros I. rewrite <- (firstn_skipn n l). apply in_or_app; auto. Qed.
Lemma In_skipn {X} (x : X) n l : In x (skipn n l) -> In x l.
Proof. intros I. rewrite <- (firstn_skipn n l). apply in_or_app; auto. Qed.

Lemma axes_of_app p q : axes_of (p ++ q) = axes_of p ++ axes_of q.
Proof. apply flat_map_app. Qed.

Lemma disjoint_snoc r done a b : disjoint_pairs r done ->
  (disjoint_pairs r (done ++ [(a, b)]) <->
   In a (free_axes r done) /\ In b (free_axes r done) /\ a <> b).
Proof.
  intros [N F]. unfold disjoint_pairs. rewrite axes_of_app. simpl. rewrite NoDup_app, Forall_app, !in_free_axes.
  split.
  - intros ((_ & N2 & D) & _ & F2). inversion F2 as [|? ? Fa F3]; subst. inversion F3 as [|? ? Fb _]; subst.
    inversion N2 as [|? ? Nab _]; subst. simpl in *.
    repeat split; auto; intros I; eapply D; eauto; simpl; auto.
  - intros ((La & Na) & (Lb & Nb) & Nab). repeat split; auto.
    + constructor; [simpl; intuition|]. constructor; [simpl; tauto|constructor].
    + intros x I [<-|[<-|[]]]; contradiction.
Qed.

Section Errors.
  Context {A : Type} `{S : Sig A} `{L : @CSR A S}.

  Lemma contract_loop_bad (t : tensor A) pairs : forall ans done,
    contracted t ans done -> disjoint_pairs (rank t) done -> ~ disjoint_pairs (rank t) (done ++ pairs) ->
    contract_loop ans (free_axes (rank t) done) (to_lists pairs) = Raise ValueError.
  Proof.
    induction pairs as [|[a b] pairs IH]; intros ans done C D ND.
    - rewrite app_nil_r in ND. contradiction.
    - cbn [to_lists map contract_loop fst snd]. unfold mapM, list_index.
      destruct (index_of a (free_axes (rank t) done)) as [p|] eqn:Ep; [|reflexivity].
      destruct (index_of b (free_axes (rank t) done)) as [q|] eqn:Eq; [|reflexivity].
      cbn [bind].
      apply index_of_Some in Ep as [Lp Hp]. apply index_of_Some in Eq as [Lq Hq].
      destruct (Nat.eq_dec p q) as [E|Dpq].
      + subst q. unfold trace. rewrite Nat.eqb_refl. simpl. rewrite andb_false_r. reflexivity.
      + destruct (contracted_step t ans done p q a b C Lp Lq Dpq Hp Hq) as (ans1 & -> & C1). cbn [bind].
        assert (Ia : In a (free_axes (rank t) done)) by (rewrite <- Hp; apply nth_In; auto).
        assert (Ib : In b (free_axes (rank t) done)) by (rewrite <- Hq; apply nth_In; auto).
        assert (Nab : a <> b).
        { intros E. apply Dpq. pose proof (NoDup_free_axes (rank t) done) as N.
          apply (proj1 (NoDup_nth _ 0) N p q); congruence. }
        rewrite (remove_both t done a b) by auto. cbn [bind].
        apply IH; auto.
        * apply disjoint_snoc; auto.
        * rewrite <- app_assoc. auto.
  Qed.

  Lemma contract_bad (t : tensor A) pairs : ~ disjoint_pairs (rank t) pairs ->
    tensor_contract t (to_lists pairs) = Raise ValueError.
  Proof.
    intros ND. unfold tensor_contract.
    replace (seq 0 (rank t)) with (free_axes (rank t) []).
    - apply (contract_loop_bad t pairs t []); auto.
      + apply contracted_nil.
      + split; constructor.
    - unfold free_axes; simpl. induction (seq 0 (rank t)); simpl; congruence.
  Qed.

  Lemma same_pairs_in p q : same_pairs p q ->
    forall c, In c p -> In c q \/ In (snd c, fst c) q.
  Proof.
    intros (q' & P & F) c I. apply In_nth with (d := (0, 0)) in I as (n & Ln & En).
    assert (G : forall p q' n, Forall2 (fun a b : nat * nat => a = b \/ a = (snd b, fst b)) p q' -> n < length p ->
               n < length q' /\ (nth n p (0, 0) = nth n q' (0, 0) \/ nth n p (0,0) = (snd (nth n q' (0,0)), fst (nth n q' (0,0))))).
    { clear. intros p q' n F; revert n; induction F; intros n Ln; simpl in *; [lia|].
      destruct n; [split; [lia|auto]|]. destruct (IHF n ltac:(lia)). split; [lia|auto]. }
    destruct (G p q' n F Ln) as [Ln' [E|E]].
    - left. rewrite <- En, E. eapply Permutation_in; [exact P|]. apply nth_In; auto.
    - right. rewrite <- En, E. simpl. rewrite <- surjective_pairing. eapply Permutation_in; [exact P|]. apply nth_In; auto.
  Qed.

  Lemma same_pairs_sym p q : same_pairs p q -> same_pairs q p.
  Proof.
    intros (q' & P & F).
    assert (G : forall p q' q, Permutation q' q -> Forall2 (fun a b : nat * nat => a = b \/ a = (snd b, fst b)) p q' ->
              exists p', Permutation p' p /\ Forall2 (fun a b : nat * nat => a = b \/ a = (snd b, fst b)) q p').
    { clear. intros p q' q P; revert p. induction P; intros p F.
      - inversion F; subst. exists []; split; auto.
      - inversion F as [|c ? p1 ? Hc F1]; subst. destruct (IHP p1 F1) as (p' & P' & F').
        exists (c :: p'). split; auto. constructor; auto.
        destruct Hc as [->| ->]; [left; auto|right; destruct x; auto].
      - inversion F as [|c ? p1 ? Hc F1]; subst. inversion F1 as [|c2 ? p2 ? Hc2 F2]; subst.
        exists (c2 :: c :: p2). split; [constructor|].
        constructor; [destruct Hc2 as [->| ->]; [left; auto|right; destruct x; auto]|].
        constructor; [destruct Hc as [->| ->]; [left; auto|right; destruct y; auto]|].
        clear - F2. induction F2; constructor; auto. destruct H as [->| ->]; [left; auto|right; destruct y; auto].
      - destruct (IHP1 p F) as (p' & P' & F'). 
        assert (F2 : Forall2 (fun a b : nat * nat => a = b \/ a = (snd b, fst b)) p' l').
        { clear - F'. induction F'; constructor; auto. destruct H as [->| ->]; [left; auto|right; destruct y; auto]. }
        destruct (IHP2 p' F2) as (p'' & P'' & F''). exists p''. split; auto.
        eapply Permutation_trans; eauto. }
    exact (G p q' q P F).
  Qed.

  Lemma same_pairs_axes p q : same_pairs p q -> Permutation (axes_of p) (axes_of q).
  Proof.
    intros (q' & P & F). eapply Permutation_trans with (axes_of q').
    - clear P. induction F as [|a b p q' H F IH]; simpl; auto.
      destruct H as [->| ->]; simpl; auto. eapply Permutation_trans; [apply perm_swap|]; auto.
    - apply Permutation_flat_map; auto.
  Qed.

  Lemma same_pairs_disjoint r p q : same_pairs p q -> disjoint_pairs r p -> disjoint_pairs r q.
  Proof.
    intros E [N F]. apply same_pairs_axes in E. split.
    - eapply Permutation_NoDup; eauto.
    - rewrite Forall_forall in *. intros x I. apply F. eapply Permutation_in; [apply Permutation_sym; eauto|auto].
  Qed.

  Lemma same_pairs_free r p q : same_pairs p q -> free_axes r p = free_axes r q.
  Proof.
    intros E. unfold free_axes. apply filter_ext. intros a. f_equal.
    apply eq_true_iff_eq. rewrite !existsb_exists.
    assert (G : forall p q, same_pairs p q ->
      (exists x, In x p /\ (a =? fst x) || (a =? snd x) = true) ->
      exists x, In x q /\ (a =? fst x) || (a =? snd x) = true).
    { clear. intros p q E (x & I & H). destruct (same_pairs_in p q E x I) as [J|J].
      - exists x; auto.
      - exists (snd x, fst x). split; auto. simpl. rewrite orb_comm; auto. }
    split; apply G; auto. apply same_pairs_sym; auto.
  Qed.

  Lemma same_pairs_contributes p q o J : same_pairs p q -> contributes p o J = contributes q o J.
  Proof.
    intros E. unfold contributes. rewrite (same_pairs_free _ p q E). f_equal.
    apply eq_true_iff_eq. rewrite !forallb_forall.
    assert (G : forall p q, same_pairs p q -> (forall x, In x p -> nth (fst x) J 0 =? nth (snd x) J 0 = true) ->
      forall x, In x q -> nth (fst x) J 0 =? nth (snd x) J 0 = true).
    { clear. intros p q E F x I. destruct (same_pairs_in q p (same_pairs_sym p q E) x I) as [K|K].
      - apply F; auto.
      - apply F in K. simpl in K. rewrite Nat.eqb_sym; auto. }
    split; apply G; auto. apply same_pairs_sym; auto.
  Qed.

  Lemma contract_order (t : tensor A) p q : same_pairs p q -> disjoint_pairs (rank t) p ->
    exists u v, tensor_contract t (to_lists p) = Ok u /\ tensor_contract t (to_lists q) = Ok v /\ teq u v.
  Proof.
    intros E D. destruct (contract_ok t p D) as (u & Eu & Su & Cu).
    destruct (contract_ok t q (same_pairs_disjoint _ p q E D)) as (v & Ev & Sv & Cv).
    exists u, v. repeat split; auto.
    - rewrite Su, Sv, (same_pairs_free _ p q E); auto.
    - intros i I. apply in_indices in I. rewrite Cu, Cv; auto.
      + unfold contraction. f_equal. f_equal. apply filter_ext. intros J. apply same_pairs_contributes; auto.
      + rewrite Sv, <- (same_pairs_free _ p q E), <- Su. auto.
  Qed.
End Errors.

(** ** Products *)
Section Products.
  Context {A : Type} `{S : Sig A}.

  (** Entry of a product: each factor reads its own slice of the index. *)
  Fixpoint prod_at (ts : list (tensor A)) (J : list nat) : A :=
    match ts with
    | [] => one
    | t :: rest =>
        match rest with
        | [] => at_ t J
        | _ => mul (at_ t (firstn (rank t) J)) (prod_at rest (skipn (rank t) J))
        end
    end.

  Lemma product_ok (ts : list (tensor A)) : 2 <= length ts ->
    exists p, tensor_product ts = Ok p /\ shape p = flat_map shape ts /\ forall J, at_ p J = prod_at ts J.
  Proof.
    induction ts as [|t1 ts IH]; simpl; intros L2; [lia|].
    destruct ts as [|t2 ts]; [simpl in L2; lia|].
    destruct ts as [|t3 ts].
    - exists (outer t1 t2). split; auto. split; [simpl; rewrite app_nil_r; auto|]. intros J; reflexivity.
    - destruct IH as (p & -> & Sp & Ap); [simpl; lia|]. cbn [bind].
      exists (outer t1 p). split; auto. split.
      + simpl shape. rewrite Sp. reflexivity.
      + intros J. simpl at_. rewrite Ap. reflexivity.
  Qed.
End Products.

(** ** Transformations *)
Fixpoint interleave (i a : list nat) : list nat :=
  match i, a with
  | x :: i', y :: a' => x :: y :: interleave i' a'
  | _, _ => []
  end.

Lemma interleave_length i : forall a, length a = length i -> length (interleave i a) = 2 * length i.
Proof. induction i as [|x i IH]; intros [|y a] E; simpl in *; try lia. rewrite IH; lia. Qed.

Lemma interleave_even i : forall a k, length a = length i -> nth (2 * k) (interleave i a) 0 = nth k i 0.
Proof.
  induction i as [|x i IH]; intros [|y a] k E; simpl length in E; try lia.
  - simpl. destruct k; auto.
  - destruct k as [|k]; auto. replace (2 * S k) with (S (S (2 * k))) by lia. cbn [interleave nth].
    apply (IH a k); lia.
Qed.

Lemma interleave_odd i : forall a k, length a = length i -> nth (2 * k + 1) (interleave i a) 0 = nth k a 0.
Proof.
  induction i as [|x i IH]; intros [|y a] k E; simpl length in E; try lia.
  - simpl. destruct k; auto.
  - destruct k as [|k]; auto. replace (2 * S k + 1) with (S (S (2 * k + 1))) by lia. simpl nth.
    apply (IH a k); lia.
Qed.

Definition transform_pairs (r : nat) : list (nat * nat) := map (fun i => (2 * i + 1, 2 * r + i)) (seq 0 r).

Lemma transform_pairs_lists r : to_lists (transform_pairs r) = map (fun i => [2 * i + 1; 2 * r + i]) (seq 0 r).
Proof. unfold to_lists, transform_pairs. rewrite map_map. reflexivity. Qed.

Lemma axes_of_perm ps : Permutation (axes_of ps) (map fst ps ++ map snd ps).
Proof.
  induction ps as [|[a b] ps IH]; simpl; auto.
  constructor. eapply Permutation_trans; [apply perm_skip; exact IH|].
  apply Permutation_middle.
Qed.

Lemma transform_pairs_disjoint r : disjoint_pairs (3 * r) (transform_pairs r).
Proof.
  split.
  - eapply Permutation_NoDup; [apply Permutation_sym, axes_of_perm|].
    unfold transform_pairs. rewrite !map_map; simpl. rewrite NoDup_app. repeat split.
    + apply FinFun.Injective_map_NoDup; [|apply seq_NoDup]. intros x y E; lia.
    + apply FinFun.Injective_map_NoDup; [|apply seq_NoDup]. intros x y E; lia.
    + intros x I1 I2. apply in_map_iff in I1 as (i & <- & Hi). apply in_map_iff in I2 as (j & E & Hj).
      apply in_seq in Hi, Hj. lia.
  - apply Forall_forall. intros x I. apply in_flat_map in I as (p & Ip & Ix).
    apply in_map_iff in Ip as (i & <- & Hi). apply in_seq in Hi. simpl in Ix. destruct Ix as [<-|[<-|[]]]; lia.
Qed.

Lemma in_transform_axes r a : In a (axes_of (transform_pairs r)) <->
  exists k, k < r /\ (a = 2 * k + 1 \/ a = 2 * r + k).
Proof.
  unfold axes_of, transform_pairs. rewrite in_flat_map. split.
  - intros (p & Ip & I). apply in_map_iff in Ip as (i & <- & Hi). apply in_seq in Hi. exists i.
    simpl in I. split; [lia|]. destruct I as [<-|[<-|[]]]; auto.
  - intros (k & Lk & E). exists (2 * k + 1, 2 * r + k). split.
    + apply in_map_iff. exists k. split; auto. apply in_seq; lia.
    + simpl. destruct E as [->| ->]; auto.
Qed.

Lemma filter_even_seq r : filter Nat.even (seq 0 (2 * r)) = map (fun k => 2 * k) (seq 0 r).
Proof.
  induction r as [|r IH]; auto.
  replace (2 * S r) with (2 * r + 2) by lia. rewrite seq_app, filter_app, IH, (seq_S r 0), map_app.
  f_equal. cbn [seq map]. replace (0 + 2 * r) with (2 * r) by lia. replace (0 + r) with r by lia.
  assert (E1 : Nat.even (2 * r) = true) by (rewrite Nat.even_mul; auto).
  assert (E2 : Nat.even (S (2 * r)) = false) by (rewrite Nat.even_succ, <- Nat.negb_even, E1; auto).
  cbn [filter]. rewrite E1, E2. reflexivity.
Qed.

Lemma transform_free r : free_axes (3 * r) (transform_pairs r) = map (fun k => 2 * k) (seq 0 r).
Proof.
  assert (E : forall a, In a (seq 0 (3 * r)) ->
    negb (existsb (fun p => (a =? fst p) || (a =? snd p)) (transform_pairs r)) = (a <? 2 * r) && Nat.even a).
  { intros a Ia. apply in_seq in Ia.
    pose proof (in_free_axes (3 * r) (transform_pairs r) a) as F.
    unfold free_axes in F. rewrite filter_In, in_seq, in_transform_axes in F.
    apply eq_true_iff_eq. rewrite andb_true_iff, Nat.ltb_lt.
    split.
    - intros H. assert (F' := proj1 F (conj Ia H)). destruct F' as [_ F'].
      split.
      + destruct (Nat.lt_ge_cases a (2 * r)); auto. exfalso. apply F'. exists (a - 2 * r). lia.
      + rewrite <- Nat.negb_odd. apply negb_true_iff. destruct (Nat.odd a) eqn:O; auto.
        exfalso. apply Nat.odd_spec in O as [k Ek]. apply F'. exists k.
        split; [|lia]. destruct (Nat.lt_ge_cases a (2 * r)) as [|G]; [lia|].
        exfalso. apply F'. exists (a - 2 * r). lia.
    - intros [La Ev]. apply F. split; [lia|]. intros (k & Lk & [E|E]); [|lia].
      apply Nat.even_spec in Ev as [m Em]. lia. }
  unfold free_axes. rewrite (filter_ext_in _ _ _ E).
  replace (3 * r) with (2 * r + r) by lia. rewrite seq_app, filter_app.
  rewrite (filter_ext_in _ Nat.even).
  - rewrite filter_even_seq. rewrite (filter_ext_in _ (fun _ => false)).
    + replace (filter (fun _ : nat => false) (seq (0 + 2 * r) r)) with (@nil nat).
      * apply app_nil_r.
      * induction (seq (0 + 2 * r) r); auto.
    + intros a Ia. apply in_seq in Ia. replace (a <? 2 * r) with false; auto. symmetry; apply Nat.ltb_ge; lia.
  - intros a Ia. apply in_seq in Ia. replace (a <? 2 * r) with true; auto. symmetry; apply Nat.ltb_lt; lia.
Qed.

Lemma nth_map_seq (f : nat -> nat) n k : k < n -> nth k (map f (seq 0 n)) 0 = f k.
Proof.
  intros Lk. rewrite (nth_indep _ 0 (f 0)) by (rewrite map_length, seq_length; auto).
  rewrite map_nth, seq_nth; auto.
Qed.

Section Transform.
  Context {A : Type} `{S : Sig A} `{L : @CSR A S}.

  Lemma prod_at_repeat (R t : tensor A) d : is_matrix d R -> forall i a, length a = length i ->
    prod_at (repeat R (length i) ++ [t]) (interleave i a ++ a) = mul (prod_entries R i a) (at_ t a).
  Proof.
    intros M i a. generalize a at 3 5 as b.
    revert a. induction i as [|x i IH]; intros [|y a] b E; simpl in E; try lia.
    - simpl. rewrite mul_1; auto.
    - cbn [length repeat app interleave prod_entries]. cbn [prod_at].
      assert (Hr : rank R = 2) by (unfold rank; rewrite M; auto). rewrite Hr.
      cbn [firstn skipn]. rewrite <- mul_A. rewrite <- (IH a b) by lia.
      destruct (repeat R (length i) ++ [t]) eqn:Ee; auto.
      apply app_eq_nil in Ee as [_ Ee]; discriminate.
  Qed.

  Lemma transform_ok (t R : tensor A) d : is_matrix d R -> is_cube d t -> 1 <= rank t ->
    exists u, transform t R = Ok u /\ shape u = shape t /\
      forall i, fits (shape t) i -> at_ u i = rotated t R i.
  Proof.
    intros M Cu Lr. unfold transform.
    destruct (product_ok (repeat R (rank t) ++ [t])) as (p & -> & Sp & Ap).
    { rewrite app_length, repeat_length. simpl. lia. }
    cbn [bind].
    assert (Esh : shape p = repeat d (2 * rank t) ++ shape t).
    { rewrite Sp, flat_map_app. cbn [flat_map]. rewrite app_nil_r. f_equal.
      clear - M. generalize (rank t) as n. induction n as [|n IH]; [reflexivity|].
      replace (2 * Datatypes.S n) with (2 + 2 * n) by lia. cbn [repeat flat_map plus].
      rewrite IH, M. reflexivity. }
    assert (Er : rank p = 3 * rank t).
    { unfold rank at 1. rewrite Esh, app_length, repeat_length. fold (rank t). lia. }
    rewrite <- transform_pairs_lists.
    destruct (contract_ok p (transform_pairs (rank t))) as (u & -> & Su & Cc).
    { rewrite Er. apply transform_pairs_disjoint. }
    exists u. rewrite Er, transform_free in Su.
    assert (Esu : shape u = shape t).
    { rewrite Su, Esh. unfold pick. rewrite map_map. unfold is_cube in Cu. 
      apply nth_ext with (d := 0) (d' := 0).
      - rewrite map_length, seq_length; auto.
      - intros n Ln. rewrite map_length, seq_length in Ln.
        rewrite (nth_map_seq (fun k => nth (2 * k) (repeat d (2 * rank t) ++ shape t) 0)) by auto.
        rewrite app_nth1 by (rewrite repeat_length; lia). rewrite Cu.
        rewrite !nth_indep with (d := 0) (d' := d) by (rewrite repeat_length; lia).
        rewrite !nth_repeat; auto. }
    split; auto. split; auto.
    intros i Fi. rewrite Cc by (rewrite Esu; auto).
    unfold contraction, rotated.
    pose proof (fits_length _ _ Fi) as Li. fold (rank t) in Li.
    assert (Hc : forall J, length J = 3 * rank t -> contributes (transform_pairs (rank t)) i J = true <->
      (forall k, k < rank t -> nth (2 * k + 1) J 0 = nth (2 * rank t + k) J 0) /\
      (forall k, k < rank t -> nth (2 * k) J 0 = nth k i 0)).
    { intros J LJ. unfold contributes. rewrite LJ, transform_free, andb_true_iff, forallb_forall, lists_eqb_spec.
      unfold transform_pairs, pick. rewrite map_map. split.
      - intros [E1 E2]. split.
        + intros k Lk. apply Nat.eqb_eq. apply (E1 (2 * k + 1, 2 * rank t + k)).
          apply in_map_iff. exists k. split; auto. apply in_seq; lia.
        + intros k Lk. rewrite <- E2.
          rewrite (nth_map_seq (fun k => nth (2 * k) J 0)); auto.
      - intros [E1 E2]. split.
        + intros x Ix. apply in_map_iff in Ix as (k & <- & Ik). apply in_seq in Ik. simpl fst. simpl snd.
          apply Nat.eqb_eq, E1. lia.
        + apply nth_ext with (d := 0) (d' := 0); rewrite map_length, seq_length; [lia|].
          intros k Lk. rewrite (nth_map_seq (fun k => nth (2 * k) J 0)); auto. }
    rewrite (sum_bij (contributes (transform_pairs (rank t)) i) (fun a => interleave i a ++ a) (at_ p)
              (indices (shape p)) (indices (shape t))).
    - apply sum_ext_in. intros a Ia. apply in_indices in Ia. apply fits_length in Ia. fold (rank t) in Ia.
      rewrite Ap, <- Li. apply (prod_at_repeat R t d M). lia.
    - apply NoDup_indices.
    - apply NoDup_indices.
    - intros a Ia. apply in_indices in Ia. pose proof (fits_length _ _ Ia) as La. fold (rank t) in La.
      assert (Lia_ : length (interleave i a) = 2 * rank t) by (rewrite interleave_length; lia).
      split.
      + apply in_indices. rewrite Esh. apply fits_app2; [rewrite repeat_length; auto|]. split; auto.
        apply fits_of_nth; [rewrite repeat_length; auto|]. rewrite repeat_length. intros n Ln.
        rewrite nth_indep with (l := repeat d _) (d := 0) (d' := d) by (rewrite repeat_length; lia).
        rewrite nth_repeat.
        assert (Hd : forall c, fits (shape t) c -> forall k, k < rank t -> nth k c 0 < d).
        { intros c Fc k Lk. pose proof (fits_nth _ _ k Fc Lk) as G. rewrite Cu in G.
          rewrite nth_indep with (l := repeat d _) (d := 0) (d' := d) in G by (rewrite repeat_length; lia).
          rewrite nth_repeat in G. auto. }
        destruct (Nat.Even_or_Odd n) as [[k ->]|[k ->]].
        * rewrite interleave_even by lia. apply Hd; auto; lia.
        * rewrite interleave_odd by lia. apply Hd; auto; lia.
      + apply Hc; [rewrite app_length; lia|]. split; intros k Lk.
        * rewrite app_nth1 by lia. rewrite app_nth2 by lia. rewrite interleave_odd by lia. f_equal; lia.
        * rewrite app_nth1 by lia. apply interleave_even; lia.
    - intros a b Ia Ib E. apply in_indices in Ia, Ib. apply fits_length in Ia, Ib. fold (rank t) in Ia, Ib.
      apply (f_equal (skipn (2 * rank t))) in E. rewrite !skipn_app in E.
      rewrite !interleave_length in E by lia. rewrite Li, Nat.sub_diag in E. simpl skipn in E at 2 4.
      rewrite !skipn_all2 in E by (rewrite interleave_length; lia). exact E.
    - intros J IJ EJ. apply in_indices in IJ. pose proof (fits_length _ _ IJ) as LJ.
      fold (rank p) in LJ. rewrite Er in LJ.
      apply Hc in EJ as [E1 E2]; auto.
      rewrite Esh in IJ. apply fits_app in IJ as [_ F2]. rewrite repeat_length in F2.
      exists (skipn (2 * rank t) J). split; [apply in_indices; auto|].
      assert (Ls : length (skipn (2 * rank t) J) = rank t) by (rewrite skipn_length; lia).
      assert (Hsk : forall k, nth k (skipn (2 * rank t) J) 0 = nth (2 * rank t + k) J 0).
      { intros k. rewrite <- (firstn_skipn (2 * rank t) J) at 2.
        rewrite app_nth2; rewrite firstn_length, Nat.min_l by lia; [f_equal; lia|lia]. }
      apply nth_ext with (d := 0) (d' := 0).
      + rewrite app_length, interleave_length; lia.
      + intros n Ln. rewrite app_length, interleave_length in Ln by lia.
        destruct (Nat.lt_ge_cases n (2 * rank t)) as [L1|L1].
        * rewrite app_nth1 by (rewrite interleave_length; lia).
          destruct (Nat.Even_or_Odd n) as [[k ->]|[k ->]].
          -- rewrite interleave_even by lia. symmetry; apply E2; lia.
          -- rewrite interleave_odd by lia. rewrite Hsk. symmetry; apply E1; lia.
        * rewrite app_nth2 by (rewrite interleave_length; lia). rewrite interleave_length by lia.
          rewrite Hsk. f_equal. lia.
  Qed.

  (** *** Group action *)
  Lemma prod_entries_id d : forall i a : list nat, length a = length i ->
    prod_entries (identity d) i a = if list_eq_dec Nat.eq_dec i a then one else zero.
  Proof.
    induction i as [|x i IH]; intros [|y a] E; simpl in E; try lia.
    - reflexivity.
    - cbn [prod_entries identity at_]. rewrite IH by lia.
      destruct (Nat.eqb_spec x y) as [->|N].
      + rewrite mul_1. destruct (list_eq_dec Nat.eq_dec i a) as [->|Ni].
        * destruct (list_eq_dec Nat.eq_dec (y :: a) (y :: a)); congruence.
        * destruct (list_eq_dec Nat.eq_dec (y :: i) (y :: a)); congruence.
      + rewrite mul_0. destruct (list_eq_dec Nat.eq_dec (x :: i) (y :: a)); congruence.
  Qed.

  Lemma rotated_id t d i : fits (shape t) i -> rotated t (identity d) i = at_ t i.
  Proof.
    intros F. unfold rotated.
    rewrite (sum_ext_in _ (fun a => if list_eq_dec Nat.eq_dec i a then at_ t a else zero)).
    - rewrite (sum_ext_in _ (fun a => if (if list_eq_dec Nat.eq_dec i a then true else false) then at_ t a else zero)).
      + apply sum_pick; [apply NoDup_indices|apply in_indices; auto|].
        intros y _. destruct (list_eq_dec Nat.eq_dec i y); split; congruence.
      + intros x _. destruct (list_eq_dec Nat.eq_dec i x); auto.
    - intros a Ia. apply in_indices in Ia. rewrite prod_entries_id.
      + destruct (list_eq_dec Nat.eq_dec i a); [apply mul_1|apply mul_0].
      + rewrite (fits_length _ _ Ia), (fits_length _ _ F); auto.
  Qed.

  Lemma prod_entries_mul d (P Q : tensor A) : forall i c, length c = length i ->
    sumv (map (fun a => mul (prod_entries P i a) (prod_entries Q a c)) (indices (repeat d (length i))))
    = prod_entries (matmul d P Q) i c.
  Proof.
    induction i as [|x i IH]; intros [|y c] E; simpl in E; try lia.
    - simpl. rewrite mul_1. apply add_0_r.
    - cbn [length repeat indices]. rewrite sum_flat_map. cbn [prod_entries].
      rewrite <- (IH c) by lia. cbn [matmul at_].
      rewrite <- sum_mul_r. apply sum_ext_in. intros k _.
      rewrite map_map. rewrite <- sum_mul_l. apply sum_ext_in. intros a _.
      cbn [prod_entries]. rewrite !mul_A. f_equal. rewrite <- !mul_A. f_equal. apply mul_C.
  Qed.

  Lemma rotated_mul d (t u P Q : tensor A) i : is_cube d t ->
    shape u = shape t -> (forall a, fits (shape t) a -> at_ u a = rotated t Q a) ->
    fits (shape t) i -> rotated u P i = rotated t (matmul d P Q) i.
  Proof.
    intros Cu Su Au F. unfold rotated at 1. rewrite Su.
    rewrite (sum_ext_in _ (fun a => sumv (map (fun c => mul (mul (prod_entries P i a) (prod_entries Q a c)) (at_ t c)) (indices (shape t))))).
    2: { intros a Ia. apply in_indices in Ia. rewrite Au by auto. unfold rotated. rewrite <- sum_mul_l.
         apply sum_ext_in. intros c _. apply mul_A. }
    rewrite sum_swap. unfold rotated. apply sum_ext_in. intros c Ic. rewrite sum_mul_r. f_equal.
    apply in_indices in Ic. pose proof (fits_length _ _ Ic) as Lc. pose proof (fits_length _ _ F) as Li.
    rewrite Cu. replace (rank t) with (length i) by auto. apply prod_entries_mul. lia.
  Qed.

  Lemma rotated_add (t u R : tensor A) i : shape u = shape t ->
    rotated (tadd t u) R i = add (rotated t R i) (rotated u R i).
  Proof.
    intros E. unfold rotated. simpl. rewrite E, <- sum_add. apply sum_ext_in. intros a _. apply mul_D.
  Qed.

  Lemma rotated_scale c (t R : tensor A) i : rotated (tscale c t) R i = mul c (rotated t R i).
  Proof.
    unfold rotated. simpl. rewrite <- sum_mul_l. apply sum_ext_in. intros a _.
    rewrite !mul_A. f_equal. apply mul_C.
  Qed.
End Transform.
