(** Groups of matrices by closure, and completeness of a table by averaging. *)
From Coq Require Import String Ascii List Arith Bool ZArith QArith Qreals Reals Lra Lia.
Import ListNotations.
From Coquelicot Require Import Complex.
From Verif Require Import PyBase CBase Expr ExprProofs TensorModel SpecTensor TensorProofs TensorProofs2
  TensorInst TensorDefs SpecGroups GroupProofs.
Local Open Scope nat_scope.

(** ** Products of matrices *)
Definition raw (y g : smat) (i j : nat) : surd :=
  sadd (smul (sentry y i 0) (sentry g 0 j))
    (sadd (smul (sentry y i 1) (sentry g 1 j)) (smul (sentry y i 2) (sentry g 2 j))).
Definition halve (x : surd) : option surd :=
  if Z.even (fst x) && Z.even (snd x) then Some (fst x / 2, snd x / 2)%Z else None.
Definition smat_mul (y g : smat) : option smat :=
  all_some (map (fun i => all_some (map (fun j => halve (raw y g i j)) [0; 1; 2])) [0; 1; 2]).

Lemma halve_ok x h : halve x = Some h -> toC x = (RtoC 2 * toC h)%C.
Proof.
  unfold halve. destruct (Z.even (fst x)) eqn:E1, (Z.even (snd x)) eqn:E2; simpl; try discriminate.
  intros H; inversion H; subst; clear H.
  apply Z.even_spec in E1 as [a E1]. apply Z.even_spec in E2 as [b E2].
  destruct x as [x y]; cbn [fst snd] in *; subst.
  rewrite !(Z.mul_comm 2), !Z.div_mul by lia.
  unfold toC, sval; cbn [fst snd]. rewrite <- RtoC_mult, !mult_IZR. f_equal. ring.
Qed.

Lemma raw_ok y g i j :
  toC (raw y g i j) = (toC (sentry y i 0) * toC (sentry g 0 j) +
    (toC (sentry y i 1) * toC (sentry g 1 j) + toC (sentry y i 2) * toC (sentry g 2 j)))%C.
Proof. unfold raw. rewrite !toC_add, !toC_mul. reflexivity. Qed.

Lemma half_half : (RtoC (/2) * RtoC 2 = RtoC 1)%C.
Proof. rewrite <- RtoC_mult. f_equal. field. Qed.

Lemma smat_mul_entries y g z : smat_mul y g = Some z ->
  forall i j, i < 3 -> j < 3 -> toC (raw y g i j) = (RtoC 2 * toC (sentry z i j))%C.
Proof.
  unfold smat_mul. cbn [map all_some].
  destruct (halve (raw y g 0 0)) as [h00|] eqn:E00; try discriminate.
  destruct (halve (raw y g 0 1)) as [h01|] eqn:E01; try discriminate.
  destruct (halve (raw y g 0 2)) as [h02|] eqn:E02; try discriminate.
  destruct (halve (raw y g 1 0)) as [h10|] eqn:E10; try discriminate.
  destruct (halve (raw y g 1 1)) as [h11|] eqn:E11; try discriminate.
  destruct (halve (raw y g 1 2)) as [h12|] eqn:E12; try discriminate.
  destruct (halve (raw y g 2 0)) as [h20|] eqn:E20; try discriminate.
  destruct (halve (raw y g 2 1)) as [h21|] eqn:E21; try discriminate.
  destruct (halve (raw y g 2 2)) as [h22|] eqn:E22; try discriminate.
  cbn [option_map]. intros H; inversion H; subst; clear H.
  intros i j Li Lj.
  destruct i as [|[|[|i]]]; [..|lia]; destruct j as [|[|[|j]]]; try lia; unfold sentry; cbn [nth];
    apply halve_ok; assumption.
Qed.

Lemma smat_mul_ok y g z : smat_mul y g = Some z -> teq (matmul 3 (mat y) (mat g)) (mat z).
Proof.
  intros H. split; [reflexivity|]. intros i I. apply in_indices in I. simpl in I.
  inversion I as [|a ? ? ? La I1]; subst. inversion I1 as [|b ? ? ? Lb I2]; subst. inversion I2; subst.
  pose proof (smat_mul_entries _ _ _ H a b La Lb) as E. rewrite raw_ok in E.
  cbn [matmul at_ mat]. change (seq 0 3) with [0; 1; 2]. cbn [map sumv fold_right add mul zero Sig_C].
  rewrite !half_toC.
  transitivity (RtoC (/2) * RtoC (/2) * (toC (sentry y a 0) * toC (sentry g 0 b) +
    (toC (sentry y a 1) * toC (sentry g 1 b) + toC (sentry y a 2) * toC (sentry g 2 b))))%C; [ring|].
  rewrite E. transitivity ((RtoC (/2) * RtoC 2) * (toC (sentry z a b) * RtoC (/2)))%C; [ring|].
  rewrite half_half. ring.
Qed.

Lemma E_identity : teq (identity 3) (mat E).
Proof.
  split; [reflexivity|]. intros i I. apply in_indices in I. simpl in I.
  inversion I as [|a ? ? ? La I1]; subst. inversion I1 as [|b ? ? ? Lb I2]; subst. inversion I2; subst.
  destruct a as [|[|[|a]]]; [..|lia]; destruct b as [|[|[|b]]]; try lia; simpl; unfold sval; simpl;
    f_equal; field.
Qed.

(** ** Closure *)
Fixpoint smat_eqb (a b : smat) : bool :=
  match a, b with
  | [], [] => true
  | x :: a', y :: b' =>
      (fix row (x y : list surd) : bool :=
         match x, y with [], [] => true | u :: x', v :: y' => s_eqb u v && row x' y' | _, _ => false end) x y
      && smat_eqb a' b'
  | _, _ => false
  end.
Definition mem (z : smat) (l : list smat) : bool := existsb (smat_eqb z) l.

Fixpoint add_new (new acc : list smat) : list smat :=
  match new with
  | [] => acc
  | z :: new' => add_new new' (if mem z acc then acc else acc ++ [z])
  end.
Definition products (acc gens : list smat) : list smat :=
  flat_map (fun y => flat_map (fun g => match smat_mul y g with Some z => [z] | None => [] end) gens) acc.
Fixpoint close (fuel : nat) (gens acc : list smat) : list smat :=
  match fuel with
  | 0 => acc
  | S fuel' => close fuel' gens (add_new (products acc gens) acc)
  end.
Definition elements (gens : list smat) : list smat := close 8 gens [E].

Definition reached (gens : list smat) (z : smat) : Prop := exists R, generated gens R /\ teq R (mat z).

Lemma teq_trans {A} (a b c : tensor A) : teq a b -> teq b c -> teq a c.
Proof. intros [S1 H1] [S2 H2]. split; [congruence|]. intros i I. rewrite H1, H2; auto. congruence. Qed.
Lemma teq_sym {A} (a b : tensor A) : teq a b -> teq b a.
Proof. intros [S1 H1]. split; auto. intros i I. symmetry. apply H1. congruence. Qed.

Lemma matmul_ext (R R' S : tensor C) : shape R = [3; 3] -> teq R R' -> teq (matmul 3 R S) (matmul 3 R' S).
Proof.
  intros Sh T. split; [reflexivity|]. intros i I. apply in_indices in I. simpl in I.
  inversion I as [|a ? ? ? La I1]; subst. inversion I1 as [|b ? ? ? Lb I2]; subst. inversion I2; subst.
  cbn [matmul at_]. rewrite !sumv_Csum. apply Csum_ext_in. intros k K. apply in_seq in K.
  rewrite (teq_matrix R R' Sh T a k) by lia. reflexivity.
Qed.

Lemma add_new_In new : forall acc z, In z (add_new new acc) -> In z acc \/ In z new.
Proof.
  induction new as [|y new IH]; intros acc z H; simpl in *; auto.
  apply IH in H. destruct (mem y acc); [tauto|]. rewrite in_app_iff in H. simpl in H. tauto.
Qed.

Lemma close_reached gens fuel : forall acc, (forall z, In z acc -> reached gens z) ->
  forall z, In z (close fuel gens acc) -> reached gens z.
Proof.
  induction fuel as [|fuel IH]; intros acc H z I; simpl in I; auto.
  apply IH in I; auto. clear z I. intros z I. apply add_new_In in I as [I|I]; auto.
  unfold products in I. apply in_flat_map in I as (y & Iy & I). apply in_flat_map in I as (g & Ig & I).
  destruct (smat_mul y g) as [w|] eqn:M; simpl in I; [|contradiction]. destruct I as [<-|[]].
  destruct (H y Iy) as (R & G & T). exists (matmul 3 R (mat g)). split; [constructor; auto|].
  apply teq_trans with (matmul 3 (mat y) (mat g)); [|apply smat_mul_ok; auto].
  apply matmul_ext; auto. apply generated_shape with (1 := G).
Qed.

Lemma elements_reached gens z : In z (elements gens) -> reached gens z.
Proof.
  apply close_reached. intros y [<-|[]]. exists (identity 3). split; [constructor|apply E_identity].
Qed.

Lemma smat_eqb_eq a : forall b, smat_eqb a b = true -> a = b.
Proof.
  induction a as [|x a IH]; intros [|y b]; simpl; intros H; try discriminate; auto.
  apply andb_true_iff in H as [H1 H2]. rewrite (IH _ H2). f_equal. clear IH H2 a b.
  revert y H1. induction x as [|u x IH]; intros [|v y] H; try discriminate; auto.
  apply andb_true_iff in H as [H1 H2]. apply s_eqb_eq in H1. rewrite (IH _ H2). congruence.
Qed.

(** The elements are all there are, provided the list is closed under
    multiplication by generators. *)
Definition closed (gens els : list smat) : bool :=
  mem E els && forallb (fun y => forallb (fun g =>
    match smat_mul y g with Some z => mem z els | None => false end) gens) els.

Lemma mem_In z l : mem z l = true -> In z l.
Proof. unfold mem. rewrite existsb_exists. intros (y & I & H). apply smat_eqb_eq in H. congruence. Qed.

Lemma closed_all gens els : closed gens els = true -> forall R, generated gens R ->
  exists z, In z els /\ teq R (mat z).
Proof.
  unfold closed. rewrite andb_true_iff, forallb_forall. intros [H1 H2] R G.
  induction G as [|R g G (y & Iy & T) Ig].
  - exists E. split; [apply mem_In; auto|apply E_identity].
  - specialize (H2 y Iy). rewrite forallb_forall in H2. specialize (H2 g Ig).
    destruct (smat_mul y g) as [z|] eqn:M; [|discriminate]. exists z. split; [apply mem_In; auto|].
    apply teq_trans with (matmul 3 (mat y) (mat g)); [|apply smat_mul_ok; auto].
    apply matmul_ext; auto. apply generated_shape with (1 := G).
Qed.

(** Two matrices that differ as numbers: some entry has a difference a + b sqrt 3
    with a^2 <> 3 b^2. *)
Definition distinct (y z : smat) : bool :=
  existsb (fun i => existsb (fun j =>
    let a := (fst (sentry y i j) - fst (sentry z i j))%Z in
    let b := (snd (sentry y i j) - snd (sentry z i j))%Z in
    negb (a * a =? 3 * (b * b))%Z) [0; 1; 2]) [0; 1; 2].
Fixpoint all_distinct (l : list smat) : bool :=
  match l with [] => true | z :: l' => forallb (distinct z) l' && all_distinct l' end.

Lemma distinct_ok y z : distinct y z = true -> ~ teq (mat y) (mat z).
Proof.
  unfold distinct. rewrite existsb_exists. intros (i & Ii & H). rewrite existsb_exists in H.
  destruct H as (j & Ij & H). cbv zeta in H. apply negb_true_iff in H. apply Z.eqb_neq in H.
  intros T. apply H.
  assert (Li : i < 3) by (simpl in Ii; lia). assert (Lj : j < 3) by (simpl in Ij; lia).
  pose proof (teq_matrix (mat y) (mat z) eq_refl T i j Li Lj) as X. cbn [mat at_] in X.
  apply (f_equal Re) in X. cbn [Re RtoC fst] in X. unfold sval in X.
  remember (sentry y i j) as e. remember (sentry z i j) as f. clear Heqe Heqf.
  destruct e as [a b], f as [c d]; cbn [fst snd] in *.
  apply eq_IZR. rewrite !mult_IZR, !minus_IZR.
  assert (Q : (IZR a - IZR c = - (IZR b - IZR d) * sqrt 3)%R) by lra.
  rewrite Q. transitivity ((IZR b - IZR d) * (IZR b - IZR d) * (sqrt 3 * sqrt 3))%R; [ring|].
  rewrite sqrt3_sq. ring.
Qed.

Lemma all_distinct_ok l : all_distinct l = true ->
  ForallOrdPairs (fun y z => ~ teq (mat y) (mat z)) l.
Proof.
  induction l as [|z l IH]; simpl; intros H; [constructor|].
  apply andb_true_iff in H as [H1 H2]. constructor; auto.
  apply Forall_forall. intros y I. apply distinct_ok. rewrite forallb_forall in H1. auto.
Qed.

(** ** Completeness by averaging over the group *)
Definition char_index (c : ascii) : list nat :=
  match c with "x"%char => [0] | "y"%char => [1] | "z"%char => [2] | _ => [] end.
(** The component a parameter is named after: "yyz" is component (1, 1, 2),
    "syyz" too. *)
Fixpoint name_index (s : string) : list nat :=
  match s with EmptyString => [] | String c s' => char_index c ++ name_index s' end.

Fixpoint idx_eqb (a b : list nat) : bool :=
  match a, b with [], [] => true | x :: a', y :: b' => (x =? y) && idx_eqb a' b' | _, _ => false end.
Lemma idx_eqb_eq a : forall b, idx_eqb a b = true -> a = b.
Proof.
  induction a as [|x a IH]; intros [|y b]; simpl; intros H; try discriminate; auto.
  apply andb_true_iff in H as [H1 H2]. apply Nat.eqb_eq in H1. rewrite (IH _ H2). congruence.
Qed.

Definition average (els : list smat) (idx : list (list nat)) (I : list nat) : lc (list nat) :=
  collect idx_eqb idx (flat_map (fun z => expand z I) els).
Definition fits_b (n : nat) (I : list nat) : bool := (length I =? n) && forallb (fun x => x <? 3) I.

Definition completeness_check (rank : nat) (rows : list (lc string)) (els : list smat) : bool :=
  let idx := indices (repeat 3 rank) in
  let rowsP := map (average els idx) idx in
  forallb (fun I =>
    same idx_eqb idx (nth (position I) rowsP [])
      (flat_map (fun pc => scale (snd pc) (nth (position (name_index (fst pc))) rowsP []))
                (nth (position I) rows [])))
    idx
  && forallb (fun row => forallb (fun pc => fits_b rank (name_index (fst pc)) &&
       lc_eqb String.eqb (nth (position (name_index (fst pc))) rows []) [(fst pc, s1)]) row) rows.

Lemma fits_b_ok n I : fits_b n I = true -> fits (repeat 3 n) I.
Proof.
  unfold fits_b. rewrite andb_true_iff, forallb_forall, Nat.eqb_eq. intros [<- H]. unfold fits.
  induction I as [|x I IH]; simpl; constructor.
  - apply Nat.ltb_lt. apply H. simpl; auto.
  - apply IH. intros. apply H. simpl; auto.
Qed.

Lemma indices_position n : forall i, fits (repeat 3 n) i ->
  forall d, nth (position i) (indices (repeat 3 n)) d = i /\ length (indices (repeat 3 n)) = 3 ^ n.
Proof.
  induction n as [|n IH]; intros i F d; inversion F as [|x y i' sh L Fi]; subst; [auto|].
  destruct (IH _ Fi []) as [_ Ln].
  cbn [repeat indices]. change (seq 0 3) with [0; 1; 2]. cbn [flat_map]. rewrite app_nil_r.
  rewrite !app_length, !map_length, Ln. split; [|cbn [Nat.pow]; lia].
  rewrite position_cons, (fits_cube _ _ Fi). pose proof (position_lt _ _ Fi).
  assert (M : forall a, nth (position i') (map (cons a) (indices (repeat 3 n))) d = a :: i').
  { intros a. rewrite (nth_indep _ d (a :: [])) by (rewrite map_length; lia).
    change (a :: []) with ((cons a) []). rewrite map_nth. rewrite (proj1 (IH _ Fi [])). reflexivity. }
  destruct x as [|[|[|x]]]; [..|lia].
  - rewrite app_nth1 by (rewrite map_length; lia). apply M.
  - rewrite app_nth2 by (rewrite map_length; lia). rewrite map_length, Ln.
    replace (1 * 3 ^ n + position i' - 3 ^ n) with (position i') by lia.
    rewrite app_nth1 by (rewrite map_length; lia). apply M.
  - rewrite app_nth2 by (rewrite map_length; lia). rewrite map_length, Ln.
    rewrite app_nth2 by (rewrite map_length; lia). rewrite map_length, Ln.
    replace (2 * 3 ^ n + position i' - 3 ^ n - 3 ^ n) with (position i') by lia. apply M.
Qed.

Lemma nth_map_indices {B} n (f : list nat -> B) i d : fits (repeat 3 n) i ->
  nth (position i) (map f (indices (repeat 3 n))) d = f i.
Proof.
  intros F. destruct (indices_position n i F []) as [E L].
  rewrite (nth_indep _ d (f [])) by (rewrite map_length, L; apply position_lt; auto).
  rewrite map_nth, E. reflexivity.
Qed.

Section Complete.
  Context (rank : nat) (entries : list expr) (rows : list (lc string)).
  Context (Hlin : all_some (map lin entries) = Some rows).
  Context (Hlen : length entries = 3 ^ S rank).
  Notation t := (table_tensor (S rank) entries).

  Lemma average_ok (X : tensor C) els I : shape X = repeat 3 (S rank) ->
    (forall z, In z els -> invariant X (mat z)) -> fits (repeat 3 (S rank)) I ->
    pair_with (at_ X) (average els (indices (repeat 3 (S rank))) I)
    = (RtoC (INR (length els)) * (RtoC (2 ^ S rank) * at_ X I))%C.
  Proof.
    intros Sh Inv F. unfold average. rewrite (pair_collect idx_eqb idx_eqb_eq), pair_flat_map.
    rewrite <- Csum_const. apply Csum_ext_in. intros z Iz.
    specialize (Inv z Iz). apply (proj1 (invariant_iff X (mat z) rank Sh eq_refl)) with (i := I) in Inv;
      [|rewrite Sh; auto].
    rewrite rotated_expand in Inv by (rewrite (fits_cube _ _ F); auto). rewrite (fits_cube _ _ F) in Inv.
    rewrite <- Inv. rewrite Cmult_assoc, (Cmult_comm (RtoC _)), Cpow_half. ring.
  Qed.

  Lemma completeness_ok gens els :
    els <> [] -> (forall z, In z els -> reached gens z) ->
    completeness_check (S rank) rows els = true -> complete_table t gens.
  Proof.
    intros Ne Reach H X Sh Inv. cbn [table_tensor shape] in Sh.
    assert (InvE : forall z, In z els -> invariant X (mat z)).
    { intros z Iz. destruct (Reach z Iz) as (R & G & T).
      apply invariant_teq with (n := rank) (R := R); auto. { apply generated_shape with (1 := G). }
      apply invariant_generated with (n := rank) (gens := gens); auto. }
    unfold completeness_check in H. apply andb_true_iff in H as [H1 H2].
    rewrite forallb_forall in H1. rewrite forallb_forall in H2.
    assert (Hrow : forall I n c, fits (repeat 3 (S rank)) I -> In (n, c) (nth (position I) rows []) ->
      fits (repeat 3 (S rank)) (name_index n) /\ nth (position (name_index n)) rows [] = [(n, s1)]).
    { intros I n c F In_. assert (Ir : In (nth (position I) rows []) rows).
      { apply nth_In. destruct (all_some_ok _ _ _ Hlin (position I) nul []) as [_ L].
        - rewrite Hlen. apply position_lt; auto.
        - rewrite L, Hlen. apply position_lt; auto. }
      specialize (H2 _ Ir). rewrite forallb_forall in H2. specialize (H2 _ In_). cbn [fst snd] in H2.
      apply andb_true_iff in H2 as [A B]. split; [apply fits_b_ok; auto|].
      apply lc_eqb_eq in B; auto. apply string_eqb_eq. }
    set (rho := fun s : sym => at_ X (name_index (sname s))).
    exists rho. split.
    - split; [auto|]. intros I II. rewrite Sh in II. assert (F := proj1 (in_indices _ _) II).
      rewrite (entry_ok rank entries rows Hlin Hlen rho I F).
      specialize (H1 I II). apply (same_sound idx_eqb idx_eqb_eq) with (f := at_ X) in H1.
      rewrite nth_map_indices in H1 by auto. rewrite average_ok in H1 by auto.
      rewrite pair_flat_map in H1.
      rewrite (Csum_ext_in _ (fun pc => RtoC (INR (length els)) * RtoC (2 ^ S rank) *
         (toC (snd pc) * at_name rho (fst pc))))%C in H1.
      + rewrite Csum_mult_l in H1. fold (pair_with (at_name rho) (nth (position I) rows [])) in H1.
        assert (N : (RtoC (INR (length els)) * RtoC (2 ^ S rank))%C <> RtoC 0).
        { apply Cmult_neq_0.
          - intros Q. apply RtoC_inj in Q. revert Q. apply not_0_INR. destruct els; simpl; congruence.
          - intros Q. apply RtoC_inj in Q. revert Q. apply pow_nonzero. lra. }
        rewrite Cmult_assoc in H1.
        transitivity (/ (RtoC (INR (length els)) * RtoC (2 ^ S rank)) *
          (RtoC (INR (length els)) * RtoC (2 ^ S rank) * at_ X I))%C.
        * rewrite Cmult_assoc, Cinv_l by auto. ring.
        * rewrite H1, Cmult_assoc, Cinv_l by auto. ring.
      + intros [n c] In_. cbn [fst snd]. destruct (Hrow _ _ _ F In_) as [Fn _].
        rewrite pair_scale, nth_map_indices by auto. rewrite average_ok by auto.
        unfold at_name, rho. cbn [sname]. ring.
    - intros rho' [_ T] s Is. unfold params_of, flatten in Is.
      apply in_flat_map in Is as (e & Ie & Is). apply in_map_iff in Ie as (I & <- & II).
      cbn [table_tensor shape] in II. assert (F := proj1 (in_indices _ _) II).
      destruct (lin_syms _ _ (row_ok rank entries rows Hlin Hlen I F) s Is) as (n & c & -> & J).
      destruct (Hrow _ _ _ F J) as [Fn E].
      unfold rho. cbn [sname]. rewrite (T (name_index n)) by (rewrite Sh; apply in_indices; auto).
      rewrite (entry_ok rank entries rows Hlin Hlen rho' _ Fn), E. unfold pair_with, Csum, at_name. simpl.
      rewrite toC_1. ring.
  Qed.
End Complete.

(** ** One check per table *)
Definition table_check (rank : nat) (entries : list expr) (gens : list smat) (order : nat) : bool :=
  (length entries =? 3 ^ S rank) &&
  match all_some (map lin entries) with
  | Some rows =>
      let els := elements gens in
      forallb (invariance_check (S rank) rows) gens && completeness_check (S rank) rows els &&
      (length els =? order)
  | None => false
  end.

Lemma table_check_ok rank entries gens order : order <> 0 -> table_check rank entries gens order = true ->
  invariant_table (table_tensor (S rank) entries) gens /\ complete_table (table_tensor (S rank) entries) gens.
Proof.
  intros No H. unfold table_check in H. apply andb_true_iff in H as [HL H]. apply Nat.eqb_eq in HL.
  destruct (all_some (map lin entries)) as [rows|] eqn:Hl; [|discriminate]. cbv zeta in H.
  rewrite !andb_true_iff in H. destruct H as [[H1 H2] H3]. split.
  - intros rho R G. apply (invariant_generated _ gens rank); auto.
    intros g Ig. apply (invariance_ok rank entries rows Hl HL). rewrite forallb_forall in H1. auto.
  - apply (completeness_ok rank entries rows Hl HL gens (elements gens)); auto.
    + apply Nat.eqb_eq in H3. destruct (elements gens); simpl in *; congruence.
    + apply elements_reached.
Qed.

Definition group_check (gens : list smat) (order : nat) : bool :=
  let els := elements gens in closed gens els && all_distinct els && (length els =? order).

Definition tables_check (rank : nat) (table : list (string * list expr))
    (groups : list (string * (list smat * nat))) : bool :=
  forallb (fun ne => match dget (fst ne) groups with
    | Some (gens, order) => negb (order =? 0) && table_check rank (snd ne) gens order
    | None => false
    end) table.

Lemma tables_check_ok rank table groups : tables_check rank table groups = true ->
  forall name t, lookup table (S rank) name = Ok t -> exists gens order, dget name groups = Some (gens, order) /\
    invariant_table t gens /\ complete_table t gens.
Proof.
  unfold tables_check, lookup. rewrite forallb_forall. intros H name t L.
  destruct (dget name table) as [l|] eqn:D; [|discriminate]. inversion L; subst t; clear L.
  apply dget_In in D. specialize (H _ D). cbn [fst snd] in H.
  destruct (dget name groups) as [[gens order]|] eqn:G; [|discriminate].
  apply andb_true_iff in H as [N H]. apply negb_true_iff, Nat.eqb_neq in N.
  exists gens, order. split; auto. apply (table_check_ok rank l gens order N H).
Qed.
