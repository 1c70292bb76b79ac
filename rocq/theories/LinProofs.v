(** Linearity of the Fourier transformation of data; filters; shifted curves. *)
From Coq Require Import String List Arith ZArith Reals Lra Lia Bool Permutation.
From Coquelicot Require Import Complex.
From Verif Require Import PyBase CBase RMod DataModel SpecData DataProofs DataProofs2 FDataModel SpecFData FDataProofs FDataProofs2 SpecLin.
Import ListNotations.
Local Open Scope nat_scope.

(** (1/n) sum over n equally spaced angles of g(x) exp(-i m x) *)
Definition gdft (n : nat) (g : R -> R) (m : Z) : C :=
  Cmult (RtoC (/ INR n)) (Csum (fun x => Cmult (RtoC (g x)) (cis (- IZR m * x))) (grid n)).

Lemma gdft_lin n a b g h k m : (forall x, k x = a * g x + b * h x)%R ->
  gdft n k m = Cplus (Cmult (RtoC a) (gdft n g m)) (Cmult (RtoC b) (gdft n h m)).
Proof.
  intros H. unfold gdft.
  rewrite (Csum_ext _ (fun x => Cplus (Cmult (RtoC a) (Cmult (RtoC (g x)) (cis (- IZR m * x)))) (Cmult (RtoC b) (Cmult (RtoC (h x)) (cis (- IZR m * x)))))).
  2:{ intros x. rewrite H, RtoC_plus, !RtoC_mult. ring. }
  rewrite Csum_plus, !Csum_mult_l. ring.
Qed.
Lemma gdft_const n c g m : (0 < n)%nat -> (forall x, g x = c) ->
  gdft n g m = if (m mod Z.of_nat n =? 0)%Z then RtoC c else RtoC 0.
Proof.
  intros P H. assert (NZ : INR n <> 0%R) by (apply not_0_INR; lia). unfold gdft, grid. rewrite Csum_map.
  rewrite (Csum_ext _ (fun j => Cmult (RtoC c) (cis (IZR (- m) * node n j)))) by (intros j; rewrite H, opp_IZR; reflexivity).
  rewrite Csum_mult_l, roots_sum by auto.
  assert (E : ((- m) mod Z.of_nat n =? 0)%Z = (m mod Z.of_nat n =? 0)%Z).
  { destruct (Z.eqb_spec (m mod Z.of_nat n) 0) as [E|E].
    - apply Z.eqb_eq. apply Z.mod_opp_l_z; lia.
    - apply Z.eqb_neq. intros X. apply E. rewrite <- (Z.opp_involutive m). apply Z.mod_opp_l_z; lia. }
  rewrite E.
  destruct (m mod Z.of_nat n =? 0)%Z; [|rewrite !Cmult_0_r; reflexivity].
  rewrite <- !RtoC_mult. f_equal. field. auto.
Qed.

Section Transform.
Variable interp : list (R * R) -> res (R -> R).

Definition transformed (M : nat) (p : list (R * R)) (v : list C) : Prop :=
  exists g, interp p = Ok g /\ 2 <= length p /\ v = map (gdft (length p) g) (freqs M).

Lemma entry_value p g m : interp p = Ok g -> fourier_entry interp p m =
  if 2 <=? length p then Ok (gdft (length p) g m) else Raise IndexError.
Proof.
  intros E. unfold fourier_entry. rewrite E. cbn [bind]. set (n := length p). clearbody n.
  destruct (Nat.leb_spec 2 n) as [L|L].
  - assert (NZ : INR n <> 0%R) by (apply not_0_INR; lia).
    assert (E1 : py_nth (grid n) 1 = Ok (node n 1)).
    { rewrite py_nth_nonneg by lia. unfold grid. change (Z.to_nat 1) with 1%nat. destruct n as [|[|n']]; try lia. reflexivity. }
    assert (E0 : py_nth (grid n) 0 = Ok (node n 0)).
    { rewrite py_nth_nonneg by lia. unfold grid. change (Z.to_nat 0) with 0%nat. destruct n as [|[|n']]; try lia. reflexivity. }
    rewrite E1, E0. cbn [bind]. f_equal. unfold gdft. rewrite <- Csum_mult_l.
    assert (G : forall l, Csum (fun xy => Cmult (RtoC (1 / 2 / PI * (node n 1 - node n 0) * snd xy)) (cis (- IZR m * fst xy))) (combine l (map g l)) =
      Csum (fun x => Cmult (RtoC (/ INR n)) (Cmult (RtoC (g x)) (cis (- IZR m * x)))) l).
    { induction l as [|x l IH]; [reflexivity|]. cbn [map combine]. rewrite !Csum_cons, IH. f_equal. cbn [fst snd].
      rewrite Cmult_assoc, <- RtoC_mult. do 2 f_equal. unfold node. simpl. field. split; auto. apply PI_neq0. }
    apply G.
  - destruct n as [|[|n]]; [reflexivity|reflexivity|lia].
Qed.
Lemma entry_fails p m e : interp p = Raise e -> fourier_entry interp p m = Raise e.
Proof. intros E. unfold fourier_entry. rewrite E. reflexivity. Qed.

Lemma mapM_entry M p v : mapM (fourier_entry interp p) (freqs M) = Ok v <-> transformed M p v.
Proof.
  split.
  - intros H. assert (I : In 0%Z (freqs M)) by (apply In_freqs; lia).
    destruct (interp p) as [g|e] eqn:E.
    + exists g. destruct (Nat.leb_spec 2 (length p)) as [L|L].
      * split; [exact E|]. split; [exact L|].
        rewrite (mapM_ok_map _ (gdft (length p) g)) in H; [congruence|].
        intros a _. rewrite (entry_value p g a E). destruct (Nat.leb_spec 2 (length p)); [reflexivity|lia].
      * exfalso. destruct (freqs M) as [|z l]; [destruct I|]. cbn [mapM] in H. rewrite (entry_value p g z E) in H.
        destruct (Nat.leb_spec 2 (length p)); [lia|]. discriminate H.
    + exfalso. destruct (freqs M) as [|z l]; [destruct I|]. cbn [mapM] in H. rewrite (entry_fails p z e E) in H. discriminate H.
  - intros (g & E & L & ->). apply mapM_ok_map. intros a _. rewrite (entry_value p g a E).
    destruct (Nat.leb_spec 2 (length p)); [reflexivity|lia].
Qed.

Definition rows_of (M : nat) (kp : string * list (R * R)) (kv : string * list C) : Prop :=
  fst kp = fst kv /\ transformed M (snd kp) (snd kv).
Lemma rows_keys M l r : Forall2 (rows_of M) l r -> map fst l = map fst r.
Proof. induction 1 as [|a b l r [E _] _ IH]; cbn [map]; [reflexivity|]. now rewrite E, IH. Qed.
Lemma transform_rows d M f : wf_dict (dc_data d) ->
  (dat_to_fdat interp d M = Ok f <-> exists r, Forall2 (rows_of M) (dc_data d) r /\ f = mkfdat r 1 (PNum 0) M).
Proof.
  intros W. unfold dat_to_fdat.
  assert (A : forall l r, dmapM (fun p => mapM (fourier_entry interp p) (freqs M)) l = Ok r <-> Forall2 (rows_of M) l r).
  { induction l as [|[k p] l IH]; intros r.
    - cbn [dmapM]. split; [intros H; injection H as <-; constructor|intros H; inversion H; reflexivity].
    - cbn [dmapM]. split.
      + destruct (mapM _ (freqs M)) as [v|e] eqn:E; [|discriminate]. cbn [bind].
        destruct (dmapM _ l) as [r'|e] eqn:E'; [|discriminate]. cbn [bind]. intros H. injection H as <-.
        constructor; [split; [reflexivity|apply mapM_entry; exact E]|apply IH; reflexivity].
      + intros H. inversion H as [|a [k' v] l' r' [K T] F]; subst. cbn [fst snd] in *. subst k'.
        apply mapM_entry in T. rewrite T. cbn [bind]. apply IH in F. rewrite F. reflexivity. }
  assert (B : forall r, Forall2 (rows_of M) (dc_data d) r -> fconstruct (fitems r) M = Ok (mkfdat r 1 (PNum 0) M)).
  { intros r H. apply fconstruct_items. split.
    - unfold wf_dict, dkeys in *. rewrite <- (rows_keys M _ _ H). exact W.
    - clear W. induction H as [|a b l r [_ (g & _ & _ & E)] _ IH]; constructor; auto. rewrite E, map_length, length_freqs. reflexivity. }
  split.
  - destruct (dmapM _ _) as [r|e] eqn:E; [|discriminate]. cbn [bind]. intros H. apply A in E. exists r. split; [exact E|].
    rewrite (B r E) in H. congruence.
  - intros (r & H & ->). pose proof (proj2 (A _ r) H) as E. rewrite E. cbn [bind]. apply B. exact H.
Qed.

Lemma lincomb_fst a b p q : map fst p = map fst q -> map fst (lincomb a b p q) = map fst p.
Proof.
  intros H. assert (L : length p = length q) by (rewrite <- (map_length fst p), H, map_length; reflexivity). clear H.
  unfold lincomb. revert q L. induction p as [|x p IH]; intros [|y q] L; try discriminate; [reflexivity|].
  cbn [combine map fst]. rewrite IH by (simpl in L; lia). reflexivity.
Qed.
Lemma lincomb_length a b p q : map fst p = map fst q -> length (lincomb a b p q) = length p.
Proof. intros H. rewrite <- (map_length fst), lincomb_fst, map_length; auto. Qed.

Lemma transformed_lin M a b p q v w : linear_interp interp -> map fst p = map fst q -> transformed M p v -> transformed M q w ->
  transformed M (lincomb a b p q) (map (fun zw => Cplus (Cmult (RtoC a) (fst zw)) (Cmult (RtoC b) (snd zw))) (combine v w)).
Proof.
  intros Li H (g & Eg & L & ->) (h & Eh & _ & ->). destruct (Li a b p q g h H Eg Eh) as (k & Ek & K).
  assert (Lq : length q = length p) by (rewrite <- (map_length fst q), <- H, map_length; reflexivity).
  exists k. split; [exact Ek|]. rewrite lincomb_length by exact H. split; [exact L|]. rewrite Lq.
  induction (freqs M) as [|m l IH]; [reflexivity|]. cbn [map combine fst snd]. rewrite <- IH.
  rewrite (gdft_lin _ a b g h k m K). reflexivity.
Qed.
End Transform.
