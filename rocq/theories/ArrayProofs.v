(** Proofs for C133: arrays handed to compiled functions. *)
From Coq Require Import String List Arith ZArith Bool Lia Reals Lra.
From Coquelicot Require Import Complex.
From Flocq Require Import Core IEEE754.Binary IEEE754.Bits.
Import ListNotations.
From Verif Require Import PyBase FDataModel FormModel FitModel ArrayModel SpecArray.
Local Open Scope nat_scope.

Lemma doubles_prefix ws : forall xs, (forall i x, nth_error xs i = Some x -> exists w, nth_error ws i = Some w /\ double w = Some x) ->
  exists rest, doubles ws = (xs ++ rest)%list.
Proof.
  induction ws as [|w ws IH]; intros xs H.
  - destruct xs as [|x xs]; [exists []; reflexivity|]. destruct (H 0 x eq_refl) as (w & E & _). discriminate E.
  - destruct xs as [|x xs]; [exists (doubles (w :: ws)); reflexivity|].
    destruct (H 0 x eq_refl) as (w' & E & D). cbn in E. injection E as <-. cbn [doubles]. rewrite D.
    destruct (IH xs) as (rest & ->); [|exists rest; reflexivity]. intros i y Y. exact (H (S i) y Y).
Qed.
Lemma nth_error_skipn {A} n (l : list A) i : nth_error (skipn n l) i = nth_error l (n + i).
Proof. revert l. induction n as [|n IH]; intros [|a l]; try reflexivity; [destruct i; reflexivity|]. cbn [skipn]. rewrite IH. reflexivity. Qed.

Lemma integer_signed w : (0 <= w < 2 ^ 64)%Z -> integer w = signed w.
Proof.
  intros B. unfold integer, signed. destruct (Z.ltb_spec w (2 ^ 63)).
  - rewrite Z.mod_small; lia.
  - replace (w + 2 ^ 63)%Z with (w - 2 ^ 63 + 1 * 2 ^ 64)%Z by lia. rewrite Z.mod_add by lia. rewrite Z.mod_small; lia.
Qed.
Lemma place_word a i : (0 <= Z.of_nat (start a) + Z.of_nat i * stride a < Z.of_nat (length (buffer a)))%Z ->
  nth_error (buffer a) (Z.to_nat (Z.of_nat (start a) + Z.of_nat i * stride a)) = Some (word a i).
Proof. intros B. unfold word. apply nth_error_nth'. lia. Qed.
Lemma element_word a i : well_formed a -> i < count a ->
  element a i = match kind a with Float64 => double (word a i) | Int64 => Some (IZR (signed (word a i))) end.
Proof.
  intros (W & B) I. pose proof (place_word a i (W i I)) as P. unfold element. rewrite P. destruct (kind a); [reflexivity|].
  rewrite integer_signed by (apply B; exact (nth_error_In _ _ P)). reflexivity.
Qed.

Lemma pointed_contiguous a xs : well_formed a -> kind a = Float64 -> contiguous a -> shows a xs -> exists rest, pointed a = (xs ++ rest)%list.
Proof.
  intros Wf K Ct (L & S). apply doubles_prefix. intros i x E. pose proof (S i x E) as X.
  assert (I : i < count a) by (rewrite L; apply nth_error_Some; congruence).
  rewrite (element_word a i Wf I), K in X. destruct Wf as (W & _).
  exists (word a i). split; [|exact X]. rewrite nth_error_skipn. unfold word. specialize (W i I).
  assert (Y : Z.to_nat (Z.of_nat (start a) + Z.of_nat i * stride a) = start a + i).
  { destruct Ct as [->|C1]; [lia|]. assert (i = 0) by lia. subst i. lia. }
  rewrite Y. assert (Z.of_nat (start a) + Z.of_nat i * stride a = Z.of_nat (start a + i))%Z by lia.
  apply nth_error_nth'. lia.
Qed.

Lemma int_exact z : (Z.abs z < 2 ^ 53)%Z -> double (bits_of_b64 (binary_normalize 53 1024 prec_pos prec_lt BinarySingleNaN.mode_NE z 0 false)) = Some (IZR z).
Proof.
  intros B. unfold double, b64_of_bits, bits_of_b64. rewrite binary_float_of_bits_of_binary_float.
  pose proof (binary_normalize_correct 53 1024 prec_pos prec_lt BinarySingleNaN.mode_NE z 0 false) as H.
  assert (E : F2R (Float radix2 z 0) = IZR z) by (unfold F2R; cbn; ring).
  rewrite E in H. rewrite round_generic in H.
  - rewrite Rlt_bool_true in H.
    + destruct H as (H1 & H2 & _). change (binary_normalize 53 1024 _ _ _ z 0 false) with (binary_normalize 53 1024 prec_pos prec_lt BinarySingleNaN.mode_NE z 0 false).
      rewrite H2, H1. reflexivity.
    + rewrite <- abs_IZR. apply Rlt_trans with (bpow radix2 53); [|apply bpow_lt; reflexivity]. change (bpow radix2 53) with (IZR (2 ^ 53)). apply IZR_lt. exact B.
  - apply valid_rnd_N.
  - apply generic_format_FLT. exists (Float radix2 z 0); [symmetry; exact E|exact B|cbn; lia].
Qed.

Lemma shows_astype a xs : well_formed a -> moderate a -> shows a xs ->
  kind (astype_float a) = Float64 /\ contiguous (astype_float a) /\ shows (astype_float a) xs /\ exists rest, pointed (astype_float a) = (xs ++ rest)%list.
Proof.
  intros W Mo (L & S).
  assert (Wd : forall i, i < count a -> word (astype_float a) i = to_float (kind a) (word a i)).
  { intros i I. unfold word at 1. unfold astype_float. cbn [start stride buffer].
    replace (Z.to_nat (Z.of_nat 0 + Z.of_nat i * 1)) with i by lia.
    rewrite (nth_indep _ 0%Z (to_float (kind a) (word a 0))) by (rewrite map_length, seq_length; exact I).
    rewrite (map_nth (fun i => to_float (kind a) (word a i))). rewrite seq_nth by exact I. reflexivity. }
  assert (Pl : forall i, i < count a -> nth_error (buffer (astype_float a)) (Z.to_nat (Z.of_nat (start (astype_float a)) + Z.of_nat i * stride (astype_float a))) = Some (word (astype_float a) i)).
  { intros i I. apply place_word. unfold astype_float. cbn [start stride buffer]. rewrite map_length, seq_length. lia. }
  assert (Sh : shows (astype_float a) xs).
  { split; [exact L|]. intros i x E. assert (I : i < count a) by (rewrite L; apply nth_error_Some; congruence).
    unfold element. rewrite (Pl i I). cbn [kind astype_float]. rewrite Wd by exact I. pose proof (S i x E) as X. pose proof X as X0. rewrite (element_word a i W I) in X.
    destruct (kind a) eqn:K; cbn [to_float]; [exact X|]. rewrite int_exact; [exact X|].
    pose proof (Mo K i x I X0) as B. injection X as <-. rewrite <- abs_IZR in B. apply lt_IZR. replace (IZR (2 ^ 53)) with (2 ^ 53)%R; [exact B|]. rewrite (pow_IZR 2 53). reflexivity. }
  split; [reflexivity|]. split; [left; reflexivity|]. split; [exact Sh|].
  destruct Sh as (L' & S'). apply doubles_prefix. intros i x E. pose proof (S' i x E) as X.
  assert (I : i < count a) by (rewrite L; apply nth_error_Some; congruence).
  unfold element in X. rewrite (Pl i I) in X. cbn [kind astype_float] in X.
  exists (word (astype_float a) i). split; [|exact X]. unfold word. unfold astype_float. cbn [start stride buffer skipn].
  replace (Z.to_nat (Z.of_nat 0 + Z.of_nat i * 1)) with i by lia. apply nth_error_nth'. rewrite map_length, seq_length. exact I.
Qed.

Lemma doubles_nth ws : forall i, i < length (doubles ws) -> exists w r, nth_error ws i = Some w /\ double w = Some r.
Proof.
  induction ws as [|w ws IH]; intros i L; [cbn in L; lia|]. cbn [doubles] in L. destruct (double w) as [r|] eqn:D; [|cbn in L; lia].
  destruct i as [|i]; [exists w, r; split; [reflexivity|exact D]|]. cbn [nth_error]. apply IH. cbn [length] in L. lia.
Qed.
Lemma called_finite lib a c : cost_func lib a = Some c -> forall e i, In e lib -> In i (kvars e) ->
  exists w r, nth_error (buffer a) (start a + i) = Some w /\ double w = Some r.
Proof.
  unfold cost_func, call. destruct (forallb _ lib) eqn:F; [|discriminate]. intros _ e i Ie Ii. rewrite forallb_forall in F. specialize (F e Ie).
  unfold callable in F. destruct (ksyms e); [|discriminate F]. rewrite forallb_forall in F. specialize (F i Ii). apply Nat.ltb_lt in F.
  destruct (doubles_nth _ i F) as (w & r & N & D). exists w, r. split; [|exact D]. rewrite nth_error_skipn in N. exact N.
Qed.
