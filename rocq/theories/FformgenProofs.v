(** Convolution of arrays with a frequency axis. *)
From Coq Require Import String List Arith ZArith Bool Lia Reals QArith Qreals Lra Permutation.
From Coquelicot Require Import Complex.
Import ListNotations.
From Verif Require Import PyBase CBase Expr ExprProofs FormModel SpecForm TensorInst TensorProofs FformgenModel SpecFformgen.
From Verif Require FormgenProofs.
From Verif Require Import SpecTensor TensorModel.
Local Open Scope nat_scope.

(** Sums over frequencies *)
Lemma NoDup_freqs M : NoDup (freqs M). Proof. apply NoDup_zrange. Qed.

Lemma Csum_support {A} (dec : forall x y : A, {x = y} + {x <> y}) (f : A -> C) l l' : NoDup l -> NoDup l' ->
  (forall x, In x l -> ~ In x l' -> f x = RtoC 0) -> (forall x, In x l' -> ~ In x l -> f x = RtoC 0) ->
  Csum f l = Csum f l'.
Proof.
  intros N N' H H'.
  assert (K : forall a b, NoDup a -> (forall x, In x a -> ~ In x b -> f x = RtoC 0) ->
    Csum f a = Csum f (filter (fun x => if in_dec dec x b then true else false) a)).
  { clear. intros a b _ H. rewrite Csum_filter. apply Csum_ext_in. intros x I.
    destruct (in_dec dec x b) as [J|J]; auto. }
  rewrite (K l l'), (K l' l) by auto. apply Csum_perm. apply NoDup_Permutation.
  - apply NoDup_filter; auto.
  - apply NoDup_filter; auto.
  - intros x. rewrite !filter_In. destruct (in_dec dec x l), (in_dec dec x l'); intuition congruence.
Qed.

Lemma Csum_shift (f : Z -> C) M b m : (Z.abs m + Z.of_nat b <= Z.of_nat M)%Z ->
  (forall k, (Z.of_nat b < Z.abs k)%Z -> f k = RtoC 0) ->
  Csum (fun n => f (n - m)%Z) (freqs M) = Csum f (freqs M).
Proof.
  intros L H. rewrite <- (Csum_map (fun n => (n - m)%Z) f). apply (Csum_support Z.eq_dec).
  - apply FinFun.Injective_map_NoDup; [intros x y; lia|]. apply NoDup_freqs.
  - apply NoDup_freqs.
  - intros x _ I. apply H. rewrite In_freqs in I. lia.
  - intros x I J. apply H. destruct (Z_lt_le_dec (Z.of_nat b) (Z.abs x)); auto. exfalso. apply J.
    apply in_map_iff. exists (x + m)%Z. split; [lia|]. apply In_freqs. lia.
Qed.

Section Conv.
Variable ev : expr -> expr.
Hypothesis EV : sound_ev ev.
Variable rho : sym -> C.
Hypothesis RS : respects rho.
Notation co := (coefficient rho).

Lemma ev_val e : eval rho (ev e) = eval rho e.
Proof. apply EV, RS. Qed.
Lemma eval_add a b : eval rho (@add _ (Sig_fform ev) a b) = (eval rho a + eval rho b)%C.
Proof. cbn. rewrite ev_val. cbn. ring. Qed.
Lemma eval_mul a b : eval rho (@mul _ (Sig_fform ev) a b) = (eval rho a * eval rho b)%C.
Proof. cbn. rewrite ev_val. cbn. ring. Qed.

Lemma slice_ok M sh F n : wellformed M sh F -> In n (freqs M) ->
  slice F n M = Ok (nth (Z.to_nat (n + Z.of_nat M)) F (mkT [] (fun _ => num 0))).
Proof.
  intros [L _] I. apply In_freqs in I. unfold slice. rewrite py_nth_nonneg by lia.
  rewrite (nth_error_nth' F (mkT [] (fun _ => num 0))); [reflexivity|]. lia.
Qed.

Lemma slice_shape M sh F n : wellformed M sh F -> In n (freqs M) ->
  shape (nth (Z.to_nat (n + Z.of_nat M)) F (mkT [] (fun _ => num 0))) = sh.
Proof.
  intros [L A] I. apply In_freqs in I. rewrite Forall_forall in A. apply A. apply nth_In. lia.
Qed.

(** Reading at any distance *)
Lemma slice_read M sh F k : wellformed M sh F -> (- 2 * Z.of_nat M <= k)%Z ->
  slice F k M = match read_frequency M k with
                | Some n => Ok (nth (Z.to_nat (n + Z.of_nat M)) F (mkT [] (fun _ => num 0)))
                | None => Raise IndexError
                end.
Proof.
  intros W K. unfold read_frequency. destruct (Z.ltb_spec k (- Z.of_nat M)) as [A|A].
  - unfold slice. pose proof (proj1 W) as L. rewrite py_nth_neg by lia. rewrite L.
    replace (k + 2 * Z.of_nat M + 1 + Z.of_nat M)%Z with (k + Z.of_nat M + Z.of_nat (2 * M + 1))%Z by lia.
    rewrite (nth_error_nth' F (mkT [] (fun _ => num 0))); [reflexivity|]. lia.
  - destruct (Z.leb_spec k (Z.of_nat M)) as [B|B].
    + apply (slice_ok M sh); auto. apply In_freqs. lia.
    + unfold slice. apply py_nth_err. pose proof (proj1 W). lia.
Qed.

Lemma nth_freqs {A} (f : Z -> A) M n d : In n (freqs M) -> nth (Z.to_nat (n + Z.of_nat M)) (map f (freqs M)) d = f n.
Proof.
  intros I. apply In_freqs in I. unfold freqs, zrange. rewrite map_map.
  rewrite (nth_indep _ d (f (- Z.of_nat M + Z.of_nat 0)%Z)) by (rewrite map_length, seq_length; lia).
  rewrite (map_nth (fun i => f (- Z.of_nat M + Z.of_nat i)%Z)), seq_nth by lia. f_equal. lia.
Qed.

Lemma wellformed_map M sh (f : Z -> tensor expr) : (forall n, In n (freqs M) -> shape (f n) = sh) ->
  wellformed M sh (map f (freqs M)).
Proof.
  intros H. split; [rewrite map_length; apply length_freqs|]. apply Forall_forall. intros t I.
  apply in_map_iff in I as (n & <- & I). auto.
Qed.
Lemma co_map M (f : Z -> tensor expr) n ix : In n (freqs M) -> co M (map f (freqs M)) n ix = eval rho (at_ (f n) ix).
Proof. intros I. unfold coefficient. rewrite nth_freqs by auto. reflexivity. Qed.

Lemma firstn_length_app {A} (i j : list A) n : length i = n -> firstn n (i ++ j) = i /\ skipn n (i ++ j) = j.
Proof.
  intros <-. split.
  - rewrite firstn_app, Nat.sub_diag, firstn_all. simpl. apply app_nil_r.
  - rewrite skipn_app, Nat.sub_diag, skipn_all. reflexivity.
Qed.

Lemma fold_plus (f : Z -> option (tensor expr)) l : forall acc sh,
  let r := fold_left (fun acc m => match f m with Some t => plus_eq ev acc t | None => acc end) l acc in
  shape acc = sh -> shape r = sh /\ forall ix, eval rho (at_ r ix) =
    (eval rho (at_ acc ix) + Csum (fun m => match f m with Some t => eval rho (at_ t ix) | None => RtoC 0 end) l)%C.
Proof.
  induction l as [|m l IH]; intros acc sh r S.
  - split; auto. intros ix. subst r. simpl. ring.
  - subst r. cbn [fold_left]. destruct (f m) as [t|] eqn:E.
    + destruct (IH (plus_eq ev acc t) sh) as [S' H]; [exact S|]. split; auto. intros ix. rewrite H, Csum_cons, E.
      unfold plus_eq. cbn [at_]. rewrite eval_add. ring.
    + destruct (IH acc sh S) as [S' H]. split; auto. intros ix. rewrite H, Csum_cons, E. ring.
Qed.

Lemma convolve_coefficient M sh sh' F G : wellformed M sh F -> wellformed M sh' G ->
  exists H, convolve_ftensors ev M F G = Ok H /\ wellformed M (sh ++ sh') H /\
  forall n i j, In n (freqs M) -> fits sh i -> fits sh' j ->
    co M H n (i ++ j) = Csum (fun m => match read_frequency M (n - m) with
                                       | Some k => co M F m i * co M G k j
                                       | None => RtoC 0
                                       end)%C (freqs M).
Proof.
  intros WF WG. unfold convolve_ftensors.
  assert (Z0 : In (- Z.of_nat M)%Z (freqs M)) by (apply In_freqs; lia).
  assert (P : forall (K : list (tensor expr)) sh0, wellformed M sh0 K -> exists t, py_nth K 0 = Ok t /\ shape t = sh0).
  { intros K sh0 W. pose proof (slice_ok M sh0 K _ W Z0) as E. unfold slice in E.
    replace (- Z.of_nat M + Z.of_nat M)%Z with 0%Z in E by lia. rewrite E. eexists; split; [reflexivity|].
    pose proof (slice_shape M sh0 K _ W Z0) as S. replace (- Z.of_nat M + Z.of_nat M)%Z with 0%Z in S by lia. exact S. }
  destruct (P F sh WF) as (a0 & -> & Sa). destruct (P G sh' WG) as (b0 & -> & Sb). cbn [bind].
  set (step := fun n m => match slice F m M, slice G (n - m)%Z M with Ok a, Ok b => Some (@outer _ (Sig_fform ev) a b) | _, _ => None end).
  assert (E : forall n, (fun acc m => match slice F m M, slice G (n - m)%Z M with
            | Ok a, Ok b => plus_eq ev acc (@outer _ (Sig_fform ev) a b) | _, _ => acc end) =
            (fun acc m => match step n m with Some t => plus_eq ev acc t | None => acc end)).
  { intros n. apply FunctionalExtensionality.functional_extensionality. intros acc.
    apply FunctionalExtensionality.functional_extensionality. intros m. unfold step.
    destruct (slice F m M), (slice G (n - m)%Z M); reflexivity. }
  eexists. split; [reflexivity|].
  assert (Sz : shape (zeros (shape (@outer _ (Sig_fform ev) a0 b0))) = sh ++ sh') by (simpl; rewrite Sa, Sb; reflexivity).
  split.
  - apply wellformed_map. intros n I. rewrite E. apply (fold_plus (step n) (freqs M) _ _ Sz).
  - intros n i j I Fi Fj. rewrite co_map by auto. rewrite E.
    destruct (fold_plus (step n) (freqs M) _ _ Sz) as [_ H]. rewrite H. clear H.
    change (eval rho (at_ (zeros (shape (@outer _ (Sig_fform ev) a0 b0))) (i ++ j))) with (eval rho (num 0)).
    rewrite FormgenProofs.eval_num0, Cplus_0_l. apply Csum_ext_in. intros m Im. unfold step.
    rewrite (slice_ok M sh F m WF Im). pose proof (slice_shape M sh F m WF Im) as Sm.
    rewrite (slice_read M sh' G) by (auto; apply In_freqs in I, Im; lia).
    destruct (read_frequency M (n - m)) as [k|]; auto.
    unfold outer. cbn [at_]. rewrite eval_mul. unfold coefficient, rank. rewrite Sm.
    destruct (firstn_length_app i j (length sh) (fits_length _ _ Fi)) as [-> ->]. reflexivity.
Qed.

Definition carries (M : nat) (b : nat) (sh : list nat) (F : list (tensor expr)) (v : R -> list nat -> C) : Prop :=
  wellformed M sh F /\ bandlimited rho M sh b F /\ forall ix x, fits sh ix -> synthesis rho M F ix x = v x ix.

Lemma carries_ext M b sh F v w : carries M b sh F v -> (forall x ix, fits sh ix -> v x ix = w x ix) -> carries M b sh F w.
Proof. intros (W & B & S) E. repeat split; try apply W; auto. intros ix x H. rewrite S, E; auto. Qed.

Lemma fits_app sh sh' ix : fits (sh ++ sh') ix -> exists i j, ix = (i ++ j)%list /\ fits sh i /\ fits sh' j.
Proof. unfold fits. intros H. apply Forall2_app_inv_r in H as (i & j & A & B & ->). eauto. Qed.
Lemma app_fits sh sh' i j : fits sh i -> fits sh' j -> fits (sh ++ sh') (i ++ j).
Proof. apply Forall2_app. Qed.

Lemma convolve_exact M sh sh' F G a b : wellformed M sh F -> wellformed M sh' G ->
  bandlimited rho M sh a F -> bandlimited rho M sh' b G -> a + b <= M ->
  exists H, convolve_ftensors ev M F G = Ok H /\ wellformed M (sh ++ sh') H /\ bandlimited rho M (sh ++ sh') (a + b) H /\
  (forall n i j, In n (freqs M) -> fits sh i -> fits sh' j ->
    co M H n (i ++ j) = Csum (fun m => co M F m i * co M G (n - m) j)%C
                             (filter (fun m => (Z.abs (n - m) <=? Z.of_nat M)%Z) (freqs M))) /\
  forall i j x, fits sh i -> fits sh' j -> synthesis rho M H (i ++ j) x = (synthesis rho M F i x * synthesis rho M G j x)%C.
Proof.
  intros WF WG BF BG L. destruct (convolve_coefficient M sh sh' F G WF WG) as (H & E & WH & CH).
  exists H. split; [exact E|]. split; [exact WH|].
  set (g := fun k j => if (Z.abs k <=? Z.of_nat M)%Z then co M G k j else RtoC 0).
  assert (CH' : forall n i j, In n (freqs M) -> fits sh i -> fits sh' j ->
    co M H n (i ++ j) = Csum (fun m => co M F m i * g (n - m)%Z j)%C (freqs M)).
  { intros n i j I Fi Fj. rewrite CH by auto. apply Csum_ext_in. intros m Im. unfold g, read_frequency.
    pose proof (proj1 (In_freqs _ _) I). pose proof (proj1 (In_freqs _ _) Im).
    destruct (Z.ltb_spec (n - m) (- Z.of_nat M)).
    - destruct (Z.leb_spec (Z.abs (n - m)) (Z.of_nat M)); [lia|].
      destruct (Z_lt_le_dec (Z.of_nat a) (Z.abs m)) as [A|A]; [rewrite (BF m i Im Fi A); ring|].
      rewrite (BG (n - m + 2 * Z.of_nat M + 1)%Z j); [ring|apply In_freqs; lia|auto|lia].
    - destruct (Z.leb_spec (n - m) (Z.of_nat M)), (Z.leb_spec (Z.abs (n - m)) (Z.of_nat M)); try lia; auto. ring. }
  assert (G0 : forall k j, fits sh' j -> (Z.of_nat b < Z.abs k)%Z -> g k j = RtoC 0).
  { intros k j Fj K. unfold g. destruct (Z.leb_spec (Z.abs k) (Z.of_nat M)); auto. apply BG; auto. apply In_freqs. lia. }
  split; [|split].
  - intros n ix I Fx K. apply fits_app in Fx as (i & j & -> & Fi & Fj). rewrite CH' by auto.
    apply Csum_0_in. intros m Im. destruct (Z_lt_le_dec (Z.of_nat a) (Z.abs m)) as [A|A].
    + rewrite (BF m i Im Fi A). ring.
    + rewrite G0; [ring|auto|]. lia.
  - intros n i j I Fi Fj. rewrite CH' by auto. rewrite Csum_filter. apply Csum_ext. intros m. unfold g.
    destruct (Z.leb_spec (Z.abs (n - m)) (Z.of_nat M)); auto. ring.
  - intros i j x Fi Fj. unfold synthesis at 1.
    rewrite (Csum_ext_in _ (fun n => Csum (fun m => co M F m i * (g (n - m)%Z j * cis (IZR n * x)))%C (freqs M))%C).
    2:{ intros n I. rewrite CH' by auto. rewrite <- Csum_mult_r. apply Csum_ext. intros m. ring. }
    rewrite Csum_swap. unfold synthesis at 1. rewrite <- Csum_mult_r. apply Csum_ext_in. intros m Im.
    rewrite Csum_mult_l. rewrite <- Cmult_assoc.
    destruct (Z_lt_le_dec (Z.of_nat a) (Z.abs m)) as [A|A].
    { rewrite (BF m i Im Fi A). ring. }
    f_equal.
    rewrite (Csum_ext _ (fun n => (fun k => cis (IZR m * x) * (g k j * cis (IZR k * x)))%C (n - m)%Z)).
    2:{ intros n. rewrite minus_IZR. replace (IZR n * x)%R with (IZR m * x + (IZR n - IZR m) * x)%R by ring.
        rewrite cis_plus. ring. }
    rewrite (Csum_shift (fun k => cis (IZR m * x) * (g k j * cis (IZR k * x)))%C M b m).
    + rewrite Csum_mult_l. f_equal. unfold synthesis. apply Csum_ext_in. intros k Ik. unfold g.
      apply In_freqs in Ik. destruct (Z.leb_spec (Z.abs k) (Z.of_nat M)); [reflexivity|lia].
    + lia.
    + intros k K. rewrite G0 by auto. ring.
Qed.

End Conv.
