(** The generators for orders other than 16: the convolutions are always done at
    order 16. *)
From Coq Require Import String List Arith ZArith Bool Lia Reals QArith Qreals Lra.
From Coquelicot Require Import Complex.
Import ListNotations.
From Verif Require Import PyBase CBase Expr ExprProofs TensorProofs FormModel SpecForm FDataModel FDataProofs TensorInst UtilModel FformgenModel SpecFormgen SpecFformgen
  FormgenProofs FormgenProofs2 FormgenProofs3 FformgenProofs FformgenProofs2 FformgenProofs3 FformgenProofs4 FformgenProofs5 FformgenThms.
From Verif Require Import SpecTensor TensorModel.
Local Open Scope nat_scope.
Notation dflt := (mkT [] (fun _ => num 0)).

(** Slots beyond [hi] hold zero *)
Definition lowat (rho : sym -> C) (sh : list nat) (hi : Z) (F : list (tensor expr)) : Prop :=
  Forall (fun t => shape t = sh) F /\
  forall i o, fits sh o -> (hi < Z.of_nat i)%Z -> eval rho (at_ (nth i F dflt) o) = RtoC 0.

Lemma dflt_zero rho o : eval rho (at_ dflt o) = RtoC 0.
Proof. apply eval_num0. Qed.

Lemma py_nth_ok {A} (l : list A) i d : (0 <= i)%Z -> Z.to_nat i < length l -> py_nth l i = Ok (nth (Z.to_nat i) l d).
Proof. intros H L. rewrite py_nth_nonneg by auto. rewrite (nth_error_nth' l d) by auto. reflexivity. Qed.
Lemma py_nth_over {A} (l : list A) i : (Z.of_nat (length l) <= i)%Z -> py_nth l i = Raise IndexError.
Proof. intros H. apply py_nth_err. lia. Qed.

Lemma slot_freqs {A} (f : Z -> A) M i d : i < 2 * M + 1 -> nth i (map f (freqs M)) d = f (Z.of_nat i - Z.of_nat M)%Z.
Proof.
  intros L. rewrite <- (nth_freqs f M (Z.of_nat i - Z.of_nat M)%Z d) by (apply In_freqs; lia). f_equal. lia.
Qed.

Section Low.
Variable ev : expr -> expr.
Hypothesis EV : sound_ev ev.

Section At.
Variable rho : sym -> C.
Hypothesis RS : respects rho.
Notation low := (lowat rho).

Lemma low_map M sh hi (f : Z -> tensor expr) : (forall n, In n (freqs M) -> shape (f n) = sh) ->
  (forall n o, In n (freqs M) -> fits sh o -> (hi < n + Z.of_nat M)%Z -> eval rho (at_ (f n) o) = RtoC 0) ->
  low sh hi (map f (freqs M)).
Proof.
  intros S Z. split.
  - apply Forall_map. apply Forall_forall. exact S.
  - intros i o Fo H. destruct (Nat.lt_ge_cases i (2 * M + 1)) as [L|L].
    + rewrite slot_freqs by auto. apply Z; auto; [apply In_freqs|]; lia.
    + rewrite nth_overflow by (rewrite map_length, length_freqs; lia). apply dflt_zero.
Qed.

Lemma low_le sh hi hi' F : (hi <= hi')%Z -> low sh hi F -> low sh hi' F.
Proof. intros L [S Z]. split; auto. intros i o Fo H. apply Z; auto. lia. Qed.

Lemma low_slice sh hi F m M : low sh hi F -> 2 * M + 1 <= length F -> In m (freqs M) ->
  exists t, slice F m M = Ok t /\ shape t = sh /\
    forall o, fits sh o -> (hi < m + Z.of_nat M)%Z -> eval rho (at_ t o) = RtoC 0.
Proof.
  intros [S Z] L I. apply In_freqs in I. unfold slice. rewrite (py_nth_ok F _ dflt) by lia.
  eexists. split; [reflexivity|]. split.
  - rewrite Forall_forall in S. apply S, nth_In. lia.
  - intros o Fo H. apply Z; auto. lia.
Qed.

Lemma conv_low sh sh' a b F G : low sh a F -> low sh' b G -> (a <= 16)%Z -> 0 < length F -> 0 < length G ->
  exists H, conv ev F G = Ok H /\ length H = 33 /\ low (sh ++ sh') (a + b - 16) H.
Proof.
  intros [SF ZF] [SG ZG] La LF LG. unfold conv, convolve_ftensors.
  rewrite (py_nth_ok F 0 dflt), (py_nth_ok G 0 dflt) by (simpl; lia). cbn [bind].
  assert (Sa : shape (nth (Z.to_nat 0) F dflt) = sh) by (rewrite Forall_forall in SF; apply SF, nth_In; simpl; lia).
  assert (Sb : shape (nth (Z.to_nat 0) G dflt) = sh') by (rewrite Forall_forall in SG; apply SG, nth_In; simpl; lia).
  set (a0 := nth (Z.to_nat 0) F dflt) in *. set (b0 := nth (Z.to_nat 0) G dflt) in *.
  set (step := fun n m => match slice F m 16, slice G (n - m)%Z 16 with Ok a, Ok b => Some (@outer _ (Sig_fform ev) a b) | _, _ => None end).
  assert (E : forall n, (fun acc m => match slice F m 16, slice G (n - m)%Z 16 with
            | Ok a, Ok b => plus_eq ev acc (@outer _ (Sig_fform ev) a b) | _, _ => acc end) =
            (fun acc m => match step n m with Some t => plus_eq ev acc t | None => acc end)).
  { intros n. apply FunctionalExtensionality.functional_extensionality. intros acc.
    apply FunctionalExtensionality.functional_extensionality. intros m. unfold step.
    destruct (slice F m 16), (slice G (n - m)%Z 16); reflexivity. }
  eexists. split; [reflexivity|]. split; [rewrite map_length; apply length_freqs|].
  assert (Sz : shape (zeros (shape (@outer _ (Sig_fform ev) a0 b0))) = sh ++ sh') by (simpl; rewrite Sa, Sb; reflexivity).
  apply low_map.
  - intros n I. rewrite E. apply (fold_plus ev EV rho RS (step n) (freqs 16) _ _ Sz).
  - intros n o I Fo Hn. rewrite E.
    destruct (fold_plus ev EV rho RS (step n) (freqs 16) _ _ Sz) as [_ H]. rewrite H. clear H E.
    change (eval rho (at_ (zeros (shape (@outer _ (Sig_fform ev) a0 b0))) o)) with (eval rho (num 0)).
    rewrite eval_num0, Cplus_0_l. apply Csum_0_in. intros m Im. unfold step, slice.
    apply fits_app in Fo as (i & j & -> & Fi & Fj). apply In_freqs in I, Im.
    destruct (Z.le_gt_cases (Z.of_nat (length F)) (m + Z.of_nat 16)%Z) as [O|O]; [rewrite (py_nth_over F) by auto; reflexivity|].
    rewrite (py_nth_ok F _ dflt) by lia.
    assert (Sm : shape (nth (Z.to_nat (m + Z.of_nat 16)) F dflt) = sh) by (rewrite Forall_forall in SF; apply SF, nth_In; lia).
    destruct (py_nth G (n - m + Z.of_nat 16)%Z) as [t|e] eqn:Eg; [|reflexivity].
    unfold outer. cbn [at_]. rewrite (eval_mul ev EV rho RS). unfold rank. rewrite Sm.
    destruct (firstn_length_app i j (length sh) (fits_length _ _ Fi)) as [-> ->].
    destruct (Z.lt_ge_cases a (m + Z.of_nat 16)%Z) as [A|A].
    + rewrite ZF by (auto; lia). ring.
    + destruct (Z.le_gt_cases (Z.of_nat (length G)) (n - m + Z.of_nat 16)%Z) as [P|P]; [rewrite py_nth_over in Eg by auto; discriminate|].
      rewrite (py_nth_ok G _ dflt) in Eg by lia. injection Eg as <-. rewrite ZG by (auto; lia). ring.
Qed.

Lemma each_low M sh sh' hi f L F : applies rho sh sh' f L -> low sh hi F -> 2 * M + 1 <= length F ->
  exists G, each M f F = Ok G /\ length G = 2 * M + 1 /\ low sh' hi G.
Proof.
  intros [Hf HL] LF Len. unfold each. set (g := fun m => do t <- slice F m M; f t).
  assert (K : forall m, In m (freqs M) -> exists u, g m = Ok u /\ shape u = sh' /\
    forall o, fits sh' o -> (hi < m + Z.of_nat M)%Z -> eval rho (at_ u o) = RtoC 0).
  { intros m I. destruct (low_slice sh hi F m M LF Len I) as (t & E & S & Z). unfold g. rewrite E. cbn [bind].
    destruct (Hf t S) as (u & Eu & Su & Hu). exists u. split; [exact Eu|]. split; [exact Su|]. intros o Fo H. rewrite Hu by auto.
    transitivity (L o (fun _ => RtoC 0)); [|apply (lin_zero sh); auto]. destruct (HL o Fo) as (_ & _ & X). apply X. intros i Fi. apply Z; auto. }
  eexists. split. { apply (mapM_total dflt). intros a I. destruct (K a I) as (u & E & _). eauto. }
  split; [rewrite map_length; apply length_freqs|]. apply low_map.
  - intros n I. destruct (K n I) as (u & -> & S & _). exact S.
  - intros n o I Fo H. destruct (K n I) as (u & -> & _ & Z). auto.
Qed.

Lemma scale_low sh hi c F : low sh hi F -> low sh hi (fscale ev c F).
Proof.
  intros [S Z]. split.
  - unfold fscale. apply Forall_map. eapply Forall_impl; [|exact S]. auto.
  - intros i o Fo H. unfold fscale. destruct (Nat.lt_ge_cases i (length F)) as [L|L].
    + rewrite (nth_indep _ dflt (FormgenModel.tscale ev c dflt)) by (rewrite map_length; lia). rewrite map_nth.
      cbn [FormgenModel.tscale tmap at_]. rewrite (proj1 EV) by auto. cbn. rewrite Z by auto. ring.
    + rewrite nth_overflow by (rewrite map_length; lia). apply dflt_zero.
Qed.

Lemma constant_low M t : low (shape t) (Z.of_nat M) (constant M t).
Proof.
  apply low_map.
  - intros n _. destruct (Z.eqb n 0); reflexivity.
  - intros n o _ _ H. destruct (Z.eqb_spec n 0); [lia|]. apply eval_num0.
Qed.
Lemma constant_length M t : length (constant M t) = 2 * M + 1.
Proof. unfold constant. rewrite map_length. apply length_freqs. Qed.

Lemma rotation_low M : 1 <= M -> exists rR, rotation M = Ok rR /\ length rR = 2 * M + 1 /\ low [3; 3] (Z.of_nat M + 1) rR.
Proof.
  intros H. unfold rotation. destruct (Nat.eqb_spec M 0); [lia|]. eexists. split; [reflexivity|].
  split; [rewrite map_length; apply length_freqs|]. apply low_map.
  - intros k _. destruct (Z.eqb k (-1)), (Z.eqb k 0), (Z.eqb k 1); reflexivity.
  - intros k o _ _ L. destruct (Z.eqb_spec k (-1)), (Z.eqb_spec k 0), (Z.eqb_spec k 1); try lia. apply eval_num0.
Qed.

Lemma terms_low M rR rF rk r1 : 1 <= M <= 15 ->
  low [3; 3] (Z.of_nat M + 1) rR -> 0 < length rR ->
  low [3] (Z.of_nat M) rF -> 0 < length rF -> low [3] (Z.of_nat M) rk -> 0 < length rk ->
  low [3; 3; 3; 3] (2 * Z.of_nat M - 15) r1 -> 2 * M + 1 <= length r1 ->
  exists t1 t2 t3 t4, uncontracted_terms ev M rR rF rk r1 = Ok (t1, t2, t3, t4) /\
    length t1 = 33 /\ length t2 = 33 /\ length t3 = 33 /\ length t4 = 33 /\
    low [3; 3; 3; 3; 3; 3] (12 * Z.of_nat M - 170) t1 /\ low [3; 3; 3; 3; 3; 3; 3] (14 * Z.of_nat M - 201) t2 /\
    low [3; 3; 3; 3; 3; 3; 3] (14 * Z.of_nat M - 201) t3 /\ low [3; 3; 3; 3; 3; 3; 3; 3] (16 * Z.of_nat M - 232) t4.
Proof.
  intros HM LR LRl LF LFl LK LKl L1 L1l. unfold uncontracted_terms.
  destruct (each_low M _ _ _ _ _ r1 (contract_12 ev EV rho RS) L1 L1l) as (h1 & -> & N1 & H1). cbn [bind].
  destruct (conv_low _ _ _ _ h1 h1 H1 H1 ltac:(lia) ltac:(lia) ltac:(lia)) as (r2 & -> & N2 & R2). cbn [bind].
  destruct (each_low M _ _ _ _ _ r2 (contract_02 ev EV rho RS) R2 ltac:(lia)) as (h2 & -> & N3 & H2). cbn [bind].
  destruct (conv_low _ _ _ _ rR rF LR LF ltac:(lia) ltac:(lia) ltac:(lia)) as (r3 & -> & N4 & R3). cbn [bind].
  destruct (each_low M _ _ _ _ _ r3 (contract_02' ev EV rho RS) R3 ltac:(lia)) as (h3 & -> & N5 & H3). cbn [bind].
  destruct (conv_low _ _ _ _ h2 h3 H2 H3 ltac:(lia) ltac:(lia) ltac:(lia)) as (h4 & -> & N6 & H4). cbn [bind].
  destruct (conv_low _ _ _ _ h4 h3 H4 H3 ltac:(lia) ltac:(lia) ltac:(lia)) as (h5 & -> & N7 & H5). cbn [bind].
  destruct (conv_low _ _ _ _ h5 h3 H5 H3 ltac:(lia) ltac:(lia) ltac:(lia)) as (h6 & -> & N8 & H6). cbn [bind].
  destruct (conv_low _ _ _ _ h6 h3 H6 H3 ltac:(lia) ltac:(lia) ltac:(lia)) as (h7 & -> & N9 & H7). cbn [bind].
  assert (Lk : 0 < length (fscale ev (ENum 0 (-1)) rk)) by (unfold fscale; rewrite map_length; lia).
  destruct (conv_low _ _ _ _ rR (fscale ev (ENum 0 (-1)) rk) LR (scale_low _ _ _ _ LK) ltac:(lia) ltac:(lia) Lk) as (r4 & -> & N10 & R4). cbn [bind].
  destruct (each_low M _ _ _ _ _ r4 (contract_02' ev EV rho RS) R4 ltac:(lia)) as (h8 & -> & N11 & H8). cbn [bind].
  destruct (conv_low _ _ _ _ h7 h8 H7 H8 ltac:(lia) ltac:(lia) ltac:(lia)) as (h9 & -> & N12 & H9). cbn [bind].
  assert (L8 : 0 < length (fscale ev (num (-1)) h8)) by (unfold fscale; rewrite map_length; lia).
  destruct (conv_low _ _ _ _ h9 (fscale ev (num (-1)) h8) H9 (scale_low _ _ _ _ H8) ltac:(lia) ltac:(lia) L8) as (h10 & -> & N13 & H10). cbn [bind].
  do 4 eexists. split; [reflexivity|]. do 4 (split; [unfold fscale; rewrite ?map_length; auto|]).
  split; [|split; [|split]].
  - eapply low_le; [|exact H7]. lia.
  - eapply low_le; [|exact H9]. lia.
  - apply scale_low. eapply low_le; [|exact H9]. lia.
  - eapply low_le; [|exact H10]. lia.
Qed.

Lemma substitute_low a b c va vb vc sh hi F : fixed rho a va -> fixed rho b vb -> fixed rho c vc ->
  lowat (filled rho va vb vc) sh hi F -> low sh hi (substitute ev [(Fx, a); (Fy, b); (Fz, c)] F).
Proof.
  intros A B D [S Z]. split.
  - unfold substitute. apply Forall_map. eapply Forall_impl; [|exact S]. auto.
  - intros i o Fo H. unfold substitute. destruct (Nat.lt_ge_cases i (length F)) as [L|L].
    + rewrite (nth_indep _ dflt (tmap (subs_seq ev [(Fx, a); (Fy, b); (Fz, c)]) dflt)) by (rewrite map_length; lia).
      rewrite map_nth. cbn [tmap at_]. rewrite (subs_filled ev EV rho RS a b c va vb vc) by auto. apply Z; auto.
    + rewrite nth_overflow by (rewrite map_length; lia). apply dflt_zero.
Qed.

Lemma stack_low M hi sh A B D : low sh hi A -> low sh hi B -> low sh hi D ->
  2 * M + 1 <= length A -> 2 * M + 1 <= length B -> 2 * M + 1 <= length D ->
  exists G, mapM (fun m => do x <- slice A m M; do y <- slice B m M; do z <- slice D m M; Ok (stack3 x y z)) (freqs M) = Ok G /\
    length G = 2 * M + 1 /\ low (3 :: sh) hi G.
Proof.
  intros LA LB LD NA NB ND. set (g := fun m => do x <- slice A m M; do y <- slice B m M; do z <- slice D m M; Ok (stack3 x y z)).
  assert (K : forall m, In m (freqs M) -> exists u, g m = Ok u /\ shape u = 3 :: sh /\
    forall o, fits (3 :: sh) o -> (hi < m + Z.of_nat M)%Z -> eval rho (at_ u o) = RtoC 0).
  { intros m I. destruct (low_slice sh hi A m M LA NA I) as (x & Ex & Sx & Zx).
    destruct (low_slice sh hi B m M LB NB I) as (y & Ey & Sy & Zy).
    destruct (low_slice sh hi D m M LD ND I) as (z & Ez & Sz & Zz).
    unfold g. rewrite Ex, Ey, Ez. cbn [bind]. eexists. split; [reflexivity|]. split; [unfold stack3; cbn [shape]; congruence|].
    intros o Fo H. apply fits_cons_inv in Fo as (i & o' & -> & Hi & Fo). unfold stack3. cbn [at_].
    destruct i as [|[|i]]; auto. }
  eexists. split. { apply (mapM_total dflt). intros a I. destruct (K a I) as (u & E & _). eauto. }
  split; [rewrite map_length; apply length_freqs|]. apply low_map.
  - intros n I. destruct (K n I) as (u & -> & S & _). exact S.
  - intros n o I Fo H. destruct (K n I) as (u & -> & _ & Z). auto.
Qed.

(** One stored array *)
Definition stored_low (M : nat) (L : list (list (tensor expr))) : Prop :=
  exists t1 t2 t3 t4, L = [t1; t2; t3; t4] /\
    length t1 = 33 /\ length t2 = 33 /\ length t3 = 33 /\ length t4 = 33 /\
    low [3; 3; 3; 3; 3; 3] (12 * Z.of_nat M - 170) t1 /\ low [3; 3; 3; 3; 3; 3; 3] (12 * Z.of_nat M - 170) t2 /\
    low [3; 3; 3; 3; 3; 3; 3] (12 * Z.of_nat M - 170) t3 /\ low [3; 3; 3; 3; 3; 3; 3; 3] (12 * Z.of_nat M - 170) t4.

(** A row whose slots beyond hi are zero *)
Definition row_low (M : nat) (hi : Z) (l : list expr) : Prop :=
  length l = 2 * M + 1 /\ forall i, (hi < Z.of_nat i)%Z -> eval rho (nth i l (num 0)) = RtoC 0.

Lemma contract_term_low M hi sh sh' l1 l2 L1 L2 chi1 chi2 h acc : 
  applies rho sh sh' (fun t => do p <- @tensor_product expr (Sig_ev ev) [t; chi1]; @tensor_contract expr (Sig_ev ev) p l1) L1 ->
  applies rho sh' [] (fun t => do p <- @tensor_product expr (Sig_ev ev) [t; chi2]; @tensor_contract expr (Sig_ev ev) p l2) L2 ->
  low sh hi h -> 2 * M + 1 <= length h -> row_low M hi acc ->
  exists acc', contract_term ev M h chi1 chi2 l1 l2 acc = Ok acc' /\ row_low M hi acc'.
Proof.
  intros A1 A2 Lh Nh (La & Za). unfold contract_term.
  destruct (each_low M sh sh' hi _ L1 h A1 Lh Nh) as (t8 & E8 & N8 & L8).
  destruct (each_low M sh' [] hi _ L2 t8 A2 L8 ltac:(lia)) as (t9 & E9 & N9 & (S9 & Z9)).
  unfold Sig_fform. rewrite E8. cbn [bind]. rewrite E9. cbn [bind].
  assert (V : mapM scalar t9 = Ok (map (fun t => at_ t []) t9)).
  { clear - S9. induction S9 as [|t l H W IH]; simpl; auto. unfold scalar at 1. rewrite H. cbn [bind]. rewrite IH. reflexivity. }
  rewrite V. cbn [bind]. eexists. split; [reflexivity|]. split.
  - apply map_add_length; rewrite ?map_length; lia.
  - intros i H. destruct (Nat.lt_ge_cases i (2 * M + 1)) as [L|L].
    + rewrite (map_combine_nth (fun ab => @add expr (Sig_ev ev) (fst ab) (snd ab))) by (rewrite ?map_length; lia).
      cbn [fst snd]. rewrite (eval_add ev EV rho RS), Za by auto.
      change (num 0) with (at_ dflt []) at 1. rewrite (map_nth (fun t : tensor expr => at_ t [])), Z9 by (auto; constructor). ring.
    + rewrite nth_overflow; [apply eval_num0|]. rewrite (map_add_length _ _ _ (2 * M + 1)); rewrite ?map_length; lia.
Qed.

Lemma contract_terms_low M L d q : 1 <= M <= 15 -> shape d = [3; 3; 3] -> shape q = [3; 3; 3; 3] -> stored_low M L ->
  exists v, contract_terms ev M 0 L [d; d; q; q] [conjugate_tensor ev d; conjugate_tensor ev q; conjugate_tensor ev d; conjugate_tensor ev q]
      (map (fun _ => num 0) (freqs M)) = Ok v /\ row_low M (12 * Z.of_nat M - 170) v.
Proof.
  intros HM Sd Sq (t1 & t2 & t3 & t4 & -> & N1 & N2 & N3 & N4 & C1 & C2 & C3 & C4).
  set (z := map (fun _ => num 0) (freqs M)) in *.
  assert (R0 : row_low M (12 * Z.of_nat M - 170) z).
  { split; [unfold z; rewrite map_length; apply length_freqs|]. intros i _. unfold z.
    rewrite (map_nth (fun _ : Z => num 0) (freqs M) 0%Z). apply eval_num0. }
  assert (Sd' : shape (conjugate_tensor ev d) = [3; 3; 3]) by exact Sd.
  assert (Sq' : shape (conjugate_tensor ev q) = [3; 3; 3; 3]) by exact Sq.
  destruct (contract_term_low M _ _ _ _ _ _ _ d (conjugate_tensor ev d) t1 z
    (first_1 ev EV rho RS d Sd) (second_3 ev EV rho RS _ Sd') C1 ltac:(lia) R0) as (a1 & E1 & R1).
  destruct (contract_term_low M _ _ _ _ _ _ _ d (conjugate_tensor ev q) t2 a1
    (first_2 ev EV rho RS d Sd) (second_4 ev EV rho RS _ Sq') C2 ltac:(lia) R1) as (a2 & E2 & R2).
  destruct (contract_term_low M _ _ _ _ _ _ _ q (conjugate_tensor ev d) t3 a2
    (first_3 ev EV rho RS q Sq) (second_3 ev EV rho RS _ Sd') C3 ltac:(lia) R2) as (a3 & E3 & R3).
  destruct (contract_term_low M _ _ _ _ _ _ _ q (conjugate_tensor ev q) t4 a3
    (first_4 ev EV rho RS q Sq) (second_4 ev EV rho RS _ Sq') C4 ltac:(lia) R3) as (a4 & E4 & R4).
  exists a4. split; [|exact R4].
  cbn [contract_terms].
  change (py_nth [d; d; q; q] (Z.of_nat 0)) with (@Ok (tensor expr) d).
  change (py_nth [d; d; q; q] (Z.of_nat 1)) with (@Ok (tensor expr) d).
  change (py_nth [d; d; q; q] (Z.of_nat 2)) with (@Ok (tensor expr) q).
  change (py_nth [d; d; q; q] (Z.of_nat 3)) with (@Ok (tensor expr) q).
  set (dc := conjugate_tensor ev d) in *. set (qc := conjugate_tensor ev q) in *.
  change (py_nth [dc; qc; dc; qc] (Z.of_nat 0)) with (@Ok (tensor expr) dc).
  change (py_nth [dc; qc; dc; qc] (Z.of_nat 1)) with (@Ok (tensor expr) qc).
  change (py_nth [dc; qc; dc; qc] (Z.of_nat 2)) with (@Ok (tensor expr) dc).
  change (py_nth [dc; qc; dc; qc] (Z.of_nat 3)) with (@Ok (tensor expr) qc).
  repeat match goal with |- context [py_nth ?l (Z.of_nat ?n)] =>
    let r := eval vm_compute in (py_nth l (Z.of_nat n)) in change (py_nth l (Z.of_nat n)) with r end.
  cbn [bind]. rewrite E1. cbn [bind]. rewrite E2. cbn [bind]. rewrite E3. cbn [bind]. rewrite E4. reflexivity.
Qed.
End At.

Lemma rank_free rho rho' sh hi F : (forall e, eval rho e = eval rho' e) -> lowat rho sh hi F -> lowat rho' sh hi F.
Proof. intros E [S Z]. split; auto. intros. rewrite <- E. auto. Qed.

Section Store.
Variables (kout kin : tensor expr) (c s : expr).
Hypothesis Sout : shape kout = [3].
Hypothesis Sin_ : shape kin = [3].

Lemma npy_inj prefix a b : npy prefix a = npy prefix b -> a = b.
Proof.
  unfold npy. induction prefix as [|ch p IH]; simpl.
  - intros H. injection H as H. revert b H. induction a as [|x a IHa]; intros [|y b] H; auto; simpl in H.
    + exfalso. destruct b as [|? [|? [|? [|? [|? ?]]]]]; discriminate.
    + exfalso. destruct a as [|? [|? [|? [|? [|? ?]]]]]; discriminate.
    + injection H as -> H. f_equal. apply IHa, H.
  - intros H. injection H as H. auto.
Qed.

Lemma generate_low prefix M fs : 1 <= M <= 15 -> exists fs', generate ev kout kin c s prefix M fs = Ok fs' /\
  forall inp out, exists L, dget (npy prefix (file_of inp out)) fs' = Some L /\
    forall rho vc vs, respects rho -> fixed rho c vc -> fixed rho s vs -> stored_low rho M L.
Proof.
  intros HM. unfold generate.
  assert (HR : exists rR, rotation M = Ok rR /\ length rR = 2 * M + 1 /\ forall r, lowat r [3; 3] (Z.of_nat M + 1) rR).
  { destruct (rotation_low rho1 M ltac:(lia)) as (rR & E & N & _). exists rR. split; auto. split; auto. intros r.
    destruct (rotation_low r M ltac:(lia)) as (rR' & E' & _ & C'). congruence. }
  destruct HR as (rR & -> & NR & CR). cbn [bind].
  assert (HP : forall i, exists r1, conv ev (constant M (proj_row ev kout i)) rR = Ok r1 /\ length r1 = 33 /\
    forall r, respects r -> lowat r [3; 3; 3] (2 * Z.of_nat M - 15) r1).
  { intros i.
    assert (X : forall r, respects r -> exists r1, conv ev (constant M (proj_row ev kout i)) rR = Ok r1 /\ length r1 = 33 /\
      lowat r [3; 3; 3] (2 * Z.of_nat M - 15) r1).
    { intros r O. pose proof (constant_low r M (proj_row ev kout i)) as K.
      pose proof (constant_length M (proj_row ev kout i)) as N.
      destruct (conv_low r O _ _ _ _ _ _ K (CR r) ltac:(lia) ltac:(lia) ltac:(lia)) as (r1 & E & N1 & C1).
      exists r1. split; [exact E|]. split; [exact N1|]. eapply low_le; [|exact C1]. lia. }
    destruct (X rho1 rho1_respects) as (r1 & E & N & _). exists r1. split; auto. split; auto. intros r O.
    destruct (X r O) as (r1' & E' & _ & C'). congruence. }
  destruct (HP 0) as (rx & Ex & Nx & Cx). destruct (HP 1) as (ry & Ey & Ny & Cy). destruct (HP 2) as (rz & Ez & Nz & Cz).
  rewrite Ex, Ey, Ez. cbn [bind]. clear Ex Ey Ez HP.
  set (r0 := map (fun t => zeros (shape t)) rx).
  assert (N0 : length r0 = 33) by (unfold r0; rewrite map_length; exact Nx).
  assert (C0 : forall r, lowat r [3; 3; 3] (2 * Z.of_nat M - 15) r0).
  { intros r. split.
    - unfold r0. apply Forall_map. eapply Forall_impl; [|apply (Cx rho1 rho1_respects)]. auto.
    - intros i o _ _. unfold r0. destruct (Nat.lt_ge_cases i (length rx)) as [L|L].
      + rewrite (nth_indep _ dflt (zeros (shape dflt))) by (rewrite map_length; lia).
        rewrite (map_nth (fun t : tensor expr => zeros (shape t))). apply eval_num0.
      + rewrite nth_overflow by (rewrite map_length; lia). apply dflt_zero. }
  assert (HS : exists rs, mapM (fun m => do o <- slice r0 m M; do y <- slice ry m M; Ok (stack3 o y o)) (freqs M) = Ok rs /\
    length rs = 2 * M + 1 /\ forall r, respects r -> lowat r [3; 3; 3; 3] (2 * Z.of_nat M - 15) rs).
  { assert (X : forall r, respects r -> exists rs,
      mapM (fun m => do o <- slice r0 m M; do y <- slice ry m M; Ok (stack3 o y o)) (freqs M) = Ok rs /\ length rs = 2 * M + 1 /\
      lowat r [3; 3; 3; 3] (2 * Z.of_nat M - 15) rs).
    { intros r Or. destruct (stack_low r M _ _ r0 ry r0 (C0 r) (Cy r Or) (C0 r) ltac:(lia) ltac:(lia) ltac:(lia)) as (G & E & N & CG).
      exists G. split; [|split; auto].
      rewrite <- E. f_equal. apply FunctionalExtensionality.functional_extensionality. intros m.
      destruct (slice r0 m M); simpl; auto. }
    destruct (X rho1 rho1_respects) as (rs & E & N & _). exists rs. split; auto. split; auto. intros r Or.
    destruct (X r Or) as (rs' & E' & _ & C'). congruence. }
  destruct HS as (rs & -> & Ns & Crs). cbn [bind].
  assert (HPp : exists rp, mapM (fun m => do x <- slice rx m M; do o <- slice r0 m M; do z <- slice rz m M; Ok (stack3 x o z)) (freqs M) = Ok rp /\
    length rp = 2 * M + 1 /\ forall r, respects r -> lowat r [3; 3; 3; 3] (2 * Z.of_nat M - 15) rp).
  { assert (X : forall r, respects r -> exists rp,
      mapM (fun m => do x <- slice rx m M; do o <- slice r0 m M; do z <- slice rz m M; Ok (stack3 x o z)) (freqs M) = Ok rp /\
      length rp = 2 * M + 1 /\ lowat r [3; 3; 3; 3] (2 * Z.of_nat M - 15) rp)
      by (intros r Or; exact (stack_low r M _ _ rx r0 rz (Cx r Or) (C0 r) (Cz r Or) ltac:(lia) ltac:(lia) ltac:(lia))).
    destruct (X rho1 rho1_respects) as (rp & E & N & _). exists rp. split; auto. split; auto. intros r Or.
    destruct (X r Or) as (rp' & E' & _ & C'). congruence. }
  destruct HPp as (rp & -> & Np & Crp). cbn [bind].
  set (rF := constant M (vector (ESym Fx) (ESym Fy) (ESym Fz))).
  assert (NF : length rF = 2 * M + 1) by apply constant_length.
  assert (CF : forall r, lowat r [3] (Z.of_nat M) rF) by (intros r; apply (constant_low r M (vector (ESym Fx) (ESym Fy) (ESym Fz)))).
  assert (NK : length (constant M kin) = 2 * M + 1) by apply constant_length.
  assert (CK : forall r, lowat r [3] (Z.of_nat M) (constant M kin)) by (intros r; rewrite <- Sin_; apply constant_low).
  assert (HT : forall r1, length r1 = 2 * M + 1 -> (forall r, respects r -> lowat r [3; 3; 3; 3] (2 * Z.of_nat M - 15) r1) ->
    exists ts, uncontracted_terms ev M rR rF (constant M kin) r1 = Ok ts /\
      forall a b d rho va vb vd, respects rho -> fixed rho a va -> fixed rho b vb -> fixed rho d vd ->
      stored_low rho M (substituted ev [(Fx, a); (Fy, b); (Fz, d)] ts)).
  { intros r1 N1 C1.
    assert (X : forall r, respects r -> exists t1 t2 t3 t4, uncontracted_terms ev M rR rF (constant M kin) r1 = Ok (t1, t2, t3, t4) /\ _)
      by (intros r Or; exact (terms_low r Or M rR rF (constant M kin) r1 HM (CR r) ltac:(lia) (CF r) ltac:(lia) (CK r) ltac:(lia) (C1 r Or) ltac:(lia))).
    destruct (X rho1 rho1_respects) as (t1 & t2 & t3 & t4 & E & _). exists (t1, t2, t3, t4). split; [exact E|].
    intros a b d rho va vb vd R A B D.
    destruct (X (filled rho va vb vd) (proj1 (filled_off rho R va vb vd))) as (u1 & u2 & u3 & u4 & E' & K).
    rewrite E in E'. injection E' as <- <- <- <-.
    destruct K as (L1 & L2 & L3 & L4 & K1 & K2 & K3 & K4). do 4 eexists. split; [reflexivity|].
    do 4 (split; [unfold substitute; rewrite map_length; assumption|]).
    split; [|split; [|split]]; (eapply substitute_low; [exact R|exact A|exact B|exact D|]); (eapply low_le; [|eassumption]); lia. }
  destruct (HT rp Np Crp) as (tp & -> & Hp). cbn [bind]. destruct (HT rs Ns Crs) as (ts & -> & Hs). cbn [bind].
  eexists. split; [reflexivity|].
  assert (F0 : forall r, fixed r (num 0) (RtoC 0)) by (intros r r' _; apply eval_num0).
  assert (F1 : forall r, fixed r (num (-1)) (- RtoC 1)%C) by (intros r r' _; apply eval_numm1).
  intros inp out. destruct inp, out; cbn [file_of].
  - exists (substituted ev [(Fx, c); (Fy, num 0); (Fz, s)] tp). split.
    + rewrite !dget_dset_neq by (intros H; apply npy_inj in H; discriminate). apply dget_dset_eq.
    + intros rho vc vs R A B. apply (Hp c (num 0) s rho vc _ vs R A (F0 rho) B).
  - exists (substituted ev [(Fx, c); (Fy, num 0); (Fz, s)] ts). split.
    + rewrite !dget_dset_neq by (intros H; apply npy_inj in H; discriminate). apply dget_dset_eq.
    + intros rho vc vs R A B. apply (Hs c (num 0) s rho vc _ vs R A (F0 rho) B).
  - exists (substituted ev [(Fx, num 0); (Fy, num (-1)); (Fz, num 0)] tp). split.
    + rewrite !dget_dset_neq by (intros H; apply npy_inj in H; discriminate). apply dget_dset_eq.
    + intros rho vc vs R A B. apply (Hp (num 0) (num (-1)) (num 0) rho _ _ _ R (F0 rho) (F1 rho) (F0 rho)).
  - exists (substituted ev [(Fx, num 0); (Fy, num (-1)); (Fz, num 0)] ts). split.
    + apply dget_dset_eq.
    + intros rho vc vs R A B. apply (Hs (num 0) (num (-1)) (num 0) rho _ _ _ R (F0 rho) (F1 rho) (F0 rho)).
Qed.

(** Orders above 16 are refused *)
Lemma mapM_raise {A B} (f : A -> res B) l e x : In x l -> f x = Raise e ->
  (forall y, In y l -> (exists b, f y = Ok b) \/ f y = Raise e) -> mapM f l = Raise e.
Proof.
  induction l as [|y l IH]; [intros []|]. intros I H T. simpl. destruct (T y (or_introl eq_refl)) as [(b & E)|E]; rewrite E; cbn [bind]; auto.
  destruct I as [->|I]; [congruence|]. rewrite IH; auto. intros z Iz. apply T. right; auto.
Qed.
Lemma slice_out (F : list (tensor expr)) m M e : slice F m M = Raise e -> e = IndexError.
Proof. unfold slice, py_nth. cbv zeta. destruct (_ <? 0)%Z; [intros [=]; auto|]. destruct (nth_error _ _); [discriminate|]. intros [=]; auto. Qed.

Lemma generate_large prefix M fs : 16 < M -> generate ev kout kin c s prefix M fs = Raise IndexError.
Proof.
  intros HM. unfold generate.
  assert (HR : exists rR, rotation M = Ok rR /\ length rR = 2 * M + 1).
  { destruct (rotation_low rho1 M ltac:(lia)) as (rR & E & N & _). eauto. }
  destruct HR as (rR & -> & NR). cbn [bind].
  assert (HP : forall i, exists r1, conv ev (constant M (proj_row ev kout i)) rR = Ok r1 /\ length r1 = 33).
  { intros i. unfold conv, convolve_ftensors.
    rewrite (py_nth_ok _ 0 dflt), (py_nth_ok rR 0 dflt) by (rewrite ?constant_length; simpl; lia). cbn [bind].
    eexists. split; [reflexivity|]. rewrite map_length. apply length_freqs. }
  destruct (HP 0) as (rx & -> & Nx). destruct (HP 1) as (ry & -> & Ny). destruct (HP 2) as (rz & -> & Nz). cbn [bind].
  rewrite (mapM_raise _ (freqs M) IndexError (Z.of_nat M)); [reflexivity|apply In_freqs; lia| |].
  - unfold slice at 1. rewrite py_nth_over; [reflexivity|]. rewrite map_length. lia.
  - intros m _. destruct (slice (map _ rx) m M) as [o|e] eqn:E; [|right; apply slice_out in E; subst; reflexivity]. cbn [bind].
    destruct (slice ry m M) as [y|e] eqn:E'; [|right; apply slice_out in E'; subst; reflexivity]. cbn [bind]. eauto.
Qed.
Lemma generate_none prefix fs : generate ev kout kin c s prefix 0 fs = Raise IndexError.
Proof. reflexivity. Qed.
End Store.

Variable expand : expr -> expr.
(** Orders 1 to 15: nothing at or above frequency -4 *)
Lemma small_orders prefix M fs d q : 1 <= M <= 15 -> shape d = [3; 3; 3] -> shape q = [3; 3; 3; 3] ->
  real_params (Some d) -> real_params (Some q) ->
  exists fs' D, generate_uncontracted_fourier_transforms_symb ev prefix M fs = Ok fs' /\
    contracted_dict ev expand prefix fs' d q M None = Ok D /\ dkeys D = ["PP"; "PS"; "SP"; "SS"]%string /\
    forall k r, dget k D = Some r -> length r = 2 * M + 1 /\
      forall rho i, respects rho -> (12 * Z.of_nat M - 170 < Z.of_nat i)%Z -> eval rho (nth i r (num 0)) = RtoC 0.
Proof.
  intros HM Sd Sq Rd Rq.
  destruct (generate_low (k_out_symb ev) (k_in_symb ev) (cosine ev (ESym theta_sym)) (sine ev (ESym theta_sym)) eq_refl prefix M fs HM)
    as (fs' & E & H).
  exists fs'.
  assert (FX : forall rho, respects rho -> exists vc vs, fixed rho (cosine ev (ESym theta_sym)) vc /\ fixed rho (sine ev (ESym theta_sym)) vs).
  { intros rho R. exists (Ccos (rho theta_sym)), (Csin (rho theta_sym)). split; intros rho' O.
    - unfold cosine. rewrite (proj1 EV) by apply O. simpl. rewrite (off_theta rho) by auto. reflexivity.
    - unfold sine. rewrite (proj1 EV) by apply O. simpl. rewrite (off_theta rho) by auto. reflexivity. }
  destruct (H Pin Pin) as (L1 & G1 & T1). destruct (H Pin Sin) as (L2 & G2 & T2).
  destruct (H Sin Pin) as (L3 & G3 & T3). destruct (H Sin Sin) as (L4 & G4 & T4).
  assert (K : forall L, (forall rho vc vs, respects rho -> fixed rho (cosine ev (ESym theta_sym)) vc -> fixed rho (sine ev (ESym theta_sym)) vs -> stored_low rho M L) ->
    exists v, contract_terms ev M 0 L [d; d; q; q] [conjugate_tensor ev d; conjugate_tensor ev q; conjugate_tensor ev d; conjugate_tensor ev q]
      (map (fun _ => num 0) (freqs M)) = Ok v /\ forall rho, respects rho -> row_low rho M (12 * Z.of_nat M - 170) v).
  { intros L T.
    assert (X : forall rho, respects rho -> exists v, contract_terms ev M 0 L [d; d; q; q] [conjugate_tensor ev d; conjugate_tensor ev q; conjugate_tensor ev d; conjugate_tensor ev q]
      (map (fun _ => num 0) (freqs M)) = Ok v /\ row_low rho M (12 * Z.of_nat M - 170) v).
    { intros rho R. destruct (FX rho R) as (vc & vs & A & B). apply contract_terms_low; auto. apply (T rho vc vs); auto. }
    destruct (X rho1 rho1_respects) as (v & Ev & _). exists v. split; auto. intros rho R. destruct (X rho R) as (v' & E' & C'). congruence. }
  destruct (K L1 T1) as (v1 & E1 & R1). destruct (K L2 T2) as (v2 & E2 & R2).
  destruct (K L3 T3) as (v3 & E3 & R3). destruct (K L4 T4) as (v4 & E4 & R4).
  exists [("PP", v1); ("PS", v2); ("SP", v3); ("SS", v4)]%string.
  split; [exact E|]. split; [|split; [reflexivity|]].
  - unfold contracted_dict. rewrite (proj1 (assert_ok d) Rd), (proj1 (assert_ok q) Rq). cbn [bind]. unfold pcs. cbn [mapM].
    cbn [file_of] in *.
    change (lower "PP") with "pp"%string. change (lower "PS") with "ps"%string.
    change (lower "SP") with "sp"%string. change (lower "SS") with "ss"%string.
    unfold load_npy. rewrite G1, G2, G3, G4. cbn [bind mapM fst snd].
    rewrite E1. cbn [bind]. rewrite E2. cbn [bind]. rewrite E3. cbn [bind]. rewrite E4. reflexivity.
  - assert (Y : forall v, (forall rho, respects rho -> row_low rho M (12 * Z.of_nat M - 170) v) -> length v = 2 * M + 1 /\
      forall rho i, respects rho -> (12 * Z.of_nat M - 170 < Z.of_nat i)%Z -> eval rho (nth i v (num 0)) = RtoC 0).
    { intros v Hv. split; [apply (Hv rho1 rho1_respects)|]. intros rho i R. apply (Hv rho R). }
    intros k r G. apply dget_In in G. simpl in G.
    destruct G as [G|[G|[G|[G|[]]]]]; injection G as _ <-; apply Y; assumption.
Qed.
End Low.
