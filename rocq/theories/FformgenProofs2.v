(** Linear operations on arrays with a frequency axis. *)
From Coq Require Import String List Arith ZArith Bool Lia Reals QArith Qreals Lra.
From Coquelicot Require Import Complex.
Import ListNotations.
From Verif Require Import PyBase CBase Expr ExprProofs FormModel SpecForm TensorInst TensorNat TensorProofs FformgenModel SpecFormgen SpecFformgen
  FformgenProofs.
From Verif Require Import FormgenProofs.
From Verif Require Import SpecTensor TensorModel.
Local Open Scope nat_scope.

Lemma fits_cons_inv d sh ix : fits (d :: sh) ix -> exists i ix', ix = i :: ix' /\ i < d /\ fits sh ix'.
Proof. intros H. inversion H; subst. eauto. Qed.
Lemma fits_nil_inv ix : fits [] ix -> ix = [].
Proof. intros H. inversion H. reflexivity. Qed.
Lemma fits_cons d sh i ix : i < d -> fits sh ix -> fits (d :: sh) (i :: ix).
Proof. intros. constructor; auto. Qed.
Lemma fits_nil : fits [] []. Proof. constructor. Qed.
Ltac fitsinv :=
  repeat match goal with
  | H : fits (_ :: _) _ |- _ => apply fits_cons_inv in H; destruct H as (? & ? & -> & ? & H)
  | H : fits [] _ |- _ => apply fits_nil_inv in H; subst
  end.
Ltac fitok := repeat (apply fits_cons; [assumption|]); apply fits_nil.

(** ** Linear functionals of an array *)
Definition islin (sh : list nat) (L : (list nat -> C) -> C) : Prop :=
  (forall f g, L (fun i => f i + g i)%C = L f + L g)%C /\
  (forall c f, L (fun i => f i * c)%C = L f * c)%C /\
  (forall f g, (forall i, fits sh i -> f i = g i) -> L f = L g).

Lemma lin_at sh i : fits sh i -> islin sh (fun f => f i).
Proof. intros F. repeat split; auto. Qed.
Lemma lin_sum3 sh L : (forall v, v < 3 -> islin sh (L v)) -> islin sh (fun f => sum3 (fun v => L v f)).
Proof.
  intros H. assert (H0 := H 0 ltac:(lia)). assert (H1 := H 1 ltac:(lia)). assert (H2 := H 2 ltac:(lia)).
  destruct H0 as (A0 & B0 & C0), H1 as (A1 & B1 & C1), H2 as (A2 & B2 & C2). unfold sum3. repeat split.
  - intros. rewrite A0, A1, A2. ring.
  - intros. rewrite B0, B1, B2. ring.
  - intros f g E. rewrite (C0 f g E), (C1 f g E), (C2 f g E). reflexivity.
Qed.
Lemma lin_mult sh L c : islin sh L -> islin sh (fun f => L f * c)%C.
Proof.
  intros (A & B & E). repeat split.
  - intros. rewrite A. ring.
  - intros. rewrite B. ring.
  - intros f g H. rewrite (E f g H). reflexivity.
Qed.
Lemma lin_zero sh L : islin sh L -> L (fun _ => RtoC 0) = RtoC 0.
Proof.
  intros (_ & B & E). rewrite (E _ (fun _ => RtoC 0 * RtoC 0)%C) by (intros; ring). rewrite B. ring.
Qed.
Lemma lin_Csum {A} sh L (f : A -> list nat -> C) l : islin sh L ->
  L (fun i => Csum (fun a => f a i) l) = Csum (fun a => L (f a)) l.
Proof.
  intros H. induction l as [|a l IH].
  - simpl. apply (lin_zero sh L H).
  - rewrite Csum_cons, <- IH. destruct H as (A1 & _ & _). rewrite <- A1. reflexivity.
Qed.

Lemma sumN3 : @sumN C Sig_C 3 = sum3.
Proof. rewrite <- sumt_sum3. apply FunctionalExtensionality.functional_extensionality. intros f. reflexivity. Qed.

Lemma mapM_total {A B} (d : B) (f : A -> res B) l : (forall a, In a l -> exists b, f a = Ok b) ->
  mapM f l = Ok (map (fun a => match f a with Ok b => b | Raise _ => d end) l).
Proof.
  induction l as [|a l IH]; intros H; simpl; auto.
  destruct (H a (or_introl eq_refl)) as [b E]. rewrite E. simpl. rewrite IH; [reflexivity|]. intros; apply H; right; auto.
Qed.

Section Lin.
Variable ev : expr -> expr.
Hypothesis EV : sound_ev ev.
Variable rho : sym -> C.
Hypothesis RS : respects rho.
Notation co := (coefficient rho).
Notation carries := (carries rho).
Notation dflt := (mkT [] (fun _ => num 0)).

(** Expressions with this value *)
Definition applies (sh sh' : list nat) (f : tensor expr -> res (tensor expr)) (L : list nat -> (list nat -> C) -> C) : Prop :=
  (forall t, shape t = sh -> exists u, f t = Ok u /\ shape u = sh' /\
     forall o, fits sh' o -> eval rho (at_ u o) = L o (fun i => eval rho (at_ t i))) /\
  (forall o, fits sh' o -> islin sh (L o)).

Lemma each_carries M b sh sh' f L F v : applies sh sh' f L -> carries M b sh F v ->
  exists G, each M f F = Ok G /\ carries M b sh' G (fun x o => L o (v x)).
Proof.
  intros [Hf HL] (W & B & S). unfold each.
  set (g := fun m => do t <- slice F m M; f t).
  assert (K : forall m, In m (freqs M) -> exists u, g m = Ok u /\ shape u = sh' /\
    forall o, fits sh' o -> eval rho (at_ u o) = L o (fun i => co M F m i)).
  { intros m I. unfold g. rewrite (slice_ok M sh F m W I). cbn [bind]. apply Hf. apply (slice_shape M sh); auto. }
  eexists. split. { apply (mapM_total dflt). intros a I. destruct (K a I) as (u & E & _). eauto. }
  assert (C : forall m o, In m (freqs M) -> fits sh' o ->
     co M (map (fun a => match g a with Ok b => b | Raise _ => dflt end) (freqs M)) m o = L o (fun i => co M F m i)).
  { intros m o I Fo. rewrite co_map by auto. destruct (K m I) as (u & -> & _ & H). auto. }
  split; [|split].
  - apply wellformed_map. intros n I. destruct (K n I) as (u & -> & H & _). exact H.
  - intros n o I Fo Hn. change (fun a => match _ with Ok b => b | Raise _ => dflt end) with (fun a => match g a with Ok b => b | Raise _ => dflt end).
    rewrite C by auto. transitivity (L o (fun _ => RtoC 0)).
    + apply (HL o Fo). intros i Fi. apply B; auto.
    + apply (lin_zero sh). auto.
  - intros o x Fo. unfold synthesis.
    rewrite (Csum_ext_in _ (fun n => L o (fun i => co M F n i * cis (IZR n * x))%C)).
    2:{ intros n I. destruct (HL o Fo) as (_ & H & _). rewrite H. f_equal. apply C; auto. }
    rewrite <- (lin_Csum sh (L o)) by auto. destruct (HL o Fo) as (_ & _ & H). apply H. intros i Fi. apply S, Fi.
Qed.

Lemma scale_carries M b sh c F v : carries M b sh F v -> carries M b sh (fscale ev c F) (fun x o => eval rho c * v x o)%C.
Proof.
  intros ([W W'] & B & S).
  assert (N : forall n, In n (freqs M) -> forall o, co M (fscale ev c F) n o = (eval rho c * co M F n o)%C).
  { intros n I o. apply In_freqs in I. unfold coefficient, fscale.
    rewrite (nth_indep _ dflt (FormgenModel.tscale ev c dflt)) by (rewrite map_length; lia). rewrite map_nth.
    cbn [FormgenModel.tscale tmap at_]. rewrite (proj1 EV) by auto. cbn. ring. }
  split; [|split].
  - split; [unfold fscale; rewrite map_length; exact W|]. unfold fscale. apply Forall_map.
    eapply Forall_impl; [|exact W']. auto.
  - intros n o I Fo Hn. rewrite N by auto. rewrite B by auto. ring.
  - intros o x Fo. rewrite <- S by auto. unfold synthesis. rewrite <- Csum_mult_l. apply Csum_ext_in. intros n I.
    rewrite N by auto. ring.
Qed.

Lemma map_carries M b sh (f : Z -> tensor expr) (v : R -> list nat -> C) :
  (forall n, In n (freqs M) -> shape (f n) = sh) ->
  (forall n o, In n (freqs M) -> fits sh o -> (Z.of_nat b < Z.abs n)%Z -> eval rho (at_ (f n) o) = RtoC 0) ->
  (forall o x, fits sh o -> Csum (fun n => eval rho (at_ (f n) o) * cis (IZR n * x))%C (freqs M) = v x o) ->
  carries M b sh (map f (freqs M)) v.
Proof.
  intros A B S. split; [apply wellformed_map; auto|]. split.
  - intros n o I Fo Hn. rewrite co_map by auto. auto.
  - intros o x Fo. rewrite <- S by auto. unfold synthesis. apply Csum_ext_in. intros n I. rewrite co_map by auto. reflexivity.
Qed.

Lemma In0 M : In 0%Z (freqs M). Proof. apply In_freqs. lia. Qed.

Lemma constant_carries M t : carries M 0 (shape t) (constant M t) (fun _ o => eval rho (at_ t o)).
Proof.
  unfold constant. apply map_carries.
  - intros n _. destruct (Z.eqb n 0); reflexivity.
  - intros n o _ _ H. destruct (Z.eqb_spec n 0); [subst; simpl in H; lia|]. apply eval_num0.
  - intros o x _. rewrite (Csum_single_Z _ 0%Z); [|apply NoDup_freqs|apply In0|].
    + simpl. rewrite Rmult_0_l, cis_0. ring.
    + intros n I H. destruct (Z.eqb_spec n 0); [contradiction|]. cbn [zeros at_]. rewrite eval_num0. ring.
Qed.

Lemma conv_carries a b sh sh' F G v w : carries 16 a sh F v -> carries 16 b sh' G w -> a + b <= 16 ->
  exists H, conv ev F G = Ok H /\ carries 16 (a + b) (sh ++ sh') H
    (fun x o => v x (firstn (length sh) o) * w x (skipn (length sh) o))%C.
Proof.
  intros (WF & BF & SF) (WG & BG & SG) L.
  destruct (convolve_exact ev EV rho RS 16 sh sh' F G a b WF WG BF BG L) as (H & E & WH & BH & _ & SH).
  exists H. split; [exact E|]. split; [exact WH|]. split; [exact BH|]. intros o x Fo.
  apply fits_app in Fo as (i & j & -> & Fi & Fj). rewrite SH by auto.
  destruct (firstn_length_app i j (length sh) (fits_length _ _ Fi)) as [-> ->]. rewrite SF, SG by auto. reflexivity.
Qed.

Lemma stack_carries M b sh A B C u v w : carries M b sh A u -> carries M b sh B v -> carries M b sh C w ->
  exists G, mapM (fun m => do x <- slice A m M; do y <- slice B m M; do z <- slice C m M; Ok (stack3 x y z)) (freqs M) = Ok G /\
  carries M b (3 :: sh) G (fun x o => match o with 0 :: r => u x r | 1 :: r => v x r | _ :: r => w x r | [] => RtoC 0 end).
Proof.
  intros (WA & BA & SA) (WB & BB & SB) (WC & BC & SC).
  set (g := fun m => do x <- slice A m M; do y <- slice B m M; do z <- slice C m M; Ok (stack3 x y z)).
  assert (K : forall m, In m (freqs M) -> exists t, g m = Ok t /\ shape t = 3 :: sh /\
    forall o, fits (3 :: sh) o -> eval rho (at_ t o) =
      match o with 0 :: r => co M A m r | 1 :: r => co M B m r | _ :: r => co M C m r | [] => RtoC 0 end).
  { intros m I. unfold g. rewrite (slice_ok M sh A m WA I), (slice_ok M sh B m WB I), (slice_ok M sh C m WC I).
    cbn [bind]. eexists. split; [reflexivity|]. split; [cbn; rewrite (slice_shape M sh A m WA I); reflexivity|].
    intros o Fo. apply fits_cons_inv in Fo as (i & r & -> & _ & _). destruct i as [|[|i]]; reflexivity. }
  eexists. split. { apply (mapM_total dflt). intros a I. destruct (K a I) as (t & E & _). eauto. }
  change (fun a => match _ with Ok b => b | Raise _ => dflt end) with (fun a => match g a with Ok b => b | Raise _ => dflt end).
  apply map_carries.
  - intros n I. destruct (K n I) as (t & -> & H & _). exact H.
  - intros n o I Fo Hn. destruct (K n I) as (t & -> & _ & H). rewrite H by auto.
    apply fits_cons_inv in Fo as (i & r & -> & Hi & Fr). destruct i as [|[|i]]; auto.
  - intros o x Fo. rewrite (Csum_ext_in _ (fun n => match o with 0 :: r => co M A n r | 1 :: r => co M B n r | _ :: r => co M C n r | [] => RtoC 0 end * cis (IZR n * x))%C).
    2:{ intros n I. destruct (K n I) as (t & -> & _ & H). rewrite H by auto. reflexivity. }
    apply fits_cons_inv in Fo as (i & r & -> & Hi & Fr). destruct i as [|[|i]]; [apply SA|apply SB|apply SC]; auto.
Qed.

(** ** Contractions *)
Notation SX := (Sig_fform ev).
Lemma contract_val t pairs u : tensor_contract (tmap (eval rho) t) pairs = Ok u ->
  exists r, @tensor_contract expr SX t pairs = Ok r /\ shape r = shape u /\ forall i, eval rho (at_ r i) = at_ u i.
Proof.
  intros E.
  assert (U : under_res (eval rho) (@tensor_contract expr SX t pairs) (@tensor_contract C Sig_C (tmap (eval rho) t) pairs)).
  { apply (@contract_under expr C SX Sig_C (eval rho)).
    - apply eval_num0.
    - intros. apply (eval_add ev EV rho RS).
    - apply under_tmap. }
  rewrite E in U. destruct (@tensor_contract expr SX t pairs) as [r|]; simpl in U; [|contradiction].
  exists r. split; [reflexivity|]. destruct U as [Sh U]. split; [congruence|]. intros i. rewrite U. reflexivity.
Qed.
Lemma product_val t s pairs u : cprodC [tmap (eval rho) t; tmap (eval rho) s] pairs = Ok u ->
  exists r, (do p <- @tensor_product expr SX [t; s]; @tensor_contract expr SX p pairs) = Ok r /\ shape r = shape u /\
    forall i, eval rho (at_ r i) = at_ u i.
Proof.
  intros E.
  assert (U : under_res (eval rho) (do p <- @tensor_product expr SX [t; s]; @tensor_contract expr SX p pairs)
    (do p <- tensor_product [tmap (eval rho) t; tmap (eval rho) s]; tensor_contract p pairs)).
  { apply (@product_contract_under expr C SX Sig_C (eval rho)).
    - apply eval_num0.
    - intros. apply (eval_add ev EV rho RS).
    - intros. apply (eval_mul ev EV rho RS).
    - repeat constructor. }
  unfold cprodC in E. rewrite E in U.
  destruct (do p <- @tensor_product expr SX [t; s]; @tensor_contract expr SX p pairs) as [r|]; simpl in U; [|contradiction].
  exists r. split; [reflexivity|]. destruct U as [Sh U]. split; [congruence|]. intros i. rewrite U. reflexivity.
Qed.

Ltac run1 :=
  unfold tensor_contract, rank; cbv [shape length seq];
  repeat (erewrite loop_step; [|reflexivity|reflexivity|reflexivity|reflexivity]; cbv [del ins firstn skipn app]);
  cbn [contract_loop at_];
  eexists; split; [reflexivity|split; [reflexivity|]].

Ltac linear := repeat (apply lin_sum3; intros); try apply lin_mult; apply lin_at; fitok.

Lemma contract_12 : applies [3; 3; 3; 3] [3; 3] (fun t => @tensor_contract expr SX t [[1; 2]])
  (fun o f => sum3 (fun v => f [nth 0 o 0; v; v; nth 1 o 0])).
Proof.
  split.
  - intros t Sh.
    assert (E : exists u, tensor_contract (tmap (eval rho) t) [[1; 2]] = Ok u /\ shape u = [3; 3] /\
      forall i j, at_ u [i; j] = sum3 (fun v => eval rho (at_ t [i; v; v; j]))).
    { unfold tmap. rewrite Sh. run1. intros. rewrite <- sumN3. reflexivity. }
    destruct E as (u & E & Su & Hu). destruct (contract_val t _ u E) as (r & Er & Sr & Hr).
    exists r. split; [exact Er|]. split; [congruence|]. intros o Fo. fitsinv. rewrite Hr, Hu. reflexivity.
  - intros o Fo. fitsinv. cbn [nth]. linear.
Qed.
Lemma contract_02 : applies [3; 3; 3; 3] [3; 3] (fun t => @tensor_contract expr SX t [[0; 2]])
  (fun o f => sum3 (fun v => f [v; nth 0 o 0; v; nth 1 o 0])).
Proof.
  split.
  - intros t Sh.
    assert (E : exists u, tensor_contract (tmap (eval rho) t) [[0; 2]] = Ok u /\ shape u = [3; 3] /\
      forall i j, at_ u [i; j] = sum3 (fun v => eval rho (at_ t [v; i; v; j]))).
    { unfold tmap. rewrite Sh. run1. intros. rewrite <- sumN3. reflexivity. }
    destruct E as (u & E & Su & Hu). destruct (contract_val t _ u E) as (r & Er & Sr & Hr).
    exists r. split; [exact Er|]. split; [congruence|]. intros o Fo. fitsinv. rewrite Hr, Hu. reflexivity.
  - intros o Fo. fitsinv. cbn [nth]. linear.
Qed.
Lemma contract_02' : applies [3; 3; 3] [3] (fun t => @tensor_contract expr SX t [[0; 2]])
  (fun o f => sum3 (fun v => f [v; nth 0 o 0; v])).
Proof.
  split.
  - intros t Sh.
    assert (E : exists u, tensor_contract (tmap (eval rho) t) [[0; 2]] = Ok u /\ shape u = [3] /\
      forall i, at_ u [i] = sum3 (fun v => eval rho (at_ t [v; i; v]))).
    { unfold tmap. rewrite Sh. run1. intros. rewrite <- sumN3. reflexivity. }
    destruct E as (u & E & Su & Hu). destruct (contract_val t _ u E) as (r & Er & Sr & Hr).
    exists r. split; [exact Er|]. split; [congruence|]. intros o Fo. fitsinv. rewrite Hr, Hu. reflexivity.
  - intros o Fo. fitsinv. cbn [nth]. linear.
Qed.

(** The eight contractions with the susceptibilities *)
Ltac run2 :=
  unfold cprodC; cbv [tensor_product bind]; unfold outer, tmap, tensor_contract, rank; cbn [shape at_];
  repeat match goal with H : shape _ = _ |- _ => rewrite H; clear H end; cbv [app length seq];
  repeat (erewrite loop_step; [|reflexivity|reflexivity|reflexivity|reflexivity]; cbv [del ins firstn skipn app]);
  cbn [contract_loop at_];
  eexists; split; [reflexivity|split; [reflexivity|]].

Lemma first_1 chi : shape chi = [3; 3; 3] -> applies [3; 3; 3; 3; 3; 3] [3; 3; 3]
  (fun t => do p <- @tensor_product expr SX [t; chi]; @tensor_contract expr SX p [[0; 6]; [2; 7]; [3; 8]])
  (fun o f => sum3 (fun l => sum3 (fun k => sum3 (fun i =>
     f [i; nth 0 o 0; k; l; nth 1 o 0; nth 2 o 0] * eval rho (at_ chi [i; k; l])))))%C.
Proof.
  intros Sc. split.
  - intros t Sh.
    assert (E : exists u, cprodC [tmap (eval rho) t; tmap (eval rho) chi] [[0; 6]; [2; 7]; [3; 8]] = Ok u /\ shape u = [3; 3; 3] /\
      forall a b c, at_ u [a; b; c] = sum3 (fun l => sum3 (fun k => sum3 (fun i =>
         eval rho (at_ t [i; a; k; l; b; c]) * eval rho (at_ chi [i; k; l]))))%C).
    { run2. intros. rewrite <- sumN3. reflexivity. }
    destruct E as (u & E & Su & Hu). destruct (product_val t chi _ u E) as (r & Er & Sr & Hr).
    exists r. split; [exact Er|]. split; [congruence|]. intros o Fo. fitsinv. rewrite Hr, Hu. reflexivity.
  - intros o Fo. fitsinv. cbn [nth]. linear.
Qed.
Lemma first_2 chi : shape chi = [3; 3; 3] -> applies [3; 3; 3; 3; 3; 3; 3] [3; 3; 3; 3]
  (fun t => do p <- @tensor_product expr SX [t; chi]; @tensor_contract expr SX p [[0; 7]; [2; 8]; [3; 9]])
  (fun o f => sum3 (fun l => sum3 (fun k => sum3 (fun i =>
     f [i; nth 0 o 0; k; l; nth 1 o 0; nth 2 o 0; nth 3 o 0] * eval rho (at_ chi [i; k; l])))))%C.
Proof.
  intros Sc. split.
  - intros t Sh.
    assert (E : exists u, cprodC [tmap (eval rho) t; tmap (eval rho) chi] [[0; 7]; [2; 8]; [3; 9]] = Ok u /\ shape u = [3; 3; 3; 3] /\
      forall a b c d, at_ u [a; b; c; d] = sum3 (fun l => sum3 (fun k => sum3 (fun i =>
         eval rho (at_ t [i; a; k; l; b; c; d]) * eval rho (at_ chi [i; k; l]))))%C).
    { run2. intros. rewrite <- sumN3. reflexivity. }
    destruct E as (u & E & Su & Hu). destruct (product_val t chi _ u E) as (r & Er & Sr & Hr).
    exists r. split; [exact Er|]. split; [congruence|]. intros o Fo. fitsinv. rewrite Hr, Hu. reflexivity.
  - intros o Fo. fitsinv. cbn [nth]. linear.
Qed.
Lemma first_3 chi : shape chi = [3; 3; 3; 3] -> applies [3; 3; 3; 3; 3; 3; 3] [3; 3; 3]
  (fun t => do p <- @tensor_product expr SX [t; chi]; @tensor_contract expr SX p [[0; 7]; [2; 9]; [3; 10]; [6; 8]])
  (fun o f => sum3 (fun m => sum3 (fun l => sum3 (fun k => sum3 (fun i =>
     f [i; nth 0 o 0; k; l; nth 1 o 0; nth 2 o 0; m] * eval rho (at_ chi [i; m; k; l]))))))%C.
Proof.
  intros Sc. split.
  - intros t Sh.
    assert (E : exists u, cprodC [tmap (eval rho) t; tmap (eval rho) chi] [[0; 7]; [2; 9]; [3; 10]; [6; 8]] = Ok u /\ shape u = [3; 3; 3] /\
      forall a b c, at_ u [a; b; c] = sum3 (fun m => sum3 (fun l => sum3 (fun k => sum3 (fun i =>
         eval rho (at_ t [i; a; k; l; b; c; m]) * eval rho (at_ chi [i; m; k; l])))))%C).
    { run2. intros. rewrite <- sumN3. reflexivity. }
    destruct E as (u & E & Su & Hu). destruct (product_val t chi _ u E) as (r & Er & Sr & Hr).
    exists r. split; [exact Er|]. split; [congruence|]. intros o Fo. fitsinv. rewrite Hr, Hu. reflexivity.
  - intros o Fo. fitsinv. cbn [nth]. linear.
Qed.
Lemma first_4 chi : shape chi = [3; 3; 3; 3] -> applies [3; 3; 3; 3; 3; 3; 3; 3] [3; 3; 3; 3]
  (fun t => do p <- @tensor_product expr SX [t; chi]; @tensor_contract expr SX p [[0; 8]; [2; 10]; [3; 11]; [6; 9]])
  (fun o f => sum3 (fun m => sum3 (fun l => sum3 (fun k => sum3 (fun i =>
     f [i; nth 0 o 0; k; l; nth 1 o 0; nth 2 o 0; m; nth 3 o 0] * eval rho (at_ chi [i; m; k; l]))))))%C.
Proof.
  intros Sc. split.
  - intros t Sh.
    assert (E : exists u, cprodC [tmap (eval rho) t; tmap (eval rho) chi] [[0; 8]; [2; 10]; [3; 11]; [6; 9]] = Ok u /\ shape u = [3; 3; 3; 3] /\
      forall a b c d, at_ u [a; b; c; d] = sum3 (fun m => sum3 (fun l => sum3 (fun k => sum3 (fun i =>
         eval rho (at_ t [i; a; k; l; b; c; m; d]) * eval rho (at_ chi [i; m; k; l])))))%C).
    { run2. intros. rewrite <- sumN3. reflexivity. }
    destruct E as (u & E & Su & Hu). destruct (product_val t chi _ u E) as (r & Er & Sr & Hr).
    exists r. split; [exact Er|]. split; [congruence|]. intros o Fo. fitsinv. rewrite Hr, Hu. reflexivity.
  - intros o Fo. fitsinv. cbn [nth]. linear.
Qed.
Lemma second_3 chi : shape chi = [3; 3; 3] -> applies [3; 3; 3] []
  (fun t => do p <- @tensor_product expr SX [t; chi]; @tensor_contract expr SX p [[0; 3]; [1; 4]; [2; 5]])
  (fun _ f => sum3 (fun c => sum3 (fun b => sum3 (fun a => f [a; b; c] * eval rho (at_ chi [a; b; c])))))%C.
Proof.
  intros Sc. split.
  - intros t Sh.
    assert (E : exists u, cprodC [tmap (eval rho) t; tmap (eval rho) chi] [[0; 3]; [1; 4]; [2; 5]] = Ok u /\ shape u = [] /\
      at_ u [] = sum3 (fun c => sum3 (fun b => sum3 (fun a => eval rho (at_ t [a; b; c]) * eval rho (at_ chi [a; b; c]))))%C).
    { run2. intros. rewrite <- sumN3. reflexivity. }
    destruct E as (u & E & Su & Hu). destruct (product_val t chi _ u E) as (r & Er & Sr & Hr).
    exists r. split; [exact Er|]. split; [congruence|]. intros o Fo. fitsinv. rewrite Hr, Hu. reflexivity.
  - intros o Fo. linear.
Qed.
Lemma second_4 chi : shape chi = [3; 3; 3; 3] -> applies [3; 3; 3; 3] []
  (fun t => do p <- @tensor_product expr SX [t; chi]; @tensor_contract expr SX p [[0; 4]; [1; 6]; [2; 7]; [3; 5]])
  (fun _ f => sum3 (fun e => sum3 (fun c => sum3 (fun b => sum3 (fun a => f [a; b; c; e] * eval rho (at_ chi [a; e; b; c]))))))%C.
Proof.
  intros Sc. split.
  - intros t Sh.
    assert (E : exists u, cprodC [tmap (eval rho) t; tmap (eval rho) chi] [[0; 4]; [1; 6]; [2; 7]; [3; 5]] = Ok u /\ shape u = [] /\
      at_ u [] = sum3 (fun e => sum3 (fun c => sum3 (fun b => sum3 (fun a => eval rho (at_ t [a; b; c; e]) * eval rho (at_ chi [a; e; b; c])))))%C).
    { run2. intros. rewrite <- sumN3. reflexivity. }
    destruct E as (u & E & Su & Hu). destruct (product_val t chi _ u E) as (r & Er & Sr & Hr).
    exists r. split; [exact Er|]. split; [congruence|]. intros o Fo. fitsinv. rewrite Hr, Hu. reflexivity.
  - intros o Fo. linear.
Qed.
End Lin.
