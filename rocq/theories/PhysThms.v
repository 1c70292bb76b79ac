(** Turned, scaled and mirrored crystals: what [formgen] returns for them. *)
From Coq Require Import String List Arith ZArith Bool Lia Reals QArith Qreals Lra.
From Coquelicot Require Import Complex.
Import ListNotations.
From Verif Require Import PyBase CBase FourierBase Expr ExprProofs SpecForm SpecTensor TensorInst TensorProofs TensorNat UtilModel SpecUtil
  DataModel FormModel FormProofs FormProofs4 FormgenModel TensorDefs SpecGroups GroupProofs SpecFormgen TrigPoly
  FormgenProofs FormgenProofs2 FormgenProofs3 FormgenProofs4 FormgenProofs5 FormgenPhys FormgenThms FormgenTables FormgenThms2
  SpecPhys PhysProofs PropertiesTensor.
From Verif Require Import TensorModel.
Local Open Scope nat_scope.

Lemma fits_uncons d sh i ix : fits (d :: sh) (i :: ix) -> i < d /\ fits sh ix.
Proof. intros F. inversion F; subst. auto. Qed.

(** ** [transform] on tensors of rank 3 and 4 *)
Lemma transform3C (t R : tensor C) : shape t = [3; 3; 3] -> shape R = [3; 3] ->
  exists v, transform t R = Ok v /\ shape v = [3; 3; 3] /\
    forall i j k, at_ v [i; j; k] = turn3 (fun i l => at_ R [i; l]) (fun i j k => at_ t [i; j; k]) i j k.
Proof.
  intros St SR. destruct (rotate3C R t SR St) as (u & E & Su & Hu). exists u. split; [|split; [exact Su|exact Hu]].
  rewrite <- E. unfold transform, rank, cprodC. rewrite St. reflexivity.
Qed.
Lemma transform4C (t R : tensor C) : shape t = [3; 3; 3; 3] -> shape R = [3; 3] ->
  exists v, transform t R = Ok v /\ shape v = [3; 3; 3; 3] /\
    forall i j k h, at_ v [i; j; k; h] = turn4 (fun i l => at_ R [i; l]) (fun i j k h => at_ t [i; j; k; h]) i j k h.
Proof.
  intros St SR. destruct (rotate4C R t SR St) as (u & E & Su & Hu). exists u. split; [|split; [exact Su|exact Hu]].
  rewrite <- E. unfold transform, rank, cprodC. rewrite St. reflexivity.
Qed.

Lemma turn3_mat A B X i j k : i < 3 -> j < 3 -> k < 3 -> (forall i l, i < 3 -> l < 3 -> A i l = B i l) -> turn3 A X i j k = turn3 B X i j k.
Proof. intros I J K H. unfold turn3. do 3 (apply sum3_ext; intros). rewrite !H by auto. reflexivity. Qed.
Lemma turn4_mat A B X i j k h : i < 3 -> j < 3 -> k < 3 -> h < 3 -> (forall i l, i < 3 -> l < 3 -> A i l = B i l) ->
  turn4 A X i j k h = turn4 B X i j k h.
Proof. intros I J K Hh H. unfold turn4. do 4 (apply sum3_ext; intros). rewrite !H by auto. reflexivity. Qed.

Lemma teq_entry (R S : tensor C) i j : shape R = [3; 3] -> teq R S -> i < 3 -> j < 3 -> at_ R [i; j] = at_ S [i; j].
Proof.
  intros SR [_ H] I J. apply H. apply in_indices. rewrite SR. repeat (constructor; [assumption|]). constructor.
Qed.

Lemma mirror_z_entry a i j : i < 3 -> j < 3 -> at_ (mirror_z a) [i; j] = mirror_at a i j.
Proof.
  intros I J. unfold mirror_at. cases3 i I; cases3 j J; cbn [mirror_z at_ Rz flip]; apply C_ext; unfold Re, Im; simpl; ring.
Qed.

(** Invariance in components *)
Lemma invariant3_turn rho t R A : has_shape [3; 3; 3] t -> shape R = [3; 3] -> opt_invariant rho t R ->
  (forall i l, i < 3 -> l < 3 -> at_ R [i; l] = A i l) ->
  forall i j k, i < 3 -> j < 3 -> k < 3 -> turn3 A (val3 rho t) i j k = val3 rho t i j k.
Proof.
  intros Sh SR Inv HA i j k I J K. destruct t as [t|]; cbn [has_shape opt_invariant] in *.
  - destruct Inv as (v & T & Sv & Hv). destruct (transform3C (instance rho t) R Sh SR) as (u & E & Su & Hu).
    rewrite E in T. injection T as <-. cbn [val3]. change (eval rho (at_ t [i; j; k])) with (at_ (instance rho t) [i; j; k]).
    rewrite <- Hv, Hu by (apply in_indices; rewrite Su; apply fits3; auto).
    symmetry. apply turn3_mat; auto.
  - unfold turn3. cbn [val3]. unfold sum3. ring.
Qed.
Lemma invariant4_turn rho t R A : has_shape [3; 3; 3; 3] t -> shape R = [3; 3] -> opt_invariant rho t R ->
  (forall i l, i < 3 -> l < 3 -> at_ R [i; l] = A i l) ->
  forall i j k h, i < 3 -> j < 3 -> k < 3 -> h < 3 -> turn4 A (val4 rho t) i j k h = val4 rho t i j k h.
Proof.
  intros Sh SR Inv HA i j k h I J K H. destruct t as [t|]; cbn [has_shape opt_invariant] in *.
  - destruct Inv as (v & T & Sv & Hv). destruct (transform4C (instance rho t) R Sh SR) as (u & E & Su & Hu).
    rewrite E in T. injection T as <-. cbn [val4]. change (eval rho (at_ t [i; j; k; h])) with (at_ (instance rho t) [i; j; k; h]).
    rewrite <- Hv, Hu by (apply in_indices; rewrite Su; apply fits4; auto).
    symmetry. apply turn4_mat; auto.
  - rewrite gnest4. cbn [val4]. unfold sum3. ring.
Qed.
Lemma axial3_turn rho t R A : has_shape [3; 3; 3] t -> shape R = [3; 3] -> opt_axial_mirror rho t R ->
  (forall i l, i < 3 -> l < 3 -> at_ R [i; l] = A i l) ->
  forall i j k, i < 3 -> j < 3 -> k < 3 -> turn3 A (val3 rho t) i j k = Copp (val3 rho t i j k).
Proof.
  intros Sh SR Inv HA i j k I J K. destruct t as [t|]; cbn [has_shape opt_axial_mirror] in *.
  - destruct Inv as (v & T & Hv). destruct (transform3C (instance rho t) R Sh SR) as (u & E & Su & Hu).
    rewrite E in T. injection T as <-. cbn [val3].
    rewrite <- Hv, Hu by (rewrite Sh; apply fits3; auto). symmetry. apply turn3_mat; auto.
  - rewrite gnest3. cbn [val3]. unfold sum3. ring.
Qed.

Section Phys.
Variable ev ex : expr -> expr.
Hypothesis EV : sound_ev ev.
Hypothesis EX : sound_ev ex.

(** ** [transform] on expressions *)
Lemma transform_eval rho t R t' : respects rho -> @transform expr (Sig_ev ev) t R = Ok t' ->
  exists v, transform (instance rho t) (instance rho R) = Ok v /\ shape v = shape t' /\ forall i, at_ v i = eval rho (at_ t' i).
Proof.
  intros Rs T.
  pose proof (@transform_under expr C (Sig_ev ev) Sig_C (eval rho) (eval_num0 rho)
    (eval_ev_add ev EV rho Rs) (eval_ev_mul ev EV rho Rs) t (instance rho t) R (instance rho R)
    (under_tmap _ _) (under_tmap _ _)) as U.
  rewrite T in U. destruct (transform (instance rho t) (instance rho R)) as [v|x]; simpl in U; [|contradiction].
  exists v. destruct U as [S H]. auto.
Qed.

(** The entries contain only symbols of the tensor and of the matrix. *)
Lemma transform_only (P : sym -> Prop) t R : shape R = [3; 3] -> (forall i, fits [3; 3] i -> only P (at_ R i)) ->
  (shape t = [3; 3; 3] \/ shape t = [3; 3; 3; 3]) -> (forall i, fits (shape t) i -> only P (at_ t i)) ->
  exists t', @transform expr (Sig_ev ev) t R = Ok t' /\ shape t' = shape t /\ forall i, fits (shape t) i -> only P (at_ t' i).
Proof.
  intros SR HR [St|St] Ht.
  - destruct (@rotate3G expr (Sig_ev ev) R t SR St) as (r & E & Sr & Hr). exists r. split; [|split; [congruence|]].
    + rewrite <- E. unfold transform, rank, cprod. rewrite St. reflexivity.
    + intros i F. rewrite St in F. pose proof (fits_length _ _ F) as L. destruct i as [|i [|j [|k [|]]]]; try discriminate.
      apply fits_uncons in F as [I F]. apply fits_uncons in F as [J F]. apply fits_uncons in F as [K _].
      rewrite Hr. do 3 (apply (only_sum ev EV); intros). cbn [mul Sig_ev].
      repeat (apply (only_ev ev EV), only_mul); try (apply HR; repeat (constructor; [lia|]); constructor).
      apply Ht. rewrite St. apply fits3; auto.
  - destruct (@rotate4G expr (Sig_ev ev) R t SR St) as (r & E & Sr & Hr). exists r. split; [|split; [congruence|]].
    + rewrite <- E. unfold transform, rank, cprod. rewrite St. reflexivity.
    + intros i F. rewrite St in F. pose proof (fits_length _ _ F) as L. destruct i as [|i [|j [|k [|h [|]]]]]; try discriminate.
      apply fits_uncons in F as [I F]. apply fits_uncons in F as [J F]. apply fits_uncons in F as [K F].
      apply fits_uncons in F as [L4 _].
      rewrite Hr. do 4 (apply (only_sum ev EV); intros). cbn [mul Sig_ev].
      repeat (apply (only_ev ev EV), only_mul); try (apply HR; repeat (constructor; [lia|]); constructor).
      apply Ht. rewrite St. apply fits4; auto.
Qed.

Definition fine (sh : list nat) (P : sym -> Prop) (t : option (tensor expr)) : Prop :=
  match t with None => True | Some t => shape t = sh /\ forall i, fits sh i -> only P (at_ t i) end.
Definition sym_ok (s : sym) : Prop := sreal s = Some true /\ s <> phi.

Lemma fine_params sh t : fine sh sym_ok t <-> has_shape sh t /\ real_params t /\ phi_free t.
Proof.
  destruct t as [t|]; cbn [fine has_shape real_params phi_free]; [|tauto]. split.
  - intros [S H]. split; [exact S|]. split.
    + intros i s I Is. apply in_indices in I. rewrite S in I. apply (H i I s Is).
    + intros i F I. rewrite S in F. destruct (H i F phi I) as [_ X]. apply X. reflexivity.
  - intros (S & A & B). split; [exact S|]. intros i F s Is. split.
    + apply (A i s); [|exact Is]. apply in_indices. rewrite S. exact F.
    + intros ->. apply (B i); [rewrite S; exact F|exact Is].
Qed.

Lemma transformed_fine sh R t : (sh = [3; 3; 3] \/ sh = [3; 3; 3; 3]) -> fine [3; 3] sym_ok (Some R) -> fine sh sym_ok t ->
  exists t', opt_transformed ev R t t' /\ fine sh sym_ok t'.
Proof.
  intros Hsh [SR HR] Ft. destruct t as [t|]; [|exists None; split; exact I]. destruct Ft as [St Ht]. subst sh.
  destruct (transform_only sym_ok t R SR HR Hsh Ht) as (t' & E & S' & H').
  exists (Some t'). split; [exact E|]. split; [exact S'|exact H'].
Qed.
Lemma transformed_unique R t t1 t2 : opt_transformed ev R t t1 -> opt_transformed ev R t t2 -> t1 = t2.
Proof. destruct t as [t|], t1 as [t1|], t2 as [t2|]; cbn; try tauto; intros; congruence. Qed.
Lemma transformed_none R t t' : opt_transformed ev R t t' -> (t = None <-> t' = None).
Proof. destruct t, t'; cbn; try tauto; intros; split; congruence. Qed.

Lemma transformed_val3 rho R t t' a : respects rho -> has_shape [3; 3; 3] t -> shape R = [3; 3] -> teq (instance rho R) (rot_z a) ->
  opt_transformed ev R t t' -> forall i j k, i < 3 -> j < 3 -> k < 3 -> val3 rho t' i j k = turned3 a (val3 rho t) i j k.
Proof.
  intros Rs Sh SR HR T i j k I J K. destruct t as [t|], t' as [t'|]; cbn in T, Sh; try contradiction.
  - destruct (transform_eval rho t R t' Rs T) as (v & E & Sv & Hv).
    destruct (transform3C (instance rho t) (instance rho R) Sh SR) as (u & Eu & Su & Hu).
    rewrite Eu in E. injection E as <-. cbn [val3]. rewrite <- Hv, Hu. rewrite turned3_turn. apply turn3_mat; auto.
    intros i' l I' L. rewrite <- rot_z_entry by auto. apply teq_entry; auto.
  - cbn [val3]. rewrite nest3. cbn [val3]. unfold sum3. ring.
Qed.
Lemma transformed_val4 rho R t t' a : respects rho -> has_shape [3; 3; 3; 3] t -> shape R = [3; 3] -> teq (instance rho R) (rot_z a) ->
  opt_transformed ev R t t' -> forall i j k h, i < 3 -> j < 3 -> k < 3 -> h < 3 -> val4 rho t' i j k h = turned4 a (val4 rho t) i j k h.
Proof.
  intros Rs Sh SR HR T i j k h I J K H. destruct t as [t|], t' as [t'|]; cbn in T, Sh; try contradiction.
  - destruct (transform_eval rho t R t' Rs T) as (v & E & Sv & Hv).
    destruct (transform4C (instance rho t) (instance rho R) Sh SR) as (u & Eu & Su & Hu).
    rewrite Eu in E. injection E as <-. cbn [val4]. rewrite <- Hv, Hu. rewrite turned4_turn. apply turn4_mat; auto.
    intros i' l I' L. rewrite <- rot_z_entry by auto. apply teq_entry; auto.
  - cbn [val4]. rewrite nest4. cbn [val4]. unfold sum3. ring.
Qed.

(** ** C70 *)
Lemma formgen_turned theta e m q R F : shapes e m q -> formgen ev ex theta e m q = Ok F -> all_phi_free theta e m q ->
  shape R = [3; 3] -> real_params (Some R) -> phi_free (Some R) ->
  exists e' m' q' F', opt_transformed ev R e e' /\ opt_transformed ev R m m' /\ opt_transformed ev R q q' /\
    formgen ev ex theta e' m' q' = Ok F' /\ shapes e' m' q' /\ all_phi_free theta e' m' q' /\
    forall inp out x x', dget (key inp out) F = Some x -> dget (key inp out) F' = Some x' ->
    forall rho th a, respects rho -> eval rho theta = RtoC th -> teq (instance rho R) (rot_z a) ->
    forall y, eval (at_phi rho y) x' = eval (at_phi rho (y + a)) x.
Proof.
  intros Sh H N SR RR PR. assert (Sh' := Sh). destruct Sh' as (She & Shm & Shq).
  destruct (formgen_params ev ex EV theta e m q F Sh H) as (Re & Rm & Rq & Nn). assert (N' := N). destruct N' as (Nt & Ne & Nm & Nq).
  assert (FR : fine [3; 3] sym_ok (Some R)) by (apply fine_params; repeat split; auto).
  destruct (transformed_fine [3; 3; 3] R e (or_introl eq_refl) FR) as (e' & Te & Fe); [apply fine_params; auto|].
  destruct (transformed_fine [3; 3; 3] R m (or_introl eq_refl) FR) as (m' & Tm & Fm); [apply fine_params; auto|].
  destruct (transformed_fine [3; 3; 3; 3] R q (or_intror eq_refl) FR) as (q' & Tq & Fq); [apply fine_params; auto|].
  apply fine_params in Fe as (Se' & Re' & Pe'). apply fine_params in Fm as (Sm' & Rm' & Pm'). apply fine_params in Fq as (Sq' & Rq' & Pq').
  destruct (proj1 (formgen_outcome ev ex EV theta e' m' q' Se' Sm' Sq')) as (F' & HF').
  { split; [exact Re'|]. split; [exact Rm'|]. split; [exact Rq'|]. intros (A & B & D). apply Nn.
    split; [apply (transformed_none R e e' Te); exact A|]. split; [apply (transformed_none R m m' Tm); exact B|].
    apply (transformed_none R q q' Tq); exact D. }
  exists e', m', q', F'. split; [exact Te|]. split; [exact Tm|]. split; [exact Tq|]. split; [exact HF'|].
  assert (ShF : shapes e' m' q') by (split; [exact Se'|split; [exact Sm'|exact Sq']]).
  assert (NF : all_phi_free theta e' m' q') by (split; [exact Nt|split; [exact Pe'|split; [exact Pm'|exact Pq']]]).
  split; [exact ShF|]. split; [exact NF|]. intros inp out x x' X X' rho th a Rs Ht HR y.
  rewrite (formgen_function ev ex EV EX theta e' m' q' F' rho th inp out x' ShF HF' Rs Ht NF X').
  rewrite (formgen_function ev ex EV EX theta e m q F rho th inp out x Sh H Rs Ht N X). f_equal.
  apply intensity_turned; intros.
  - apply (transformed_val3 rho R e e' a); auto.
  - apply (transformed_val3 rho R m m' a); auto.
  - apply (transformed_val4 rho R q q' a); auto.
Qed.

Lemma phase_shift_value (F : list (string * expr)) k a x rho b y : respects rho -> dget k F = Some x -> eval rho a = RtoC b -> ~ In phi (syms a) ->
  exists z, dget k (form_phase_shift ev F a phi) = Some z /\ eval (at_phi rho y) z = eval (at_phi rho (y + b)) x.
Proof.
  intros Rs X Ha Na. eexists. split.
  - unfold form_phase_shift, form_subs. rewrite dget_dmap, X. reflexivity.
  - assert (Rp : respects (at_phi rho y)) by (apply respects_at_phi; exact Rs).
    unfold subs_seq. cbn [fold_left fst snd]. rewrite (proj1 EV) by exact Rp. rewrite eval_subst.
    rewrite (proj1 EV) by exact Rp. rewrite eval_add. cbn [map fold_right].
    apply eval_ext. intros s _. unfold upd, at_phi. destruct (sym_eqb_spec s phi) as [->|D].
    + change (eval (at_phi rho y) (ESym phi) + (eval (at_phi rho y) a + RtoC 0) = RtoC (y + b))%C. rewrite eval_phi.
      rewrite at_phi_free by exact Na. rewrite Ha. rewrite RtoC_plus. ring.
    + reflexivity.
Qed.

(** ** C71 *)
Definition opt_times (c : expr) (t : option (tensor expr)) : option (tensor expr) := option_map (times ev c) t.

Lemma times_fine sh c t : fine sh sym_ok t -> only sym_ok c -> fine sh sym_ok (opt_times c t).
Proof.
  destruct t as [t|]; cbn; [|tauto]. intros [S H] Hc. split; [exact S|]. intros i F. apply (only_ev ev EV), only_mul; auto.
Qed.
Lemma times_val3 rho c t i j k : respects rho -> val3 rho (opt_times c t) i j k = (eval rho c * val3 rho t i j k)%C.
Proof.
  intros Rs. destruct t as [t|]; cbn [opt_times option_map val3 times at_]; [|ring].
  rewrite (proj1 EV) by exact Rs. rewrite eval_mul. cbn [map fold_right]. ring.
Qed.
Lemma times_val4 rho c t i j k h : respects rho -> val4 rho (opt_times c t) i j k h = (eval rho c * val4 rho t i j k h)%C.
Proof.
  intros Rs. destruct t as [t|]; cbn [opt_times option_map val4 times at_]; [|ring].
  rewrite (proj1 EV) by exact Rs. rewrite eval_mul. cbn [map fold_right]. ring.
Qed.

Lemma formgen_scaled theta e m q c F : shapes e m q -> formgen ev ex theta e m q = Ok F -> all_phi_free theta e m q ->
  (forall s, In s (syms c) -> sreal s = Some true) -> ~ In phi (syms c) ->
  exists F', formgen ev ex theta (opt_times c e) (opt_times c m) (opt_times c q) = Ok F' /\
    forall inp out x x', dget (key inp out) F = Some x -> dget (key inp out) F' = Some x' ->
    forall rho th, respects rho -> eval rho theta = RtoC th ->
    forall y, eval (at_phi rho y) x' = (RtoC (Cmod (eval rho c) ^ 2) * eval (at_phi rho y) x)%C.
Proof.
  intros Sh H N Rc Pc. assert (Sh' := Sh). destruct Sh' as (She & Shm & Shq).
  destruct (formgen_params ev ex EV theta e m q F Sh H) as (Re & Rm & Rq & Nn). assert (N' := N). destruct N' as (Nt & Ne & Nm & Nq).
  assert (Oc : only sym_ok c) by (intros s I; split; [auto|intros ->; auto]).
  assert (Fe : fine [3; 3; 3] sym_ok (opt_times c e)) by (apply times_fine; [apply fine_params; auto|exact Oc]).
  assert (Fm : fine [3; 3; 3] sym_ok (opt_times c m)) by (apply times_fine; [apply fine_params; auto|exact Oc]).
  assert (Fq : fine [3; 3; 3; 3] sym_ok (opt_times c q)) by (apply times_fine; [apply fine_params; auto|exact Oc]).
  apply fine_params in Fe as (Se' & Re' & Pe'). apply fine_params in Fm as (Sm' & Rm' & Pm'). apply fine_params in Fq as (Sq' & Rq' & Pq').
  destruct (proj1 (formgen_outcome ev ex EV theta _ _ _ Se' Sm' Sq')) as (F' & HF').
  { split; [exact Re'|]. split; [exact Rm'|]. split; [exact Rq'|]. intros (A & B & D). apply Nn.
    destruct e, m, q; try discriminate; auto. }
  exists F'. split; [exact HF'|]. intros inp out x x' X X' rho th Rs Ht y.
  assert (ShF : shapes (opt_times c e) (opt_times c m) (opt_times c q)) by (split; [exact Se'|split; [exact Sm'|exact Sq']]).
  assert (NF : all_phi_free theta (opt_times c e) (opt_times c m) (opt_times c q)) by (split; [exact Nt|split; [exact Pe'|split; [exact Pm'|exact Pq']]]).
  rewrite (formgen_function ev ex EV EX theta _ _ _ F' rho th inp out x' ShF HF' Rs Ht NF X').
  rewrite (formgen_function ev ex EV EX theta e m q F rho th inp out x Sh H Rs Ht N X). rewrite <- RtoC_mult. f_equal.
  apply intensity_scale; intros; [apply times_val3|apply times_val3|apply times_val4]; exact Rs.
Qed.

(** ** C72 *)
Lemma formgen_mirror theta e m q F rho th inp out x a : shapes e m q -> formgen ev ex theta e m q = Ok F ->
  respects rho -> eval rho theta = RtoC th -> all_phi_free theta e m q -> dget (key inp out) F = Some x ->
  opt_invariant rho e (mirror_z a) -> opt_axial_mirror rho m (mirror_z a) -> opt_invariant rho q (mirror_z a) ->
  forall y, eval (at_phi rho (- y - 2 * a)) x = eval (at_phi rho y) x.
Proof.
  intros Sh H Rs Ht N X Ie Jm Iq y. rewrite !(formgen_function ev ex EV EX theta e m q F rho th inp out x Sh H Rs Ht N X).
  destruct Sh as (She & Shm & Shq). f_equal. symmetry.
  apply intensity_mirror.
  - apply (invariant3_turn rho e (mirror_z a)); auto. intros. apply mirror_z_entry; auto.
  - apply (axial3_turn rho m (mirror_z a)); auto. intros. apply mirror_z_entry; auto.
  - apply (invariant4_turn rho q (mirror_z a)); auto. intros. apply mirror_z_entry; auto.
Qed.
Lemma formgen_mirror_s theta e m q F rho th inp x a : shapes e m q -> formgen ev ex theta e m q = Ok F ->
  respects rho -> eval rho theta = RtoC th -> all_phi_free theta e m q -> dget (key inp Sin) F = Some x ->
  opt_invariant rho e (mirror_z a) -> opt_axial_mirror rho m (mirror_z a) -> opt_invariant rho q (mirror_z a) ->
  eval (at_phi rho (- a)) x = RtoC 0.
Proof.
  intros Sh H Rs Ht N X Ie Jm Iq. rewrite !(formgen_function ev ex EV EX theta e m q F rho th inp Sin x Sh H Rs Ht N X).
  destruct Sh as (She & Shm & Shq). f_equal.
  apply intensity_mirror_s.
  - apply (invariant3_turn rho e (mirror_z a)); auto. intros. apply mirror_z_entry; auto.
  - apply (axial3_turn rho m (mirror_z a)); auto. intros. apply mirror_z_entry; auto.
  - apply (invariant4_turn rho q (mirror_z a)); auto. intros. apply mirror_z_entry; auto.
Qed.
End Phys.

(** ** The tables *)
Lemma prepared_ready order t u n : iterates order -> plain t -> shape t = repeat 3 n -> prepared order t u ->
  shape u = repeat 3 n /\ real_params (Some u) /\ phi_free (Some u) /\ (forall rho, exists rho', teq (instance rho u) (instance rho' t)).
Proof.
  intros Ho P S [E|E]; [apply (real_inv order t u P) in E|apply (complex_inv order t u P) in E]; subst u.
  - split; [exact S|]. split; [apply assert_ok; apply real_params_real; assumption|].
    split; [apply real_phi_free; assumption|]. intros rho. exists (with_real rho). apply real_instance; assumption.
  - split; [exact S|]. split; [apply assert_ok; apply complex_params_real; assumption|].
    split; [apply complex_phi_free; assumption|]. intros rho. exists (with_complex dprefix dsuffix rho). apply complex_instance; assumption.
Qed.

Lemma prepared_some order t : plain t -> prepared order t (real_tensor order t) /\ prepared order t (complex_tensor order t).
Proof. intros P. split; [left; apply real_is; exact P|right; exact (complex_is order t P)]. Qed.

Lemma table_invariant t n gens S rho u : shape t = repeat 3 (Datatypes.S n) -> shape S = [3; 3] -> invariant_table t gens ->
  (exists R, generated gens R /\ teq R S) ->
  (exists rho', teq (instance rho u) (instance rho' t)) -> invariant (instance rho u) S.
Proof.
  intros St SS Inv (R & G & T) (rho' & E).
  assert (SR : shape R = [3; 3]) by (destruct T as [X _]; rewrite X; exact SS).
  apply (invariant_same _ (instance rho' t) _ n); [destruct E as [E _]; rewrite E; exact St|exact SS|exact E|].
  apply (invariant_teq _ R _ n); [exact St|exact SR|exact T|]. apply Inv. exact G.
Qed.

(** A response tensor of rank 3 of the group: bulk or surface dipole. *)
Definition dipole_entry (name : string) (d : tensor expr) : Prop := dipole name = Ok d \/ surface name = Ok d.

Lemma dipole_entry_plain name d : dipole_entry name d -> plain d /\ shape d = [3; 3; 3].
Proof.
  destruct plain_tables as (T1 & T2 & _). intros [D|D].
  - exact (plain_lookup _ _ _ _ T1 D).
  - exact (plain_lookup _ _ _ _ T2 D).
Qed.
Lemma dipole_entry_invariant name d gens ord : dipole_entry name d -> dget name dipole_groups = Some (gens, ord) -> invariant_table d gens.
Proof.
  intros [D|D] G.
  - destruct (C38_dipole name d D) as (g1 & o1 & G1 & I1). rewrite G in G1. injection G1 as <- <-. exact I1.
  - destruct (C38_surface name d D) as (g1 & o1 & G1 & I1). rewrite G in G1. injection G1 as <- <-. exact I1.
Qed.

Lemma tables_mirror ev ex order theta name a d q gens gens' ord ord' : sound_ev ev -> sound_ev ex -> iterates order ->
  dipole_entry name d -> quadrupole name = Ok q ->
  dget name dipole_groups = Some (gens, ord) -> dget name quadrupole_groups = Some (gens', ord') ->
  has_mirror a gens -> has_mirror a gens' -> ~ In phi (syms theta) ->
  forall dr qr, prepared order d dr -> prepared order q qr ->
  exists F, formgen ev ex theta (Some dr) None (Some qr) = Ok F /\
  forall inp out x rho th, dget (key inp out) F = Some x -> respects rho -> eval rho theta = RtoC th ->
  (forall y, eval (at_phi rho (- y - 2 * a)) x = eval (at_phi rho y) x) /\ (out = Sin -> eval (at_phi rho (- a)) x = RtoC 0).
Proof.
  intros EV EX Ho D Q G G' A A' Nt dr qr Pdr Pqr.
  destruct plain_tables as (_ & _ & T3).
  destruct (dipole_entry_plain name d D) as [Pd Sd]. destruct (plain_lookup _ _ _ _ T3 Q) as [Pq Sq].
  pose proof (dipole_entry_invariant name d gens ord D G) as I1.
  assert (NI : name <> "Isotropic"%string) by (intros ->; vm_compute in G; discriminate).
  destruct (C40_invariant name q Q NI) as (g2 & o2 & G2 & I2 & _). rewrite G' in G2. injection G2 as <- <-.
  destruct (prepared_ready order d dr 3 Ho Pd Sd Pdr) as (Sdr & Rd & Fd & Vd).
  destruct (prepared_ready order q qr 4 Ho Pq Sq Pqr) as (Sqr & Rq & Fq & Vq).
  destruct (proj1 (formgen_outcome ev ex EV theta (Some dr) None (Some qr) Sdr I Sqr)) as (F & HF).
  { split; [exact Rd|]. split; [exact I|]. split; [exact Rq|]. intros (X & _). discriminate X. }
  exists F. split; [exact HF|]. intros inp out x rho th X Rs Ht.
  assert (Sh : shapes (Some dr) None (Some qr)) by (split; [exact Sdr|split; [exact I|exact Sqr]]).
  assert (NP : all_phi_free theta (Some dr) None (Some qr)) by (split; [exact Nt|split; [exact Fd|split; [exact I|exact Fq]]]).
  pose proof (table_invariant d 2 gens (mirror_z a) rho dr Sd eq_refl I1 A (Vd rho)) as J1.
  pose proof (table_invariant q 3 gens' (mirror_z a) rho qr Sq eq_refl I2 A' (Vq rho)) as J2. split.
  - exact (formgen_mirror ev ex EV EX theta _ _ _ F rho th inp out x a Sh HF Rs Ht NP X J1 I J2).
  - intros ->. exact (formgen_mirror_s ev ex EV EX theta _ _ _ F rho th inp x a Sh HF Rs Ht NP X J1 I J2).
Qed.

Lemma mat_inv_entry i j : i < 3 -> j < 3 -> at_ (mat inv) [i; j] = minus i j.
Proof. intros I J. cases3 i I; cases3 j J; cbn; unfold sval; cbn; apply C_ext; unfold Re, Im; simpl; field. Qed.

Lemma tables_inversion ev ex order theta name d gens ord : sound_ev ev -> sound_ev ex -> iterates order ->
  dipole_entry name d -> dget name dipole_groups = Some (gens, ord) -> has_inversion gens -> ~ In phi (syms theta) ->
  forall dr, prepared order d dr ->
  exists F, formgen ev ex theta (Some dr) None None = Ok F /\
  forall k x rho th, dget k F = Some x -> respects rho -> eval rho theta = RtoC th -> forall y, eval (at_phi rho y) x = RtoC 0.
Proof.
  intros EV EX Ho D G A Nt dr Pdr.
  destruct (dipole_entry_plain name d D) as [Pd Sd].
  pose proof (dipole_entry_invariant name d gens ord D G) as I1.
  destruct (prepared_ready order d dr 3 Ho Pd Sd Pdr) as (Sdr & Rd & Fd & Vd).
  destruct (proj1 (formgen_outcome ev ex EV theta (Some dr) None None Sdr I I)) as (F & HF).
  { split; [exact Rd|]. split; [exact I|]. split; [exact I|]. intros (X & _). discriminate X. }
  exists F. split; [exact HF|]. intros k x rho th X Rs Ht y.
  assert (Sh : shapes (Some dr) None None) by (split; [exact Sdr|split; exact I]).
  assert (NP : all_phi_free theta (Some dr) None None) by (split; [exact Nt|split; [exact Fd|split; exact I]]).
  destruct (formgen_denotes ev ex EV EX theta _ _ _ F rho th Sh HF Rs Ht) as (K & _).
  destruct (keys_pol F k x K X) as (inp & out & ->).
  rewrite (formgen_function ev ex EV EX theta _ _ _ F rho th inp out x Sh HF Rs Ht NP X). f_equal.
  apply intensity_zero; [|reflexivity|reflexivity]. apply inversion_kills.
  apply (invariant3_turn rho (Some dr) (mat inv)); [exact Sdr|reflexivity| |exact mat_inv_entry].
  exact (table_invariant d 2 gens (mat inv) rho dr Sd eq_refl I1 A (Vd rho)).
Qed.
