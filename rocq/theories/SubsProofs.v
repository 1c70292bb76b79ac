(** Substituting before or after generating. *)
From Coq Require Import String List Arith ZArith Bool Lia Reals QArith Qreals Lra FunctionalExtensionality.
From Coquelicot Require Import Complex.
Import ListNotations.
From Verif Require Import PyBase CBase Expr ExprProofs SpecForm FormModel FormProofs2 TensorInst TensorProofs UtilModel SpecFormgen FormgenModel
  FourierBase FformgenModel SpecFformgen FormgenProofs FormgenProofs4 FormgenThms FormgenThms2 FformgenProofs5 FformgenThms PropertiesFformgen ParamProofs2 SpecSubs.
From Verif Require Import SpecTensor TensorModel.
Local Open Scope nat_scope.

Section Subs.
Context (ev : expr -> expr) (EV : sound_ev ev).

Lemma after_respects sa : declared_subs sa -> forall rho, respects rho -> respects (after_subs sa rho).
Proof.
  induction sa as [|[s a] sa IH]; intros D rho R; [exact R|].
  assert (R' : respects (after_subs sa rho)) by (apply IH; auto; intros u b I; apply D; right; exact I).
  intros u U. cbn [after_subs]. destruct (sym_eqb_spec u s) as [->|N]; [|apply R'; exact U].
  destruct (D s a (or_introl eq_refl)) as (_ & _ & _ & H). apply H; auto.
Qed.

Lemma after_eval sa : declared_subs sa -> forall rho e, respects rho -> eval rho (subs_seq ev sa e) = eval (after_subs sa rho) e.
Proof.
  unfold subs_seq. induction sa as [|[s a] sa IH]; intros D rho e R; [reflexivity|].
  assert (D' : declared_subs sa) by (intros u b I; apply D; right; exact I).
  cbn [fold_left fst snd after_subs]. rewrite (IH D') by auto. rewrite (proj1 EV) by (apply after_respects; auto).
  rewrite eval_subst. reflexivity.
Qed.

Lemma after_other sa u : ~ In u (map fst sa) -> forall rho, after_subs sa rho u = rho u.
Proof.
  induction sa as [|[s a] sa IH]; intros N rho; [reflexivity|]. cbn [after_subs].
  destruct (sym_eqb_spec u s) as [->|Q]; [destruct N; left; reflexivity|]. apply IH. intros I. apply N. right. exact I.
Qed.

Lemma after_phi sa : declared_subs sa -> forall rho, after_subs sa rho phi = rho phi.
Proof.
  intros D. apply after_other. intros I. apply in_map_iff in I as ([s a] & E & I). cbn in E. subst s.
  destruct (D _ _ I) as (N & _). apply N. reflexivity.
Qed.

Lemma subs_syms sa : forall e u, In u (syms (subs_seq ev sa e)) -> In u (syms e) \/ exists s a, In (s, a) sa /\ In u (syms a).
Proof.
  unfold subs_seq. induction sa as [|[s a] sa IH]; intros e u I; [left; exact I|]. cbn [fold_left fst snd] in I.
  apply IH in I as [I|(s' & a' & I & J)]; [|right; exists s', a'; split; [right; exact I|exact J]].
  apply (proj2 EV) in I. apply syms_subst in I as [[I _]|[_ I]]; [left; exact I|right; exists s, a; split; [left; reflexivity|exact I]].
Qed.

Lemma subs_real sa t : declared_subs sa -> real_params t -> real_params (option_map (entries_subs (subs_seq ev sa)) t).
Proof.
  intros D R. destruct t as [t|]; [|exact I]. intros i u Ii Iu. cbn [entries_subs shape at_] in *.
  apply subs_syms in Iu as [Iu|(s & a & Ia & Iu)]; [exact (R i u Ii Iu)|].
  destruct (D _ _ Ia) as (_ & _ & H & _). apply H. exact Iu.
Qed.

Lemma subs_val3 sa rho t : declared_subs sa -> respects rho ->
  val3 rho (option_map (entries_subs (subs_seq ev sa)) t) = val3 (after_subs sa rho) t.
Proof.
  intros D R. apply functional_extensionality. intros i. apply functional_extensionality. intros j. apply functional_extensionality. intros k.
  destruct t as [t|]; [|reflexivity]. cbn [option_map val3 entries_subs at_]. apply after_eval; auto.
Qed.
Lemma subs_val4 sa rho t : declared_subs sa -> respects rho ->
  val4 rho (option_map (entries_subs (subs_seq ev sa)) t) = val4 (after_subs sa rho) t.
Proof.
  intros D R. apply functional_extensionality. intros i. apply functional_extensionality. intros j. apply functional_extensionality. intros k.
  apply functional_extensionality. intros l. destruct t as [t|]; [|reflexivity]. cbn [option_map val4 entries_subs at_]. apply after_eval; auto.
Qed.

Lemma formgen_keys ex theta e m q F : formgen ev ex theta e m q = Ok F -> dkeys F = ["PP"; "PS"; "SP"; "SS"]%string.
Proof.
  unfold formgen. destruct (gen_S _ _ _ _ _) as [[Sp Ss]|]; [|discriminate]. cbn [bind]. unfold intensities.
  repeat (match goal with |- context [square_of ?a ?b ?c ?d] => destruct (square_of a b c d) end; [|discriminate]; cbn [bind]).
  intros E. apply ok_inj in E. subst F. reflexivity.
Qed.

Lemma formgen_subs ex theta e m q sa F : sound_ev ex -> shapes e m q -> declared_subs sa -> formgen ev ex theta e m q = Ok F ->
  let sub := subs_seq ev sa in let on := option_map (entries_subs sub) in
  exists G, formgen ev ex (sub theta) (on e) (on m) (on q) = Ok G /\ dkeys G = dkeys F /\
    forall k x y, form_get_pc (form_subs ev F sa) k = Ok x -> form_get_pc G k = Ok y ->
    forall rho th, respects rho -> eval rho (sub theta) = RtoC th -> eval rho x = eval rho y.
Proof.
  intros EX Sh D H sub on. destruct (formgen_params ev ex EV theta e m q F Sh H) as (Re & Rm & Rq & N).
  assert (Sh' : shapes (on e) (on m) (on q)).
  { destruct Sh as (She & Shm & Shq). unfold on. destruct e as [e|], m as [m|], q as [q|]; repeat split; assumption. }
  destruct (proj1 (formgen_outcome ev ex EV (sub theta) (on e) (on m) (on q) (proj1 Sh') (proj1 (proj2 Sh')) (proj2 (proj2 Sh')))) as (G & HG).
  { split; [apply subs_real; auto|]. split; [apply subs_real; auto|]. split; [apply subs_real; auto|].
    intros (A & B & C). apply N. destruct e, m, q; try discriminate; auto. }
  exists G. split; [exact HG|].
  assert (W : forall rho th, respects rho -> eval rho (sub theta) = RtoC th ->
    denotes (after_subs sa rho) th F e m q /\ denotes rho th G (on e) (on m) (on q)).
  { intros rho th R T. split.
    - apply (formgen_denotes ev ex EV EX theta e m q F); auto; [apply after_respects; auto|]. rewrite <- after_eval; auto.
    - apply (formgen_denotes ev ex EV EX (sub theta) (on e) (on m) (on q) G); auto. }
  split.
  - rewrite (formgen_keys _ _ _ _ _ _ H), (formgen_keys _ _ _ _ _ _ HG). reflexivity.
  - intros k x y X Y rho th R T. destruct (W rho th R T) as ((KF & VF) & (KG & VG)).
    unfold form_get_pc, dgetr, form_subs in X, Y. rewrite dget_dmap in X.
    destruct (dget k F) as [f|] eqn:E; [|discriminate]. cbn [option_map bind] in X. apply ok_inj in X. subst x.
    destruct (dget k G) as [g|] eqn:E'; [|discriminate]. cbn [option_map bind] in Y. apply ok_inj in Y. subst y.
    destruct (keys_pol F k f KF E) as (inp & out & ->).
    destruct (VF inp out) as (f' & Ef & Vf). destruct (VG inp out) as (g' & Eg & Vg).
    assert (f' = f) by congruence. assert (g' = g) by congruence. subst f' g'.
    rewrite after_eval by auto. rewrite Vf, Vg. unfold on, sub. rewrite !subs_val3, subs_val4, after_phi by auto. reflexivity.
Qed.

Definition transforms_for (sa : list (sym * expr)) (prefix : string) (fs : list (string * list (list (tensor expr)))) : Prop :=
  forall rho, respects rho -> exists th, holds_transforms rho th prefix fs /\ holds_transforms (after_subs sa rho) th prefix fs.

Lemma contracted_subs expand prefix fs d q sa D : declared_subs sa -> good_tensors d q -> transforms_for sa prefix fs ->
  contracted_dict ev expand prefix fs d q 16 None = Ok D ->
  exists D', contracted_dict ev expand prefix fs (entries_subs (subs_seq ev sa) d) (entries_subs (subs_seq ev sa) q) 16 None = Ok D' /\
    dkeys D' = ["PP"; "PS"; "SP"; "SS"]%string /\
    forall inp out, exists r r', dget (key inp out) D = Some r /\ dget (key inp out) D' = Some r' /\ length r = 33 /\ length r' = 33 /\
      forall rho, respects rho -> map (eval rho) (map (subs_seq ev sa) r) = map (eval rho) r'.
Proof.
  intros Ds (Sd & Sq & Rd & Rq) T E.
  assert (Rd' := subs_real sa (Some d) Ds Rd). assert (Rq' := subs_real sa (Some q) Ds Rq). cbn [option_map] in Rd', Rq'.
  destruct (T rho1 rho1_respects) as (th1 & T1 & T1').
  destruct (contracted_rows ev expand EV rho1 th1 prefix fs (entries_subs (subs_seq ev sa) d) (entries_subs (subs_seq ev sa) q) rho1_respects T1 Sd Sq Rd' Rq') as (D' & ED' & K' & G').
  exists D'. split; [exact ED'|]. split; [exact K'|]. intros inp out.
  destruct (contracted_rows ev expand EV rho1 th1 prefix fs d q rho1_respects T1 Sd Sq Rd Rq) as (D0 & ED0 & K0 & G0).
  rewrite E in ED0. apply ok_inj in ED0. subst D0.
  destruct (G0 inp out) as (r & Er & (Lr & _)). destruct (G' inp out) as (r' & Er' & (Lr' & _)).
  exists r, r'. split; [exact Er|]. split; [exact Er'|]. split; [exact Lr|]. split; [exact Lr'|]. intros rho R.
  destruct (T rho R) as (th & Th & Th').
  assert (R' := after_respects sa Ds rho R).
  destruct (contracted_rows ev expand EV (after_subs sa rho) th prefix fs d q R' Th' Sd Sq Rd Rq) as (D1 & E1 & _ & G1).
  rewrite E in E1. apply ok_inj in E1. subst D1. destruct (G1 inp out) as (r1 & X1 & W1). assert (r1 = r) by congruence. subst r1.
  destruct (contracted_rows ev expand EV rho th prefix fs (entries_subs (subs_seq ev sa) d) (entries_subs (subs_seq ev sa) q) R Th Sd Sq Rd' Rq') as (D2 & E2 & _ & G2).
  rewrite ED' in E2. apply ok_inj in E2. subst D2. destruct (G2 inp out) as (r2 & X2 & W2). assert (r2 = r') by congruence. subst r2.
  rewrite map_map. rewrite (map_ext_in _ (eval (after_subs sa rho))) by (intros a _; apply after_eval; auto).
  (* the two rows denote the same function *)
  change (Some (entries_subs (subs_seq ev sa) d)) with (option_map (entries_subs (subs_seq ev sa)) (Some d)) in W2.
  change (Some (entries_subs (subs_seq ev sa) q)) with (option_map (entries_subs (subs_seq ev sa)) (Some q)) in W2.
  rewrite subs_val3, subs_val4 in W2 by auto.
  apply (nth_ext _ _ (eval (after_subs sa rho) (num 0)) (eval rho (num 0))); [rewrite !map_length; congruence|].
  intros n Hn. rewrite map_length, Lr in Hn. rewrite !map_nth.
  assert (Im : In (Z.of_nat n - 16)%Z (freqs 16)) by (apply In_freqs; lia).
  assert (C1 := cell_fourier (after_subs sa rho) r _ Lr Im). assert (C2 := cell_fourier rho r' _ Lr' Im).
  unfold cell in C1, C2. replace (Z.to_nat (Z.of_nat n - 16 + 16)) with n in C1, C2 by lia. rewrite C1, C2.
  apply fourier_coefficient_ext. intros x. unfold series_function. rewrite (row_is_fseries _ _ _ _ W1), (row_is_fseries _ _ _ _ W2). reflexivity.
Qed.

Lemma symb_for sa prefix fs : ~ In theta_sym (map fst sa) ->
  exists fs', generate_uncontracted_fourier_transforms_symb ev prefix 16 fs = Ok fs' /\ (declared_subs sa -> transforms_for sa prefix fs').
Proof.
  intros N. destruct (symb_transforms ev EV prefix fs) as (fs' & E & H). exists fs'. split; [exact E|]. intros D rho R.
  exists (Re (rho theta_sym)).
  assert (T : rho theta_sym = RtoC (Re (rho theta_sym))) by (pose proof (R theta_sym eq_refl) as X; apply C_ext; [reflexivity|exact X]).
  split; apply H; auto; [apply after_respects; auto|rewrite after_other; auto].
Qed.
Lemma num_for aoi sa prefix fs :
  exists fs', generate_uncontracted_fourier_transforms ev aoi prefix 16 fs = Ok fs' /\ (declared_subs sa -> transforms_for sa prefix fs').
Proof.
  destruct (num_transforms ev EV aoi prefix fs) as (fs' & E & H). exists fs'. split; [exact E|]. intros D rho R.
  exists (Q2R aoi). split; apply H; auto; apply after_respects; auto.
Qed.

End Subs.
