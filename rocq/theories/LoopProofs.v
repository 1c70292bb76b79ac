(** Proofs for C138: fits of simulated data. *)
From Coq Require Import String List Arith ZArith QArith Qreals Bool Lia Reals Lra.
From Coquelicot Require Import Complex.
From Verif Require Import PyBase CBase Expr ExprProofs SpecForm SpecFData FDataModel FormModel FitModel SpecFit SpecPipe FitProofs FitProofs2 FitProofs3 FitProofs4 FitProofs5 PropertiesPipe SpecLoop.
Import ListNotations.
Local Open Scope nat_scope.

Lemma in_order_length {V} free (g : list (sym * V)) l : in_order free g l -> length l = length free.
Proof. intros F. induction F as [|s v free l _ _ IH]; [reflexivity|]. cbn. rewrite IH. reflexivity. Qed.
Lemma bounds_within free (b : list (sym * (R * R))) l xs : in_order free b l ->
  Forall2 (fun s x => exists lo hi, dget s b = Some (lo, hi) /\ (lo <= x <= hi)%R) free xs -> within (Some l) xs.
Proof.
  intros O. revert xs. induction O as [|s v free l E _ IH]; intros xs F; inversion F as [|? x ? xs' (lo & hi & E' & B) F']; subst; constructor; [|apply IH; exact F'].
  rewrite E in E'. injection E' as ->. exact B.
Qed.
Lemma numbers_listed free x d : length x = length free -> same_numbers (combine free x) d -> listed d free x.
Proof.
  revert x. induction free as [|s free IH]; intros [|v x] L H; try discriminate L; [constructor|]. constructor.
  - destruct (H s v) as (a & b & I & B & E); [left; reflexivity|]. exists a, b. auto.
  - apply IH; [injection L as L; exact L|]. intros s0 v0 I. apply H. right. exact I.
Qed.

Section Loop.
Variable ev : expr -> expr.
Hypothesis EV : sound_ev ev.
Variable kev : code -> code.
Hypothesis KEV : sound_kev kev.
Variable F : fform.
Variable d : list (sym * (Q * Q)).
Variable free : list sym.
Variable xs : list R.
Hypothesis RF : ff_reachable ev F.
Hypothesis SF : symbolic F.
Hypothesis MF : ff_M F = 16.
Hypothesis FF : ff_free_symbols F = Ok free.
Hypothesis NE : free <> [].
Hypothesis PD : parameter_values d.
Hypothesis LD : listed d free xs.

Lemma length_xs : length xs = length free.
Proof. revert LD. unfold listed. intros L. clear - L. induction L as [|s v free xs _ _ IH]; [reflexivity|]. cbn. rewrite IH. reflexivity. Qed.

(** The cost, and what an answer with cost zero means. *)
Lemma loop_cost chunk save fs : exists D lib, fform_to_fdat ev F d = Ok D /\ cost_of kev F D free chunk save None fs = (save_lib save lib fs, Ok lib) /\
  call lib xs = Some 0%R /\
  forall x u, length x = length free -> call lib x = Some u -> (u <= 0)%R -> call lib x = Some 0%R /\
    forall d', parameter_values d' -> same_numbers (combine free x) d' -> exists D', fform_to_fdat ev F d' = Ok D' /\ fget_items D' = fget_items D.
Proof.
  pose proof (free_argument_list F free FF) as A.
  assert (Ne : chunk = true -> ff_rows F <> []). { intros _. destruct free as [|s l]; [congruence|]. apply (free_rows F s l FF). }
  destruct (C75_zero ev kev F d free xs chunk save fs EV KEV RF SF MF A Ne PD LD) as (D & lib & E & G & Z & P).
  destruct (C75_same_data ev kev F d free xs chunk save fs EV KEV RF SF MF A Ne PD LD) as (D1 & lib1 & E1 & G1 & H).
  assert (D1 = D) by congruence. subst D1. assert (lib1 = lib) by congruence. subst lib1.
  exists D, lib. split; [exact E|]. split; [exact G|]. split; [exact Z|]. intros x u L C Le.
  destruct (P x) as (c & C' & Pos); [lia|]. assert (c = u) by congruence. subst c. assert (u = 0%R) by lra. subst u. split; [exact C|].
  intros d' P' N'. apply (H d' x P' (numbers_listed free x d' L N')). exact C.
Qed.

(** The whole answer of a fit. *)
Definition closes (D : fdat) (x : list R) (xd : list (sym * R)) : Prop :=
  xd = combine free x /\ length x = length free /\
  forall d', parameter_values d' -> same_numbers xd d' -> exists D', fform_to_fdat ev F d' = Ok D' /\ fget_items D' = fget_items D.
Lemma xdict_closes D x xd : length x = length free -> xdict_of free x = Ok xd ->
  (forall d', parameter_values d' -> same_numbers (combine free x) d' -> exists D', fform_to_fdat ev F d' = Ok D' /\ fget_items D' = fget_items D) -> closes D x xd.
Proof.
  intros L X H. assert (xd = combine free x) as -> by (apply xdict_combine; [apply (free_argument_list F free FF)|exact L|exact X]). repeat split; assumption.
Qed.

Lemma loop_least_squares optimiser guess bounds chunk save kw fs : finds_minimum optimiser -> bounds_hold bounds free xs ->
  exists D, fform_to_fdat ev F d = Ok D /\ forall fs' x xd,
    least_squares_fit kev optimiser F D guess bounds chunk save None kw fs = (fs', Ok (Fitted x xd)) -> closes D x xd.
Proof.
  intros O B. destruct (loop_cost chunk save fs) as (D & lib & E & G & Z & H). exists D. split; [exact E|]. intros fs' x xd X.
  unfold least_squares_fit in X. rewrite FF in X. destruct free as [|s l] eqn:Fr; [congruence|]. rewrite <- Fr in *. clear s l Fr. rewrite G in X.
  injection X as _ X. cbn [bind] in X.
  destruct (x0_of free guess) as [x0|] eqn:X0; [|discriminate X]. cbn [bind] in X. apply x0_of_ok, in_order_length in X0.
  set (bd := match bounds with None => Ok None | Some b => do l <- x0_of free b; Ok (Some l) end) in X.
  destruct bd as [bs|] eqn:Bd; [|discriminate X]. cbn [bind] in X.
  destruct (no_clash _ kw) as [u0|]; [|discriminate X]. cbn [bind] in X.
  destruct (optimiser _ _ _ _ _) as [x1|] eqn:Op; [|discriminate X]. cbn [bind] in X.
  destruct (xdict_of free x1) as [xd1|] eqn:Xd; [|discriminate X]. cbn [bind] in X. injection X as -> ->.
  assert (W : within bs xs).
  { unfold bd in Bd. destruct bounds as [b|]; [|injection Bd as <-; exact Logic.I]. destruct (x0_of free b) as [l|] eqn:Xb; [|discriminate Bd]. cbn [bind] in Bd. injection Bd as <-.
    apply x0_of_ok in Xb. exact (bounds_within free b l xs Xb B). }
  apply O in Op as (L & M). rewrite X0 in L. destruct (M xs 0%R) as (u & U & Le); [rewrite length_xs; symmetry; exact X0|exact W|unfold root; rewrite Z; cbn [option_map]; rewrite sqrt_0; reflexivity|].
  unfold root in U. destruct (call lib x) as [c|] eqn:C; [|discriminate U]. cbn [option_map] in U. injection U as <-.
  apply (xdict_closes D x xd L Xd). apply (H x c L C). destruct (Rle_lt_dec c 0) as [Q|Q]; [exact Q|]. pose proof (sqrt_lt_R0 c Q). lra.
Qed.

Lemma loop_dual_annealing optimiser guess bounds chunk save kw fs : finds_minimum optimiser -> bounds_hold bounds free xs ->
  exists D, fform_to_fdat ev F d = Ok D /\ forall fs' x xd,
    dual_annealing_fit kev optimiser F D guess bounds chunk save None kw fs = (fs', Ok (Fitted x xd)) -> closes D x xd.
Proof.
  intros O B. destruct (loop_cost chunk save fs) as (D & lib & E & G & Z & H). exists D. split; [exact E|]. intros fs' x xd X.
  unfold dual_annealing_fit in X. rewrite FF in X. destruct free as [|s l] eqn:Fr; [congruence|]. rewrite <- Fr in *. clear s l Fr. rewrite G in X.
  injection X as _ X. cbn [bind] in X.
  destruct (x0_of free guess) as [x0|] eqn:X0; [|discriminate X]. cbn [bind] in X. apply x0_of_ok, in_order_length in X0.
  set (bd := match bounds with None => Ok None | Some b => do l <- x0_of free b; Ok (Some l) end) in X.
  destruct bd as [bs|] eqn:Bd; [|discriminate X]. cbn [bind] in X.
  destruct (optimiser _ _ _ _ _) as [x1|] eqn:Op; [|discriminate X]. cbn [bind] in X.
  destruct (xdict_of free x1) as [xd1|] eqn:Xd; [|discriminate X]. cbn [bind] in X. injection X as -> ->.
  assert (W : within bs xs).
  { unfold bd in Bd. destruct bounds as [b|]; [|injection Bd as <-; exact Logic.I]. destruct (x0_of free b) as [l|] eqn:Xb; [|discriminate Bd]. cbn [bind] in Bd. injection Bd as <-.
    apply x0_of_ok in Xb. exact (bounds_within free b l xs Xb B). }
  apply O in Op as (L & M). rewrite X0 in L. destruct (M xs 0%R) as (u & U & Le); [rewrite length_xs; symmetry; exact X0|exact W|exact Z|].
  apply (xdict_closes D x xd L Xd). exact (proj2 (H x u L U Le)).
Qed.

Lemma loop_basinhopping optimiser guess own chunk save kw fs : finds_minimum optimiser ->
  exists D, fform_to_fdat ev F d = Ok D /\ forall fs' kw' x xd,
    basinhopping_fit kev optimiser F D guess None own chunk save None kw fs = (fs', kw', Ok (Fitted x xd)) -> closes D x xd.
Proof.
  intros O. destruct (loop_cost chunk save fs) as (D & lib & E & G & Z & H). exists D. split; [exact E|]. intros fs' kw' x xd X.
  unfold basinhopping_fit in X. rewrite FF in X. destruct free as [|s l] eqn:Fr; [congruence|]. rewrite <- Fr in *. clear s l Fr. rewrite G in X.
  unfold basinhop in X. destruct (x0_of free guess) as [x0|] eqn:X0; [|discriminate X]. apply x0_of_ok, in_order_length in X0.
  destruct (take_minimizer _ kw) as [kw1 [mk|]]; [|discriminate X]. cbn [bind] in X.
  destruct (no_clash _ kw1) as [u0|]; [|discriminate X]. cbn [bind] in X.
  destruct (optimiser _ _ _ _ _) as [x1|] eqn:Op; [|discriminate X]. cbn [bind] in X.
  destruct (xdict_of free x1) as [xd1|] eqn:Xd; [|discriminate X]. cbn [bind] in X. injection X as _ _ -> ->.
  apply O in Op as (L & M). rewrite X0 in L. destruct (M xs 0%R) as (u & U & Le); [rewrite length_xs; symmetry; exact X0|exact Logic.I|exact Z|].
  apply (xdict_closes D x xd L Xd). exact (proj2 (H x u L U Le)).
Qed.
End Loop.
