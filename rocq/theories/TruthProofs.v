(** Proofs for C139: fits of noisy data. *)
From Coq Require Import String List Arith ZArith Bool Lia Reals Lra.
From Coquelicot Require Import Complex.
From Verif Require Import PyBase CBase Expr SpecForm SpecFData FDataModel FormModel FormProofs FormProofs2 FormProofs3 SpecPipe PipeProofs PipeThms PropertiesPipe FitModel SpecFit FitProofs FitProofs2 FitProofs3 FitProofs4 FitProofs5 SpecLsq LsqProofs SpecNoise NoiseProofs SpecLoop LoopProofs SpecTruth.
Import ListNotations.
Local Open Scope nat_scope.

(** * The answers of the fits *)

Section Best.
Variable kev : code -> code.
Variable F : fform.
Variable D : fdat.
Variable free : list sym.
Variable chunk : bool.
Variable save : option string.
Variables fs fs1 : files.
Variable lib : list code.
Variable ts : list R.
Variable c : R.
Hypothesis FF : ff_free_symbols F = Ok free.
Hypothesis NE : free <> [].
Hypothesis G : cost_of kev F D free chunk save None fs = (fs1, Ok lib).
Hypothesis Lt : length ts = length free.
Hypothesis Ct : call lib ts = Some c.
Hypothesis Pos : forall xs v, length xs = length free -> call lib xs = Some v -> (0 <= v)%R.

Definition best (x : list R) (xd : list (sym * R)) : Prop :=
  xd = combine free x /\ length x = length free /\ exists u, call lib x = Some u /\ (u <= c)%R.
Lemma xdict_best x xd u : length x = length free -> xdict_of free x = Ok xd -> call lib x = Some u -> (u <= c)%R -> best x xd.
Proof.
  intros L X C Le. split; [apply xdict_combine; [apply (free_argument_list F free FF)|exact L|exact X]|]. split; [exact L|]. exists u. split; assumption.
Qed.

Lemma best_least_squares optimiser guess bounds kw fs' x xd : finds_minimum optimiser -> bounds_hold bounds free ts ->
  least_squares_fit kev optimiser F D guess bounds chunk save None kw fs = (fs', Ok (Fitted x xd)) -> best x xd.
Proof.
  intros O B X.
  unfold least_squares_fit in X. rewrite FF in X. destruct free as [|s l] eqn:Fr; [congruence|]. rewrite <- Fr in *. clear s l Fr. rewrite G in X.
  injection X as _ X. cbn [bind] in X.
  destruct (x0_of free guess) as [x0|] eqn:X0; [|discriminate X]. cbn [bind] in X. apply x0_of_ok, in_order_length in X0.
  set (bd := match bounds with None => Ok None | Some b => do l <- x0_of free b; Ok (Some l) end) in X.
  destruct bd as [bs|] eqn:Bd; [|discriminate X]. cbn [bind] in X.
  destruct (no_clash _ kw) as [u0|]; [|discriminate X]. cbn [bind] in X.
  destruct (optimiser _ _ _ _ _) as [x1|] eqn:Op; [|discriminate X]. cbn [bind] in X.
  destruct (xdict_of free x1) as [xd1|] eqn:Xd; [|discriminate X]. cbn [bind] in X. injection X as -> ->.
  assert (W : within bs ts).
  { unfold bd in Bd. destruct bounds as [b|]; [|injection Bd as <-; exact Logic.I]. destruct (x0_of free b) as [l|] eqn:Xb; [|discriminate Bd]. cbn [bind] in Bd. injection Bd as <-.
    apply x0_of_ok in Xb. exact (bounds_within free b l ts Xb B). }
  apply O in Op as (L & M). rewrite X0 in L.
  destruct (M ts (sqrt c)) as (u & U & Le); [rewrite Lt; symmetry; exact X0|exact W|unfold root; rewrite Ct; reflexivity|].
  unfold root in U. destruct (call lib x) as [v|] eqn:C; [|discriminate U]. cbn [option_map] in U. injection U as <-.
  apply (xdict_best x xd v L Xd C). apply sqrt_le_0; [exact (Pos x v L C)|exact (Pos ts c Lt Ct)|exact Le].
Qed.
Lemma best_dual_annealing optimiser guess bounds kw fs' x xd : finds_minimum optimiser -> bounds_hold bounds free ts ->
  dual_annealing_fit kev optimiser F D guess bounds chunk save None kw fs = (fs', Ok (Fitted x xd)) -> best x xd.
Proof.
  intros O B X.
  unfold dual_annealing_fit in X. rewrite FF in X. destruct free as [|s l] eqn:Fr; [congruence|]. rewrite <- Fr in *. clear s l Fr. rewrite G in X.
  injection X as _ X. cbn [bind] in X.
  destruct (x0_of free guess) as [x0|] eqn:X0; [|discriminate X]. cbn [bind] in X. apply x0_of_ok, in_order_length in X0.
  set (bd := match bounds with None => Ok None | Some b => do l <- x0_of free b; Ok (Some l) end) in X.
  destruct bd as [bs|] eqn:Bd; [|discriminate X]. cbn [bind] in X.
  destruct (optimiser _ _ _ _ _) as [x1|] eqn:Op; [|discriminate X]. cbn [bind] in X.
  destruct (xdict_of free x1) as [xd1|] eqn:Xd; [|discriminate X]. cbn [bind] in X. injection X as -> ->.
  assert (W : within bs ts).
  { unfold bd in Bd. destruct bounds as [b|]; [|injection Bd as <-; exact Logic.I]. destruct (x0_of free b) as [l|] eqn:Xb; [|discriminate Bd]. cbn [bind] in Bd. injection Bd as <-.
    apply x0_of_ok in Xb. exact (bounds_within free b l ts Xb B). }
  apply O in Op as (L & M). rewrite X0 in L. destruct (M ts c) as (u & U & Le); [rewrite Lt; symmetry; exact X0|exact W|exact Ct|].
  exact (xdict_best x xd u L Xd U Le).
Qed.
Lemma best_basinhopping optimiser guess own kw fs' kw' x xd : finds_minimum optimiser ->
  basinhopping_fit kev optimiser F D guess None own chunk save None kw fs = (fs', kw', Ok (Fitted x xd)) -> best x xd.
Proof.
  intros O X.
  unfold basinhopping_fit in X. rewrite FF in X. destruct free as [|s l] eqn:Fr; [congruence|]. rewrite <- Fr in *. clear s l Fr. rewrite G in X.
  unfold basinhop in X. destruct (x0_of free guess) as [x0|] eqn:X0; [|discriminate X]. apply x0_of_ok, in_order_length in X0.
  destruct (take_minimizer _ kw) as [kw1 [mk|]]; [|discriminate X]. cbn [bind] in X.
  destruct (no_clash _ kw1) as [u0|]; [|discriminate X]. cbn [bind] in X.
  destruct (optimiser _ _ _ _ _) as [x1|] eqn:Op; [|discriminate X]. cbn [bind] in X.
  destruct (xdict_of free x1) as [xd1|] eqn:Xd; [|discriminate X]. cbn [bind] in X. injection X as _ _ -> ->.
  apply O in Op as (L & M). rewrite X0 in L. destruct (M ts c) as (u & U & Le); [rewrite Lt; symmetry; exact X0|exact Logic.I|exact Ct|].
  exact (xdict_best x xd u L Xd U Le).
Qed.
End Best.

(** * The basinhopping variants *)

Lemma dget_app (k : string) (l m : list (string * val)) : dget k (l ++ m)%list = match dget k l with Some v => Some v | None => dget k m end.
Proof. induction l as [|(k', v) l IH]; [reflexivity|]. cbn [app dget]. destruct (eqb k k'); [reflexivity|exact IH]. Qed.
Lemma best_hop F free optimiser obj f guess bounds own kw kw' x xd ts c : ff_free_symbols F = Ok free -> length ts = length free ->
  obj = Scalar f \/ (exists g, obj = WithGradient f g) -> f ts = Some c -> finds_bounded optimiser ->
  dget "minimizer_kwargs"%string kw = None -> dget "bounds"%string own = None -> bounds_hold (given_bounds bounds) free ts ->
  basinhop optimiser free obj guess bounds own kw = (kw', Ok (Fitted x xd)) ->
  xd = combine free x /\ length x = length free /\ exists u, f x = Some u /\ (u <= c)%R.
Proof.
  intros FF Lt Ob Ct O Nk No B X. unfold basinhop in X. destruct (x0_of free guess) as [x0|] eqn:X0; [|discriminate X]. apply x0_of_ok, in_order_length in X0.
  set (bd := match bounds with Some (Some b) => _ | Some None => _ | None => _ end) in X.
  destruct bd as [bo|] eqn:Bd; [|discriminate X]. unfold take_minimizer in X. rewrite Nk in X. cbn [bind] in X.
  destruct (no_clash _ kw) as [u0|]; [|discriminate X]. cbn [bind] in X.
  destruct (optimiser _ _ _ _ _) as [x1|] eqn:Op; [|discriminate X]. cbn [bind] in X.
  destruct (xdict_of free x1) as [xd1|] eqn:Xd; [|discriminate X]. cbn [bind] in X. injection X as _ -> ->.
  assert (W : within (bounds_in (own ++ bo)) ts).
  { unfold bounds_in. rewrite dget_app, No. unfold bd in Bd. destruct bounds as [[b|]|]; [|injection Bd as <-; exact Logic.I|injection Bd as <-; exact Logic.I].
    destruct (x0_of free b) as [l|] eqn:Xb; [|discriminate Bd]. cbn [bind] in Bd. injection Bd as <-. apply x0_of_ok in Xb. exact (bounds_within free b l ts Xb B). }
  apply (O _ f) in Op as (L & M); [|exact Ob]. rewrite X0 in L. destruct (M ts c) as (u & U & Le); [rewrite Lt; symmetry; exact X0|exact W|exact Ct|].
  split; [apply xdict_combine; [apply (free_argument_list F free FF)|exact L|exact Xd]|]. split; [exact L|]. exists u. split; assumption.
Qed.

(** * Distances *)

Definition coefs_apart (F : fform) (rho rho' : sym -> C) : R :=
  rsum (fun kr => rsum (fun m => (Cmod (Cminus (eval rho (fcell (ff_M F) (snd kr) m)) (eval rho' (fcell (ff_M F) (snd kr) m))) ^ 2)%R) (freqs (ff_M F))) (ff_rows F).
Lemma formula_minus F rho rho' r x : Cminus (formula_at F rho r x) (formula_at F rho' r x) =
  Csum (fun m => Cmult (Cminus (eval rho (fcell (ff_M F) r m)) (eval rho' (fcell (ff_M F) r m))) (cis (IZR m * x))) (freqs (ff_M F)).
Proof. unfold formula_at. unfold Cminus. rewrite <- Csum_opp, <- Csum_plus. apply Csum_ext. intros m. ring. Qed.
Lemma apart_coefs F rho rho' n : 2 * ff_M F < n -> apart F rho rho' n = coefs_apart F rho rho'.
Proof.
  intros L. unfold apart, coefs_apart. apply rsum_ext. intros (k, r) _. cbn [fst snd].
  rewrite <- (parseval (ff_M F) (fun m => Cminus (eval rho (fcell (ff_M F) r m)) (eval rho' (fcell (ff_M F) r m))) n L). f_equal.
  apply rsum_ext. intros j _. rewrite formula_minus. reflexivity.
Qed.
Lemma two_steps a b c : (Cmod (Cminus a b) ^ 2 <= 2 * Cmod (Cminus a c) ^ 2 + 2 * Cmod (Cminus b c) ^ 2)%R.
Proof.
  assert (T : (Cmod (Cminus a b) <= Cmod (Cminus a c) + Cmod (Cminus b c))%R).
  { replace (Cminus a b) with (Cplus (Cminus a c) (Copp (Cminus b c))) by ring. rewrite <- (Cmod_opp (Cminus b c)). apply Cmod_triangle. }
  pose proof (Cmod_ge_0 (Cminus a b)). pose proof (Cmod_ge_0 (Cminus a c)). pose proof (Cmod_ge_0 (Cminus b c)).
  pose proof (pow2_ge_0 (Cmod (Cminus a c) - Cmod (Cminus b c))). assert (Cmod (Cminus a b) ^ 2 <= (Cmod (Cminus a c) + Cmod (Cminus b c)) ^ 2)%R by (apply pow_incr; lra). lra.
Qed.
Lemma coefs_between F D rho rho' : (coefs_apart F rho rho' <= 2 * misfit F D rho + 2 * misfit F D rho')%R.
Proof.
  unfold coefs_apart, misfit. rewrite <- !rsum_scal, <- rsum_plus. apply rsum_le. intros (k, r) _. cbn [fst snd].
  rewrite <- !rsum_scal, <- rsum_plus. apply rsum_le. intros m _. apply two_steps.
Qed.
Lemma square_step n a s q : (0 <= n)%R -> (0 <= a)%R -> (0 <= s)%R -> (0 <= q)%R -> (s ^ 2 <= n * q)%R -> ((a + s) ^ 2 <= (n + 1) * (a ^ 2 + q))%R.
Proof.
  intros N A S Q H. assert (K : (2 * a * s <= n * a ^ 2 + q)%R).
  { apply Rsqr_incr_0_var; [|nra]. unfold Rsqr. assert (0 <= a ^ 2)%R by apply pow2_ge_0. assert (a ^ 2 * s ^ 2 <= a ^ 2 * (n * q))%R by (apply Rmult_le_compat_l; assumption).
    pose proof (pow2_ge_0 (n * a ^ 2 - q)). nra. }
  nra.
Qed.
Lemma rsum_nonneg {A} (f : A -> R) l : (forall a, (0 <= f a)%R) -> (0 <= rsum f l)%R.
Proof. intros H. induction l as [|a l IH]; cbn; [lra|]. specialize (H a). change (0 <= f a + rsum f l)%R. lra. Qed.
Lemma Cmod_Csum_sq {A} (f : A -> C) l : (Cmod (Csum f l) ^ 2 <= INR (length l) * rsum (fun a => (Cmod (f a) ^ 2)%R) l)%R.
Proof.
  induction l as [|a l IH].
  - cbn [length]. rewrite Rmult_0_l. change (Cmod (RtoC 0) ^ 2 <= 0)%R. rewrite Cmod_0. lra.
  - change (Csum f (a :: l)) with (Cplus (f a) (Csum f l)). change (rsum (fun a => (Cmod (f a) ^ 2)%R) (a :: l)) with (Cmod (f a) ^ 2 + rsum (fun a => (Cmod (f a) ^ 2)%R) l)%R.
    change (length (a :: l)) with (S (length l)). rewrite S_INR.
    apply Rle_trans with ((Cmod (f a) + Cmod (Csum f l)) ^ 2)%R.
    + apply pow_incr. split; [apply Cmod_ge_0|apply Cmod_triangle].
    + apply square_step; [apply pos_INR|apply Cmod_ge_0|apply Cmod_ge_0| |exact IH]. apply rsum_nonneg. intros x. apply pow2_ge_0.
Qed.
Lemma rsum_member {A} (f : A -> R) l a : (forall a, (0 <= f a)%R) -> In a l -> (f a <= rsum f l)%R.
Proof.
  intros H. induction l as [|b l IH]; [intros []|]. change (rsum f (b :: l)) with (f b + rsum f l)%R. pose proof (rsum_nonneg f l H). specialize (H b) as Hb.
  intros [<-|I]; [lra|]. specialize (IH I). lra.
Qed.
Lemma everywhere F rho rho' k r x : In (k, r) (ff_rows F) ->
  (Cmod (Cminus (formula_at F rho r x) (formula_at F rho' r x)) ^ 2 <= INR (2 * ff_M F + 1) * coefs_apart F rho rho')%R.
Proof.
  intros I. rewrite formula_minus. eapply Rle_trans; [apply Cmod_Csum_sq|]. rewrite length_freqs. apply Rmult_le_compat_l; [apply pos_INR|].
  apply Rle_trans with (rsum (fun m => (Cmod (Cminus (eval rho (fcell (ff_M F) r m)) (eval rho' (fcell (ff_M F) r m))) ^ 2)%R) (freqs (ff_M F))).
  - apply Req_le. apply rsum_ext. intros m _. rewrite Cmod_mult, Cmod_cis, Rmult_1_r. reflexivity.
  - refine (rsum_member (fun kr => rsum (fun m => (Cmod (Cminus (eval rho (fcell (ff_M F) (snd kr) m)) (eval rho' (fcell (ff_M F) (snd kr) m))) ^ 2)%R) (freqs (ff_M F))) _ (k, r) _ I).
    intros kr. apply rsum_nonneg. intros m. apply pow2_ge_0.
Qed.
Lemma misfit_pos F D rho : (0 <= misfit F D rho)%R.
Proof. unfold misfit. apply rsum_nonneg. intros kr. apply rsum_nonneg. intros m. apply pow2_ge_0. Qed.

(** * Fits of Fourier data and of measured points *)

Section Truth.
Variable kev : code -> code.
Hypothesis KEV : sound_kev kev.
Variable F : fform.
Variable D : fdat.
Variable free : list sym.
Variable ts : list R.
Hypothesis Ma : matching F D.
Hypothesis FF : ff_free_symbols F = Ok free.
Hypothesis NE : free <> [].
Hypothesis Lt : length ts = length free.

(** Near [ts]: a misfit no larger, and curves close to each other. *)
Definition near (x : list R) (xd : list (sym * R)) : Prop :=
  xd = combine free x /\ length x = length free /\
  (misfit F D (reading free x) <= misfit F D (reading free ts))%R /\
  (forall n, 2 * ff_M F < n -> (apart F (reading free x) (reading free ts) n <= 4 * misfit F D (reading free ts))%R) /\
  (forall k r phi, In (k, r) (ff_rows F) ->
    (Cmod (Cminus (formula_at F (reading free x) r phi) (formula_at F (reading free ts) r phi)) ^ 2 <= 4 * INR (2 * ff_M F + 1) * misfit F D (reading free ts))%R).
Lemma truth_cost chunk save fs : exists fs1 lib c, cost_of kev F D free chunk save None fs = (fs1, Ok lib) /\ call lib ts = Some c /\
  (forall xs v, length xs = length free -> call lib xs = Some v -> (0 <= v)%R) /\ forall x xd, best free lib c x xd -> near x xd.
Proof.
  pose proof (free_argument_list F free FF) as A.
  assert (Ne : chunk = true -> ff_rows F <> []). { intros _. destruct free as [|s l]; [congruence|]. apply (free_rows F s l FF). }
  destruct (cost_ok kev KEV F D free chunk save fs Ma A Ne) as (lib & G & V).
  assert (V' : forall xs, length xs = length free -> call lib xs = Some (misfit F D (reading free xs))).
  { intros xs L. apply V; [lia|]. apply reading_assigns; [apply A|lia]. }
  exists (save_lib save lib fs), lib, (misfit F D (reading free ts)). split; [exact G|]. split; [apply V', Lt|]. split.
  - intros xs v L C. rewrite (V' xs L) in C. injection C as <-. apply misfit_pos.
  - intros x xd (X & L & u & C & Le). rewrite (V' x L) in C. injection C as <-. split; [exact X|]. split; [exact L|]. split; [exact Le|].
    pose proof (coefs_between F D (reading free x) (reading free ts)) as B. split.
    + intros n N. rewrite (apart_coefs F _ _ n N). lra.
    + intros k r phi I. eapply Rle_trans; [apply (everywhere F _ _ k r phi I)|]. pose proof (pos_INR (2 * ff_M F + 1)). nra.
Qed.
Lemma truth_least_squares optimiser guess bounds chunk save kw fs fs' x xd : finds_minimum optimiser -> bounds_hold bounds free ts ->
  least_squares_fit kev optimiser F D guess bounds chunk save None kw fs = (fs', Ok (Fitted x xd)) -> near x xd.
Proof.
  intros O B X. destruct (truth_cost chunk save fs) as (fs1 & lib & c & G & C & P & H). apply H.
  exact (best_least_squares kev F D free chunk save fs fs1 lib ts c FF NE G Lt C P optimiser guess bounds kw fs' x xd O B X).
Qed.
Lemma truth_dual_annealing optimiser guess bounds chunk save kw fs fs' x xd : finds_minimum optimiser -> bounds_hold bounds free ts ->
  dual_annealing_fit kev optimiser F D guess bounds chunk save None kw fs = (fs', Ok (Fitted x xd)) -> near x xd.
Proof.
  intros O B X. destruct (truth_cost chunk save fs) as (fs1 & lib & c & G & C & P & H). apply H.
  exact (best_dual_annealing kev F D free chunk save fs fs1 lib ts c FF NE G Lt C P optimiser guess bounds kw fs' x xd O B X).
Qed.
Lemma truth_basinhopping optimiser guess own chunk save kw fs fs' kw' x xd : finds_minimum optimiser ->
  basinhopping_fit kev optimiser F D guess None own chunk save None kw fs = (fs', kw', Ok (Fitted x xd)) -> near x xd.
Proof.
  intros O X. destruct (truth_cost chunk save fs) as (fs1 & lib & c & G & C & P & H). apply H.
  exact (best_basinhopping kev F D free chunk save fs fs1 lib ts c FF NE G Lt C P optimiser guess own kw fs' kw' x xd O X).
Qed.
Lemma best_near lib x xd : computes F D free lib -> (xd = combine free x /\ length x = length free /\ exists u, call lib x = Some u /\ (u <= misfit F D (reading free ts))%R) -> near x xd.
Proof.
  intros V (X & L & u & C & Le). pose proof (free_argument_list F free FF) as A.
  rewrite (V x (reading free x)) in C by (first [lia|apply reading_assigns; [apply A|lia]]). injection C as <-.
  split; [exact X|]. split; [exact L|]. split; [exact Le|]. pose proof (coefs_between F D (reading free x) (reading free ts)) as B. split.
  - intros n N. rewrite (apart_coefs F _ _ n N). lra.
  - intros k r phi I. eapply Rle_trans; [apply (everywhere F _ _ k r phi I)|]. pose proof (pos_INR (2 * ff_M F + 1)). nra.
Qed.
Lemma truth_bounded optimiser guess bounds own chunk save kw fs fs' kw' x xd : finds_bounded optimiser ->
  dget "minimizer_kwargs"%string kw = None -> dget "bounds"%string own = None -> bounds_hold (given_bounds bounds) free ts ->
  basinhopping_fit kev optimiser F D guess bounds own chunk save None kw fs = (fs', kw', Ok (Fitted x xd)) -> near x xd.
Proof.
  intros O Nk No B X. pose proof (free_argument_list F free FF) as A.
  assert (Ne : chunk = true -> ff_rows F <> []). { intros _. destruct free as [|s l]; [congruence|]. apply (free_rows F s l FF). }
  destruct (cost_ok kev KEV F D free chunk save fs Ma A Ne) as (lib & G & V).
  unfold basinhopping_fit, cost_of in X. rewrite FF in X. destruct free as [|s l] eqn:Fr; [congruence|]. rewrite <- Fr in *. clear s l Fr. rewrite G in X.
  destruct (basinhop _ _ _ _ _ _ _) as (kw1, r) eqn:H. injection X as _ -> ->. apply (best_near lib); [exact V|].
  apply (best_hop F free optimiser (Scalar (call lib)) (call lib) guess bounds own kw kw' x xd ts); try assumption; [left; reflexivity|].
  apply V; [lia|]. apply reading_assigns; [apply A|lia].
Qed.
Lemma truth_jac optimiser guess bounds own chunk save gp kw fs fs' kw' x xd : finds_bounded optimiser ->
  dget "minimizer_kwargs"%string kw = None -> dget "bounds"%string own = None -> bounds_hold (given_bounds bounds) free ts ->
  basinhopping_fit_jac kev optimiser F D guess bounds own chunk save gp None None kw fs = (fs', kw', Ok (Fitted x xd)) -> near x xd.
Proof.
  intros O Nk No B X. pose proof (free_argument_list F free FF) as A.
  unfold basinhopping_fit_jac in X. rewrite FF in X. destruct free as [|s l] eqn:Fr; [congruence|]. rewrite <- Fr in *. clear s l Fr.
  destruct chunk; [discriminate X|]. destruct (energy_and_denergy kev F D (Some free) false save gp fs) as (fs1, [(lib, ls)|e]) eqn:G; [|discriminate X].
  destruct (gradient_sound kev KEV F D free save gp fs fs1 lib ls Ma A G) as (_ & V & _).
  destruct (basinhop _ _ _ _ _ _ _) as (kw1, r) eqn:H. injection X as _ -> ->. apply (best_near lib); [exact V|].
  apply (best_hop F free optimiser (WithGradient (call lib) (call_all ls)) (call lib) guess bounds (own ++ [("jac"%string, VTrue)])%list kw kw' x xd ts); try assumption.
  - right. exists (call_all ls). reflexivity.
  - apply V; [lia|]. apply reading_assigns; [apply A|lia].
  - rewrite dget_app, No. reflexivity.
Qed.
End Truth.

(** * Simulated data: what is near the truth simulates the same data *)

Lemma near_closes ev kev F d free xs : sound_ev ev -> sound_kev kev -> ff_reachable ev F -> symbolic F -> ff_M F = 16 -> ff_free_symbols F = Ok free -> free <> [] ->
  parameter_values d -> listed d free xs ->
  exists D, fform_to_fdat ev F d = Ok D /\ matching F D /\ forall x xd, near F D free xs x xd -> closes ev F free D x xd.
Proof.
  intros EV KEV RF SF MF FF NE PD LD. pose proof (free_argument_list F free FF) as A.
  destruct (loop_cost ev EV kev KEV F d free xs RF SF MF FF NE PD LD false None []) as (D & lib & E & G & Z & H).
  assert (Ma : matching F D).
  { destruct (simulated_matching ev EV F d (ff_reachable_wf ev F RF) SF MF) as (D1 & E1 & Ma & _); [|congruence].
    intros s O. apply (proj2 (proj2 (listed_assigns d free xs (proj1 PD) LD))). apply (proj2 A). exact O. }
  exists D. split; [exact E|]. split; [exact Ma|]. intros x xd (X & L & Le & _ & _).
  destruct (cost_ok kev KEV F D free false None [] Ma A ltac:(discriminate)) as (lib1 & G1 & V). unfold cost_of in G. assert (lib1 = lib) by congruence. subst lib1.
  pose proof (length_xs d free xs LD) as Lx.
  assert (V' : forall xs, length xs = length free -> call lib xs = Some (misfit F D (reading free xs))) by (intros ys Ly; apply V; [lia|apply reading_assigns; [apply A|lia]]).
  rewrite (V' xs Lx) in Z. injection Z as Z. rewrite Z in Le. destruct (H x _ L (V' x L) Le) as (_ & Q). rewrite X. split; [reflexivity|]. split; [exact L|exact Q].
Qed.
