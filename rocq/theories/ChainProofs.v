(** Proofs for C141: series of fits. *)
From Coq Require Import String List Arith ZArith Bool Lia Reals Lra.
From Coquelicot Require Import Complex.
From Verif Require Import PyBase CBase Expr ExprProofs SpecFData FDataModel FormModel FitModel SpecFit FitProofs FitProofs2 FitProofs3 FitProofs4 FitProofs5 LoopProofs TruthProofs SpecChain.
Import ListNotations.
Local Open Scope nat_scope.

Lemma reading_dget free (x : list R) s : length x = length free -> valued (combine free x) s = reading free x s.
Proof.
  revert x. induction free as [|f free IH]; intros [|v x] L; try discriminate L; [reflexivity|]. unfold valued in *. cbn [combine dget reading].
  change (@eqb sym _ s f) with (sym_eqb s f). destruct (sym_eqb s f); [reflexivity|]. apply IH. injection L as L. exact L.
Qed.
Lemma ordered_reading free g (x0 : list R) s : in_order free g x0 -> In s free -> valued g s = reading free x0 s.
Proof.
  intros O. induction O as [|f v free x0 E O IH]; [intros []|]. intros I. cbn [reading]. destruct (sym_eqb_spec s f) as [->|N].
  - unfold valued. rewrite E. reflexivity.
  - apply IH. destruct I as [I|I]; [congruence|exact I].
Qed.
Lemma misfit_same F D free rho rho' : formula_ok F -> argument_list F free -> (forall s, In s free -> rho s = rho' s) -> misfit F D rho = misfit F D rho'.
Proof.
  intros FO (_ & A) E. unfold misfit. apply rsum_ext. intros (k, r) I. apply rsum_ext. intros m J. cbn [fst snd]. do 3 f_equal. apply eval_ext. intros s S. apply E, A.
  exists k, r, (fcell (ff_M F) r m). split; [exact I|]. split; [apply (fcell_In F k r m FO I J)|exact S].
Qed.
Lemma combine_in_order free (x : list R) : NoDup free -> length x = length free -> in_order free (combine free x) x.
Proof.
  intros N L. assert (H : forall i s v, nth_error free i = Some s -> nth_error x i = Some v -> dget s (combine free x) = Some v).
  { revert x L. induction N as [|f free Nf N IH]; intros [|w x] L i s v Ef Ex; try discriminate L; [destruct i; discriminate Ef|]. cbn [combine dget].
    destruct i as [|i]; cbn [nth_error] in Ef, Ex.
    - injection Ef as <-. injection Ex as <-. destruct (eqb_spec f f); [reflexivity|congruence].
    - destruct (eqb_spec s f) as [->|]; [exfalso; apply Nf; eapply nth_error_In; exact Ef|]. injection L as L. exact (IH x L i s v Ef Ex). }
  clear N. revert H L. generalize (combine free x) as d. intros d H. revert x H. induction free as [|f free IH]; intros [|w x] H L; try discriminate L; constructor.
  - exact (H 0 f w eq_refl eq_refl).
  - apply IH; [|injection L as L; exact L]. intros i s v Ef Ex. exact (H (S i) s v Ef Ex).
Qed.

Section Chain.
Variable kev : code -> code.
Hypothesis KEV : sound_kev kev.
Variable F : fform.
Variable D : fdat.
Variable free : list sym.
Hypothesis Ma : matching F D.
Hypothesis FF : ff_free_symbols F = Ok free.

(** What a fit makes of its start: the parameters of the formula are found in it, and
    the answer is no worse. *)
Definition no_worse (guess : list (sym * R)) (x : list R) (xd : list (sym * R)) : Prop :=
  exists x0, in_order free guess x0 /\ xd = combine free x /\ length x = length free /\ (misfit F D (reading free x) <= misfit F D (reading free x0))%R.

Lemma answer lib o guess x0 x xd optimiser bs own kw : computes F D free lib -> value o = call lib \/ value o = root (call lib) -> x0_of free guess = Ok x0 ->
  improves optimiser -> optimiser o x0 bs own kw = Ok x -> xdict_of free x = Ok xd -> no_worse guess x xd.
Proof.
  intros V Vo X0 Im' Op Xd. pose proof (free_argument_list F free FF) as A. apply x0_of_ok in X0. exists x0. pose proof (in_order_length _ _ _ X0) as L0.
  destruct (Im' o x0 bs own kw x Op) as (L & H). rewrite L0 in L. split; [exact X0|]. split; [apply xdict_combine; [apply A|exact L|exact Xd]|]. split; [exact L|].
  assert (V' : forall xs, length xs = length free -> call lib xs = Some (misfit F D (reading free xs))) by (intros ys Ly; apply V; [lia|apply reading_assigns; [apply A|lia]]).
  destruct Vo as [Vo|Vo]; rewrite Vo in H.
  - destruct (H _ (V' x0 L0)) as (u & U & Le). rewrite (V' x L) in U. injection U as <-. exact Le.
  - unfold root in H. rewrite (V' x0 L0), (V' x L) in H. cbn [option_map] in H. destruct (H _ eq_refl) as (u & U & Le). injection U as <-.
    apply sqrt_le_0; [apply misfit_pos|apply misfit_pos|exact Le].
Qed.
Lemma fit_no_worse guess c fs fs' x xd : improves (optimiser_of c) -> fit kev F D guess c fs = (fs', Ok (Fitted x xd)) -> no_worse guess x xd.
Proof.
  intros O X. pose proof (free_argument_list F free FF) as A.
  assert (Ne : forall s l, free = s :: l -> forall chunk, chunk = true -> ff_rows F <> []) by (intros s l E chunk _; apply (free_rows F s l); rewrite <- E; exact FF).
  destruct c as [o b ch sv kw|o b ch sv kw|o b own ch sv kw|o b own ch sv gp kw]; cbn [fit optimiser_of] in *.
  - unfold least_squares_fit in X. rewrite FF in X. destruct free as [|s l] eqn:Fr; [discriminate X|]. rewrite <- Fr in *.
    destruct (cost_ok kev KEV F D free ch sv fs Ma A (Ne s l Fr ch)) as (lib & G & V). unfold cost_of in X. rewrite G in X. clear s l Fr Ne. injection X as _ X. cbn [bind] in X.
    destruct (x0_of free guess) as [x0|] eqn:X0; [|discriminate X]. cbn [bind] in X.
    destruct (match b with None => Ok None | Some b => do l <- x0_of free b; Ok (Some l) end) as [bs|]; [|discriminate X]. cbn [bind] in X.
    destruct (no_clash _ kw) as [u0|]; [|discriminate X]. cbn [bind] in X.
    destruct (o _ _ _ _ _) as [x1|] eqn:Op; [|discriminate X]. cbn [bind] in X.
    destruct (xdict_of free x1) as [xd1|] eqn:Xd; [|discriminate X]. cbn [bind] in X. injection X as -> ->.
    exact (answer lib (Scalar (root (call lib))) guess x0 x xd o bs [] kw V (or_intror eq_refl) X0 O Op Xd).
  - unfold dual_annealing_fit in X. rewrite FF in X. destruct free as [|s l] eqn:Fr; [discriminate X|]. rewrite <- Fr in *.
    destruct (cost_ok kev KEV F D free ch sv fs Ma A (Ne s l Fr ch)) as (lib & G & V). unfold cost_of in X. rewrite G in X. clear s l Fr Ne. injection X as _ X. cbn [bind] in X.
    destruct (x0_of free guess) as [x0|] eqn:X0; [|discriminate X]. cbn [bind] in X.
    destruct (match b with None => Ok None | Some b => do l <- x0_of free b; Ok (Some l) end) as [bs|]; [|discriminate X]. cbn [bind] in X.
    destruct (o _ _ _ _ _) as [x1|] eqn:Op; [|discriminate X]. cbn [bind] in X.
    destruct (xdict_of free x1) as [xd1|] eqn:Xd; [|discriminate X]. cbn [bind] in X. injection X as -> ->.
    exact (answer lib (Scalar (call lib)) guess x0 x xd o bs [] kw V (or_introl eq_refl) X0 O Op Xd).
  - unfold basinhopping_fit in X. rewrite FF in X. destruct free as [|s l] eqn:Fr; [discriminate X|]. rewrite <- Fr in *.
    destruct (cost_ok kev KEV F D free ch sv fs Ma A (Ne s l Fr ch)) as (lib & G & V). unfold cost_of in X. rewrite G in X. clear s l Fr Ne.
    destruct (basinhop _ _ _ _ _ _ _) as (kw1, r) eqn:H. cbn [fst snd] in X. injection X as _ ->. unfold basinhop in H.
    destruct (x0_of free guess) as [x0|] eqn:X0; [|discriminate H].
    destruct (match b with Some (Some b) => _ | Some None => _ | None => _ end) as [bo|]; [|discriminate H].
    destruct (take_minimizer _ kw) as [kw2 [mk|]]; [|discriminate H]. cbn [bind] in H. destruct (no_clash _ kw2) as [u0|]; [|discriminate H]. cbn [bind] in H.
    destruct (o _ _ _ _ _) as [x1|] eqn:Op; [|discriminate H]. cbn [bind] in H.
    destruct (xdict_of free x1) as [xd1|] eqn:Xd; [|discriminate H]. cbn [bind] in H. injection H as _ -> ->.
    exact (answer lib (Scalar (call lib)) guess x0 x xd o None mk kw2 V (or_introl eq_refl) X0 O Op Xd).
  - unfold basinhopping_fit_jac in X. rewrite FF in X. destruct free as [|s l] eqn:Fr; [discriminate X|]. rewrite <- Fr in *. clear s l Fr Ne.
    destruct ch; [discriminate X|]. destruct (energy_and_denergy kev F D (Some free) false sv gp fs) as (fs1, [(lib, ls)|e]) eqn:G; [|discriminate X].
    destruct (gradient_sound kev KEV F D free sv gp fs fs1 lib ls Ma A G) as (_ & V & _).
    destruct (basinhop _ _ _ _ _ _ _) as (kw1, r) eqn:H. cbn [fst snd] in X. injection X as _ ->. unfold basinhop in H.
    destruct (x0_of free guess) as [x0|] eqn:X0; [|discriminate H].
    destruct (match b with Some (Some b) => _ | Some None => _ | None => _ end) as [bo|]; [|discriminate H].
    destruct (take_minimizer _ kw) as [kw2 [mk|]]; [|discriminate H]. cbn [bind] in H. destruct (no_clash _ kw2) as [u0|]; [|discriminate H]. cbn [bind] in H.
    destruct (o _ _ _ _ _) as [x1|] eqn:Op; [|discriminate H]. cbn [bind] in H.
    destruct (xdict_of free x1) as [xd1|] eqn:Xd; [|discriminate H]. cbn [bind] in H. injection H as _ -> ->.
    exact (answer lib (WithGradient (call lib) (call_all ls)) guess x0 x xd o None mk kw2 V (or_introl eq_refl) X0 O Op Xd).
Qed.
Lemma fit_improves guess c fs fs' x xd : improves (optimiser_of c) -> fit kev F D guess c fs = (fs', Ok (Fitted x xd)) ->
  in_order free xd x /\ (misfit F D (valued xd) <= misfit F D (valued guess))%R.
Proof.
  intros O X. destruct (fit_no_worse guess c fs fs' x xd O X) as (x0 & Io & -> & L & Le). pose proof (free_argument_list F free FF) as A.
  split; [apply combine_in_order; [apply A|exact L]|].
  rewrite (misfit_same F D free (valued (combine free x)) (reading free x) (proj1 Ma) A) by (intros s _; apply reading_dget; exact L).
  rewrite (misfit_same F D free (valued guess) (reading free x0) (proj1 Ma) A) by (intros s I; apply (ordered_reading free guess x0 s Io I)). exact Le.
Qed.
Lemma series_improves guess fs cs l : (forall c, In c cs -> improves (optimiser_of c)) -> series kev F D guess fs cs l ->
  forall i xd, nth_error (guess :: l) i = Some xd -> forall j xd', nth_error (guess :: l) j = Some xd' -> i <= j -> (misfit F D (valued xd') <= misfit F D (valued xd))%R.
Proof.
  intros O S. induction S as [g fs|g fs c cs fs' x xd l E S IH]; intros i y Ei j z Ej Le.
  - destruct i as [|[|i]]; [|discriminate Ei|destruct i; discriminate Ei]. destruct j as [|[|j]]; [|discriminate Ej|destruct j; discriminate Ej].
    cbn in Ei, Ej. assert (y = z) by congruence. subst. lra.
  - assert (IH' := IH (fun c I => O c (or_intror I))). destruct (fit_improves g c fs fs' x xd (O c (or_introl eq_refl)) E) as (_ & Le1).
    destruct i as [|i].
    + cbn in Ei. injection Ei as <-. destruct j as [|j]; [cbn in Ej; injection Ej as <-; lra|]. cbn [nth_error] in Ej.
      pose proof (IH' 0 xd eq_refl j z Ej ltac:(lia)). lra.
    + destruct j as [|j]; [lia|]. cbn [nth_error] in Ei, Ej. exact (IH' i y Ei j z Ej ltac:(lia)).
Qed.
End Chain.
