(** Proofs for C141: series of fits with one cost function. *)
From Coq Require Import String List Arith ZArith Bool Lia Reals Lra.
From Coquelicot Require Import Complex.
From Verif Require Import PyBase CBase Expr ExprProofs SpecFData FDataModel FormModel FitModel SpecFit FitProofs FitProofs2 FitProofs3 FitProofs4 FitProofs5 LoopProofs TruthProofs SpecChain ChainProofs SpecChain2.
Import ListNotations.
Local Open Scope nat_scope.

Section Reuse.
Variable kev : code -> code.
Hypothesis KEV : sound_kev kev.
Variable F : fform.
Variable D : fdat.
Variable free : list sym.
Hypothesis Ma : matching F D.
Hypothesis FF : ff_free_symbols F = Ok free.
Variable name : string.

Definition holds_cost (fs : list (string * list code)) : Prop := exists lib, dget name fs = Some lib /\ computes F D free lib.

Lemma saved guess c fs fs' x xd : saves_as c name -> fit kev F D guess c fs = (fs', Ok (Fitted x xd)) -> holds_cost fs'.
Proof.
  intros Sv X. pose proof (free_argument_list F free FF) as A.
  assert (Ne : forall s l, free = s :: l -> forall chunk, chunk = true -> ff_rows F <> []) by (intros s l E chunk _; apply (free_rows F s l); rewrite <- E; exact FF).
  destruct c as [o b ch sv kw|o b ch sv kw|o b own ch sv kw|o b own ch sv gp kw]; cbn [fit saves_as] in *.
  - subst sv. unfold least_squares_fit in X. rewrite FF in X. destruct free as [|s l] eqn:Fr; [discriminate X|]. rewrite <- Fr in *.
    destruct (cost_ok kev KEV F D free ch (Some name) fs Ma A (Ne s l Fr ch)) as (lib & G & V). unfold cost_of in X. rewrite G in X. injection X as <- _.
    exists lib. split; [apply dget_dset_eq|exact V].
  - subst sv. unfold dual_annealing_fit in X. rewrite FF in X. destruct free as [|s l] eqn:Fr; [discriminate X|]. rewrite <- Fr in *.
    destruct (cost_ok kev KEV F D free ch (Some name) fs Ma A (Ne s l Fr ch)) as (lib & G & V). unfold cost_of in X. rewrite G in X. injection X as <- _.
    exists lib. split; [apply dget_dset_eq|exact V].
  - subst sv. unfold basinhopping_fit in X. rewrite FF in X. destruct free as [|s l] eqn:Fr; [discriminate X|]. rewrite <- Fr in *.
    destruct (cost_ok kev KEV F D free ch (Some name) fs Ma A (Ne s l Fr ch)) as (lib & G & V). unfold cost_of in X. rewrite G in X.
    destruct (basinhop _ _ _ _ _ _ _) as (kw1, r). cbn [fst snd] in X. injection X as <- _. exists lib. split; [apply dget_dset_eq|exact V].
  - destruct Sv as (-> & ->). unfold basinhopping_fit_jac in X. rewrite FF in X. destruct free as [|s l] eqn:Fr; [discriminate X|]. rewrite <- Fr in *. clear s l Fr Ne.
    destruct ch; [discriminate X|]. destruct (energy_and_denergy kev F D (Some free) false (Some name) None fs) as (fs1, [(lib, ls)|e]) eqn:G; [|discriminate X].
    destruct (gradient_sound kev KEV F D free (Some name) None fs fs1 lib ls Ma A G) as (Ef & V & _).
    destruct (basinhop _ _ _ _ _ _ _) as (kw1, r). cbn [fst snd] in X. injection X as <- _. exists lib. split; [|exact V].
    subst fs1. assert (P : forall i d, put_grad None i ls d = d) by (clear; induction ls as [|l0 ls IH]; intros i d; cbn; auto). rewrite P. apply dget_dset_eq.
Qed.

Lemma refit_no_worse guess c fs fs' x xd : holds_cost fs -> improves (optimiser_of c) -> refit kev F D guess c name fs = (fs', Ok (Fitted x xd)) -> fs' = fs /\ no_worse F D free guess x xd.
Proof.
  intros (lib & Dg & V) O X. pose proof (free_argument_list F free FF) as A. assert (LF : load_func name fs = Ok lib) by (unfold load_func; rewrite Dg; reflexivity).
  destruct c as [o b ch sv kw|o b ch sv kw|o b own ch sv kw|o b own ch sv gp kw]; cbn [refit optimiser_of] in *.
  - unfold least_squares_fit in X. rewrite FF in X. destruct free as [|s l] eqn:Fr; [discriminate X|]. rewrite <- Fr in *.
    unfold cost_of in X. rewrite LF in X. injection X as <- X. split; [reflexivity|]. cbn [bind] in X.
    destruct (x0_of free guess) as [x0|] eqn:X0; [|discriminate X]. cbn [bind] in X.
    destruct (match b with None => Ok None | Some b => do l <- x0_of free b; Ok (Some l) end) as [bs|]; [|discriminate X]. cbn [bind] in X.
    destruct (no_clash _ kw) as [u0|]; [|discriminate X]. cbn [bind] in X.
    destruct (o _ _ _ _ _) as [x1|] eqn:Op; [|discriminate X]. cbn [bind] in X.
    destruct (xdict_of free x1) as [xd1|] eqn:Xd; [|discriminate X]. cbn [bind] in X. injection X as -> ->.
    exact (answer F D free FF lib (Scalar (root (call lib))) guess x0 x xd o bs [] kw V (or_intror eq_refl) X0 O Op Xd).
  - unfold dual_annealing_fit in X. rewrite FF in X. destruct free as [|s l] eqn:Fr; [discriminate X|]. rewrite <- Fr in *.
    unfold cost_of in X. rewrite LF in X. injection X as <- X. split; [reflexivity|]. cbn [bind] in X.
    destruct (x0_of free guess) as [x0|] eqn:X0; [|discriminate X]. cbn [bind] in X.
    destruct (match b with None => Ok None | Some b => do l <- x0_of free b; Ok (Some l) end) as [bs|]; [|discriminate X]. cbn [bind] in X.
    destruct (o _ _ _ _ _) as [x1|] eqn:Op; [|discriminate X]. cbn [bind] in X.
    destruct (xdict_of free x1) as [xd1|] eqn:Xd; [|discriminate X]. cbn [bind] in X. injection X as -> ->.
    exact (answer F D free FF lib (Scalar (call lib)) guess x0 x xd o bs [] kw V (or_introl eq_refl) X0 O Op Xd).
  - unfold basinhopping_fit in X. rewrite FF in X. destruct free as [|s l] eqn:Fr; [discriminate X|]. rewrite <- Fr in *.
    unfold cost_of in X. rewrite LF in X.
    destruct (basinhop _ _ _ _ _ _ _) as (kw1, r) eqn:H. cbn [fst snd] in X. injection X as <- ->. split; [reflexivity|]. unfold basinhop in H.
    destruct (x0_of free guess) as [x0|] eqn:X0; [|discriminate H].
    destruct (match b with Some (Some b) => _ | Some None => _ | None => _ end) as [bo|]; [|discriminate H].
    destruct (take_minimizer _ kw) as [kw2 [mk|]]; [|discriminate H]. cbn [bind] in H. destruct (no_clash _ kw2) as [u0|]; [|discriminate H]. cbn [bind] in H.
    destruct (o _ _ _ _ _) as [x1|] eqn:Op; [|discriminate H]. cbn [bind] in H.
    destruct (xdict_of free x1) as [xd1|] eqn:Xd; [|discriminate H]. cbn [bind] in H. injection H as _ -> ->.
    exact (answer F D free FF lib (Scalar (call lib)) guess x0 x xd o None mk kw2 V (or_introl eq_refl) X0 O Op Xd).
  - unfold basinhopping_fit_jac in X. rewrite FF in X. destruct free as [|s l] eqn:Fr; [discriminate X|]. rewrite <- Fr in *. clear s l Fr.
    assert (M : exists lib' ls, (match gp with Some prefix => (fs, load_energy_and_denergy name prefix fs) | None => energy_and_denergy kev F D (Some free) ch None None fs end) = (fs, Ok (lib', ls)) /\ computes F D free lib').
    { destruct gp as [p|].
      - exists lib. eexists. split; [|exact V]. unfold load_energy_and_denergy. rewrite LF. reflexivity.
      - destruct ch; [discriminate X|]. destruct (energy_and_denergy kev F D (Some free) false None None fs) as (fs1, [(lib', ls)|e]) eqn:G; [|discriminate X].
        destruct (gradient_sound kev KEV F D free None None fs fs1 lib' ls Ma A G) as (Ef & V' & _). exists lib', ls. split; [|exact V'].
        assert (P : forall i d, put_grad None i ls d = d) by (clear; induction ls as [|l0 ls IH]; intros i d; cbn; auto). rewrite P in Ef. cbn [save_lib] in Ef. subst fs1. reflexivity. }
    destruct M as (lib' & ls & M & V'). rewrite M in X. clear lib LF V Dg.
    destruct (basinhop _ _ _ _ _ _ _) as (kw1, r) eqn:H. cbn [fst snd] in X. injection X as <- ->. split; [reflexivity|]. unfold basinhop in H.
    destruct (x0_of free guess) as [x0|] eqn:X0; [|discriminate H].
    destruct (match b with Some (Some b) => _ | Some None => _ | None => _ end) as [bo|]; [|discriminate H].
    destruct (take_minimizer _ kw) as [kw2 [mk|]]; [|discriminate H]. cbn [bind] in H. destruct (no_clash _ kw2) as [u0|]; [|discriminate H]. cbn [bind] in H.
    destruct (o _ _ _ _ _) as [x1|] eqn:Op; [|discriminate H]. cbn [bind] in H.
    destruct (xdict_of free x1) as [xd1|] eqn:Xd; [|discriminate H]. cbn [bind] in H. injection H as _ -> ->.
    exact (answer F D free FF lib' (WithGradient (call lib') (call_all ls)) guess x0 x xd o None mk kw2 V' (or_introl eq_refl) X0 O Op Xd).
Qed.
Lemma no_worse_misfit guess x xd : no_worse F D free guess x xd -> (misfit F D (valued xd) <= misfit F D (valued guess))%R.
Proof.
  intros (x0 & Io & -> & L & Le). pose proof (free_argument_list F free FF) as A.
  rewrite (misfit_same F D free (valued (combine free x)) (reading free x) (proj1 Ma) A) by (intros s _; apply reading_dget; exact L).
  rewrite (misfit_same F D free (valued guess) (reading free x0) (proj1 Ma) A) by (intros s I; apply (ordered_reading free guess x0 s Io I)). exact Le.
Qed.
Lemma reuse_improves guess fs cs l : holds_cost fs -> (forall c, In c cs -> improves (optimiser_of c)) -> reuse kev F D name guess fs cs l ->
  forall i xd, nth_error (guess :: l) i = Some xd -> forall j xd', nth_error (guess :: l) j = Some xd' -> i <= j -> (misfit F D (valued xd') <= misfit F D (valued xd))%R.
Proof.
  intros Hc O S. induction S as [g fs|g fs c cs fs' x xd l E S IH]; intros i y Ei j z Ej Le.
  - destruct i as [|[|i]]; [|discriminate Ei|destruct i; discriminate Ei]. destruct j as [|[|j]]; [|discriminate Ej|destruct j; discriminate Ej].
    cbn in Ei, Ej. assert (y = z) by congruence. subst. lra.
  - destruct (refit_no_worse g c fs fs' x xd Hc (O c (or_introl eq_refl)) E) as (-> & Nw). apply no_worse_misfit in Nw.
    assert (IH' := IH Hc (fun c I => O c (or_intror I))).
    destruct i as [|i].
    + cbn in Ei. injection Ei as <-. destruct j as [|j]; [cbn in Ej; injection Ej as <-; lra|]. cbn [nth_error] in Ej.
      pose proof (IH' 0 xd eq_refl j z Ej ltac:(lia)). lra.
    + destruct j as [|j]; [lia|]. cbn [nth_error] in Ei, Ej. exact (IH' i y Ei j z Ej ltac:(lia)).
Qed.
Lemma reuse_saved guess c fs fs' x xd cs l : saves_as c name -> (forall c', In c' (c :: cs) -> improves (optimiser_of c')) ->
  fit kev F D guess c fs = (fs', Ok (Fitted x xd)) -> reuse kev F D name xd fs' cs l ->
  (misfit F D (valued xd) <= misfit F D (valued guess))%R /\
  forall i j y z, i <= j -> nth_error (xd :: l) i = Some y -> nth_error (xd :: l) j = Some z -> (misfit F D (valued z) <= misfit F D (valued y))%R.
Proof.
  intros Sv O X S. split; [exact (proj2 (fit_improves kev KEV F D free Ma FF guess c fs fs' x xd (O c (or_introl eq_refl)) X))|].
  intros i j y z Le Ei Ej. exact (reuse_improves xd fs' cs l (saved guess c fs fs' x xd Sv X) (fun c' I => O c' (or_intror I)) S i y Ei j z Ej Le).
Qed.
End Reuse.
