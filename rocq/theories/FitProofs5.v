(** Fits: what the optimiser is given and what is done with its answer. *)
From Coq Require Import String Ascii List Arith ZArith Bool Lia Reals QArith Qreals Lra Permutation.
From Coquelicot Require Import Complex.
Import ListNotations.
From Verif Require Import PyBase CBase Expr ExprProofs DataModel FDataModel SpecFData FormModel SpecForm FormProofs2 FitModel SpecFit FitProofs FitProofs2 FitProofs3 FitProofs4.
Local Open Scope nat_scope.

Lemma existsb_absent (ks : list string) (kw : list (string * val)) : (forall n, In n ks -> dget n kw = None) -> existsb (fun n => dmem n kw) ks = false.
Proof.
  intros H. destruct (existsb (fun n => dmem n kw) ks) eqn:E; [|reflexivity]. exfalso. apply existsb_exists in E as (n & I & X).
  unfold dmem in X. rewrite (H n I) in X. discriminate.
Qed.
Lemma no_clash_ok ks kw : (forall n, In n ks -> dget n kw = None) -> no_clash ks kw = Ok tt.
Proof. intros H. unfold no_clash. rewrite existsb_absent by exact H. reflexivity. Qed.

Lemma free_rows F s free : ff_free_symbols F = Ok (s :: free) -> ff_rows F <> [].
Proof. intros E X. unfold ff_free_symbols in E. rewrite X in E. cbn in E. discriminate. Qed.

Section Fits.
Variable kev : code -> code.
Hypothesis KEV : sound_kev kev.

(** The cost function used by a fit *)
Lemma cost_of_made F D free chunk save fs : matching F D -> ff_free_symbols F = Ok free -> free <> [] ->
  exists lib, cost_of kev F D free chunk save None fs = (save_lib save lib fs, Ok lib) /\ computes F D free lib.
Proof.
  intros Ma Ef NE. unfold cost_of. apply (cost_ok kev KEV); [exact Ma|apply free_argument_list; exact Ef|].
  intros _. destruct free as [|s free]; [congruence|]. apply (free_rows F s free Ef).
Qed.

Lemma bounds_res {V} free (b : option (list (sym * V))) l : bounds_ok free b l ->
  (match b with None => Ok None | Some b => do l <- x0_of free b; Ok (Some l) end) = Ok l.
Proof. destruct b as [d|]; cbn [bounds_ok]; [intros (v & -> & I); apply x0_of_ok in I; rewrite I; reflexivity|intros ->; reflexivity]. Qed.

Lemma least_squares_run F D guess bounds chunk save kw fs free x0 bs : matching F D -> ff_free_symbols F = Ok free -> free <> [] ->
  in_order free guess x0 -> bounds_ok free bounds bs -> (forall n, In n (ls_reserved bounds) -> dget n kw = None) ->
  exists lib obj, computes F D free lib /\ computes_root F D free obj /\ forall optimiser,
    (forall x, optimiser (Scalar obj) x0 bs [] kw = Ok x -> length x = length free ->
       least_squares_fit kev optimiser F D guess bounds chunk save None kw fs = (save_lib save lib fs, Ok (Fitted x (combine free x)))) /\
    (forall e, optimiser (Scalar obj) x0 bs [] kw = Raise e ->
       least_squares_fit kev optimiser F D guess bounds chunk save None kw fs = (save_lib save lib fs, Raise e)).
Proof.
  intros Ma Ef NE G B K. destruct (cost_of_made F D free chunk save fs Ma Ef NE) as (lib & Ec & Cp). exists lib, (root (call lib)). split; [exact Cp|].
  split; [intros xs rho L As; unfold root; rewrite (Cp xs rho L As); reflexivity|].
  intros optimiser. unfold least_squares_fit. rewrite Ef. destruct free as [|s free]; [congruence|]. rewrite Ec. cbn [bind].
  apply x0_of_ok in G. rewrite G. cbn [bind]. rewrite (bounds_res _ _ _ B). cbn [bind].
  rewrite no_clash_ok by (destruct bounds; exact K). cbn [bind]. split.
  - intros x Ex L. rewrite Ex. cbn [bind]. destruct (xdict_exists (s :: free) x L) as (xd & Ed). rewrite Ed. cbn [bind].
    rewrite (xdict_combine (s :: free) x xd); [reflexivity|apply (free_argument_list F (s :: free) Ef)|exact L|exact Ed].
  - intros e Ex. rewrite Ex. reflexivity.
Qed.
Lemma dual_annealing_run F D guess bounds chunk save kw fs free x0 bs : matching F D -> ff_free_symbols F = Ok free -> free <> [] ->
  in_order free guess x0 -> bounds_ok free bounds bs ->
  exists lib, computes F D free lib /\ forall optimiser,
    (forall x, optimiser (Scalar (call lib)) x0 bs [] kw = Ok x -> length x = length free ->
       dual_annealing_fit kev optimiser F D guess bounds chunk save None kw fs = (save_lib save lib fs, Ok (Fitted x (combine free x)))) /\
    (forall e, optimiser (Scalar (call lib)) x0 bs [] kw = Raise e ->
       dual_annealing_fit kev optimiser F D guess bounds chunk save None kw fs = (save_lib save lib fs, Raise e)).
Proof.
  intros Ma Ef NE G B. destruct (cost_of_made F D free chunk save fs Ma Ef NE) as (lib & Ec & Cp). exists lib. split; [exact Cp|].
  intros optimiser. unfold dual_annealing_fit. rewrite Ef. destruct free as [|s free]; [congruence|]. rewrite Ec. cbn [bind].
  apply x0_of_ok in G. rewrite G. cbn [bind]. rewrite (bounds_res _ _ _ B). cbn [bind]. split.
  - intros x Ex L. rewrite Ex. cbn [bind]. destruct (xdict_exists (s :: free) x L) as (xd & Ed). rewrite Ed. cbn [bind].
    rewrite (xdict_combine (s :: free) x xd); [reflexivity|apply (free_argument_list F (s :: free) Ef)|exact L|exact Ed].
  - intros e Ex. rewrite Ex. reflexivity.
Qed.

(** Local options of the basinhopping fits *)
Lemma basinhop_run optimiser free obj guess bounds own kw x0 bo : NoDup free -> in_order free guess x0 -> bound_option free bounds bo ->
  dget "minimizer_kwargs"%string kw = None -> (forall n, In n bh_reserved -> dget n kw = None) ->
  (forall x, optimiser obj x0 None (own ++ bo)%list kw = Ok x -> length x = length free ->
     basinhop optimiser free obj guess bounds own kw = (kw, Ok (Fitted x (combine free x)))) /\
  (forall e, optimiser obj x0 None (own ++ bo)%list kw = Raise e -> basinhop optimiser free obj guess bounds own kw = (kw, Raise e)).
Proof.
  intros N G B Mk K. unfold basinhop. apply x0_of_ok in G. rewrite G.
  assert (Eb : match bounds with
             | Some (Some b) => do l <- x0_of free b; Ok [("bounds"%string, VBounds (Some l))]
             | Some None => Ok [("bounds"%string, VBounds None)]
             | None => Ok []
             end = Ok bo).
  { destruct bounds as [[d|]|]; cbn [bound_option] in B; [destruct B as (l & -> & I); apply x0_of_ok in I; rewrite I; reflexivity|subst; reflexivity|subst; reflexivity]. }
  rewrite Eb. unfold take_minimizer. rewrite Mk. cbn [bind]. rewrite no_clash_ok by exact K. cbn [bind]. split.
  - intros x Ex L. rewrite Ex. cbn [bind]. destruct (xdict_exists free x L) as (xd & Ed). rewrite Ed. cbn [bind]. rewrite (xdict_combine free x xd N L Ed). reflexivity.
  - intros e Ex. rewrite Ex. reflexivity.
Qed.
Lemma basinhopping_run F D guess bounds own chunk save kw fs free x0 bo : matching F D -> ff_free_symbols F = Ok free -> free <> [] ->
  in_order free guess x0 -> bound_option free bounds bo -> (forall n, In n bh_reserved -> dget n kw = None) ->
  exists lib, computes F D free lib /\ forall optimiser,
    (forall x, optimiser (Scalar (call lib)) x0 None (own ++ bo)%list kw = Ok x -> length x = length free ->
       basinhopping_fit kev optimiser F D guess bounds own chunk save None kw fs = (save_lib save lib fs, kw, Ok (Fitted x (combine free x)))) /\
    (forall e, optimiser (Scalar (call lib)) x0 None (own ++ bo)%list kw = Raise e ->
       basinhopping_fit kev optimiser F D guess bounds own chunk save None kw fs = (save_lib save lib fs, kw, Raise e)).
Proof.
  intros Ma Ef NE G B K. destruct (cost_of_made F D free chunk save fs Ma Ef NE) as (lib & Ec & Cp). exists lib. split; [exact Cp|].
  intros optimiser. destruct (basinhop_run optimiser free (Scalar (call lib)) guess bounds own kw x0 bo) as (R1 & R2); auto.
  { apply (free_argument_list F free Ef). }
  { apply K. cbn. tauto. }
  unfold basinhopping_fit. rewrite Ef. destruct free as [|s free]; [congruence|]. rewrite Ec. split.
  - intros x Ex L. rewrite (R1 x Ex L). reflexivity.
  - intros e Ex. rewrite (R2 e Ex). reflexivity.
Qed.

Lemma call_all_gradient F D free ls xs : gradient F D free ls -> length xs = length free ->
  exists g, call_all ls xs = Some g /\ length g = length free /\
    forall i gi, nth_error g i = Some gi -> derivable_pt_lim (fun t => misfit F D (reading free (set_nth i t xs))) (nth i xs 0%R) gi.
Proof.
  intros (L & H) Lx.
  assert (X : forall ls j, (forall i lib, nth_error ls i = Some lib -> exists g, call lib xs = Some g /\
      derivable_pt_lim (fun t => misfit F D (reading free (set_nth (j + i) t xs))) (nth (j + i) xs 0%R) g) ->
    exists g, call_all ls xs = Some g /\ length g = length ls /\
      forall i gi, nth_error g i = Some gi -> derivable_pt_lim (fun t => misfit F D (reading free (set_nth (j + i) t xs))) (nth (j + i) xs 0%R) gi).
  { clear. induction ls as [|l ls IH]; intros j H; [exists []; split; [reflexivity|]; split; [reflexivity|]; intros [|i] gi E; discriminate|].
    destruct (H 0 l eq_refl) as (g0 & E0 & D0). destruct (IH (S j)) as (g & Eg & Lg & Dg).
    { intros i lib E. replace (S j + i) with (j + S i) by lia. apply H. exact E. }
    exists (g0 :: g). cbn [call_all]. rewrite E0, Eg. split; [reflexivity|]. split; [cbn [length]; lia|].
    intros [|i] gi E; cbn [nth_error] in E; [injection E as <-; exact D0|]. replace (j + S i) with (S j + i) by lia. apply Dg. exact E. }
  destruct (X ls 0) as (g & Eg & Lg & Dg).
  { intros i lib E. apply (H i lib E xs Lx). }
  exists g. split; [exact Eg|]. split; [congruence|exact Dg].
Qed.

Lemma jac_run F D guess bounds own save gp kw fs free x0 bo : matching F D -> ff_free_symbols F = Ok free -> free <> [] ->
  in_order free guess x0 -> bound_option free bounds bo -> (forall n, In n bh_reserved -> dget n kw = None) -> 
  forall fs' lib ls, energy_and_denergy kev F D (Some free) false save gp fs = (fs', Ok (lib, ls)) ->
  computes F D free lib /\ gradient F D free ls /\ forall optimiser,
    (forall x, optimiser (WithGradient (call lib) (call_all ls)) x0 None ((own ++ [("jac"%string, VTrue)]) ++ bo)%list kw = Ok x -> length x = length free ->
       basinhopping_fit_jac kev optimiser F D guess bounds own false save gp None None kw fs = (fs', kw, Ok (Fitted x (combine free x)))) /\
    (forall e, optimiser (WithGradient (call lib) (call_all ls)) x0 None ((own ++ [("jac"%string, VTrue)]) ++ bo)%list kw = Raise e ->
       basinhopping_fit_jac kev optimiser F D guess bounds own false save gp None None kw fs = (fs', kw, Raise e)).
Proof.
  intros Ma Ef NE G B K fs' lib ls E. destruct (gradient_sound kev KEV F D free save gp fs fs' lib ls Ma (free_argument_list F free Ef) E) as (_ & Cp & Gr).
  split; [exact Cp|]. split; [exact Gr|]. intros optimiser.
  destruct (basinhop_run optimiser free (WithGradient (call lib) (call_all ls)) guess bounds (own ++ [("jac"%string, VTrue)])%list kw x0 bo) as (R1 & R2); auto.
  { apply (free_argument_list F free Ef). }
  { apply K. cbn. tauto. }
  unfold basinhopping_fit_jac. rewrite Ef. destruct free as [|s free]; [congruence|]. rewrite E. split.
  - intros x Ex L. rewrite (R1 x Ex L). reflexivity.
  - intros e Ex. rewrite (R2 e Ex). reflexivity.
Qed.

(** Refusals *)
Lemma fits_refuse optimiser F D guess b1 b2 own chunk save gs load gl kw fs : ff_free_symbols F = Ok [] ->
  least_squares_fit kev optimiser F D guess b1 chunk save load kw fs = (fs, Ok Refused) /\
  basinhopping_fit kev optimiser F D guess b2 own chunk save load kw fs = (fs, kw, Ok Refused) /\
  basinhopping_fit_jac kev optimiser F D guess b2 own chunk save gs load gl kw fs = (fs, kw, Ok Refused) /\
  dual_annealing_fit kev optimiser F D guess b1 chunk save load kw fs = (fs, Ok Refused).
Proof. intros E. unfold least_squares_fit, basinhopping_fit, basinhopping_fit_jac, dual_annealing_fit. rewrite E. auto. Qed.
Lemma fits_numeric optimiser F D guess b1 b2 own chunk save gs load gl kw fs : ~ symbolic F ->
  least_squares_fit kev optimiser F D guess b1 chunk save load kw fs = (fs, Raise AttributeError) /\
  basinhopping_fit kev optimiser F D guess b2 own chunk save load kw fs = (fs, kw, Raise AttributeError) /\
  basinhopping_fit_jac kev optimiser F D guess b2 own chunk save gs load gl kw fs = (fs, kw, Raise AttributeError) /\
  dual_annealing_fit kev optimiser F D guess b1 chunk save load kw fs = (fs, Raise AttributeError).
Proof.
  intros N. assert (E : ff_free_symbols F = Raise AttributeError).
  { unfold ff_free_symbols, all_cells. destruct (forallb (fun kr => r_obj (snd kr)) (ff_rows F)) eqn:X; [|reflexivity]. exfalso. apply N.
    intros k r I. rewrite forallb_forall in X. apply (X (k, r) I). }
  unfold least_squares_fit, basinhopping_fit, basinhopping_fit_jac, dual_annealing_fit. rewrite E. auto.
Qed.
Lemma fits_missing optimiser F D guess b1 b2 own chunk save kw fs free s : matching F D -> ff_free_symbols F = Ok free -> In s free -> dget s guess = None ->
  snd (least_squares_fit kev optimiser F D guess b1 chunk save None kw fs) = Raise KeyError /\
  snd (basinhopping_fit kev optimiser F D guess b2 own chunk save None kw fs) = Raise KeyError /\
  (forall gp fs' lg, energy_and_denergy kev F D (Some free) false save gp fs = (fs', Ok lg) ->
     basinhopping_fit_jac kev optimiser F D guess b2 own false save gp None None kw fs = (fs', kw, Raise KeyError)) /\
  snd (dual_annealing_fit kev optimiser F D guess b1 chunk save None kw fs) = Raise KeyError.
Proof.
  intros Ma Ef I Eg. assert (NE : free <> []) by (intros ->; destruct I).
  destruct (cost_of_made F D free chunk save fs Ma Ef NE) as (lib & Ec & _).
  pose proof (x0_of_missing free guess s I Eg) as Em.
  unfold least_squares_fit, basinhopping_fit, basinhopping_fit_jac, dual_annealing_fit. rewrite Ef. destruct free as [|s' free]; [congruence|]. rewrite Ec. cbn [bind snd].
  rewrite Em. cbn [bind]. split; [reflexivity|]. split; [|split].
  - unfold basinhop. rewrite Em. reflexivity.
  - intros gp fs' (lib', ls) E. rewrite E. unfold basinhop. rewrite Em. reflexivity.
  - reflexivity.
Qed.

(** Options of the caller *)
Lemma basinhop_options optimiser free obj guess bounds own kw : dget "minimizer_kwargs"%string kw = None -> fst (basinhop optimiser free obj guess bounds own kw) = kw.
Proof.
  intros Mk. unfold basinhop. destruct (x0_of free guess); [|reflexivity].
  match goal with |- fst (match ?x with Ok _ => _ | Raise _ => _ end) = _ => destruct x; [|reflexivity] end.
  unfold take_minimizer. rewrite Mk. reflexivity.
Qed.
Lemma basinhopping_options optimiser F D guess bounds own chunk save load kw fs : dget "minimizer_kwargs"%string kw = None ->
  snd (fst (basinhopping_fit kev optimiser F D guess bounds own chunk save load kw fs)) = kw.
Proof.
  intros Mk. unfold basinhopping_fit. destruct (ff_free_symbols F) as [[|s free]|]; try reflexivity.
  destruct (cost_of kev F D (s :: free) chunk save load fs) as (fs', [lib|]); [|reflexivity].
  pose proof (basinhop_options optimiser (s :: free) (Scalar (call lib)) guess bounds own kw Mk) as H.
  destruct (basinhop optimiser (s :: free) (Scalar (call lib)) guess bounds own kw) as (kw', r). exact H.
Qed.
Lemma jac_options optimiser F D guess bounds own chunk save gs load gl kw fs : dget "minimizer_kwargs"%string kw = None ->
  snd (fst (basinhopping_fit_jac kev optimiser F D guess bounds own chunk save gs load gl kw fs)) = kw.
Proof.
  intros Mk. unfold basinhopping_fit_jac. destruct (ff_free_symbols F) as [[|s free]|]; try reflexivity.
  match goal with |- context [match ?x with (_, _) => _ end] => destruct x as (fs', [(lib, ls)|]) end; [|reflexivity].
  pose proof (basinhop_options optimiser (s :: free) (WithGradient (call lib) (call_all ls)) guess bounds (own ++ [("jac"%string, VTrue)])%list kw Mk) as H.
  destruct (basinhop optimiser (s :: free) (WithGradient (call lib) (call_all ls)) guess bounds (own ++ [("jac"%string, VTrue)])%list kw) as (kw', r). exact H.
Qed.
End Fits.

Lemma gen_default kev F D free chunk save fs : ff_free_symbols F = Ok free ->
  gen_cost_func kev F D None chunk save fs = gen_cost_func kev F D (Some free) chunk save fs.
Proof. intros E. unfold gen_cost_func, energy_expr, terms, symbols_or. rewrite E. reflexivity. Qed.

(** A symbol that is not an argument *)
Lemma chunked_missing kev F D args save fs : 
  (exists ts n, terms kev F D (Some args) = Ok (ts, n) /\ exists t, In t ts /\ ksyms t <> []) ->
  gen_cost_func kev F D (Some args) true save fs = (fs, Raise CodeGenArgumentListError).
Proof.
  intros (ts & n & E & t & I & N). unfold gen_cost_func. rewrite E. unfold chunked.
  destruct (forallb (fun e => match ksyms e with [] => true | _ => false end) ts) eqn:X; [|reflexivity].
  exfalso. rewrite forallb_forall in X. specialize (X t I). destruct (ksyms t); [congruence|discriminate].
Qed.
Lemma dget_dremove_neq (k k' : string) (d : list (string * list code)) : k <> k' -> dget k (dremove k' d) = dget k d.
Proof.
  intros N. induction d as [|(a, v) d IH]; [reflexivity|]. cbn [dremove]. destruct (eqb_spec k' a) as [->|N'].
  - cbn [dget]. rewrite eqb_neq by exact N. reflexivity.
  - cbn [dget]. rewrite IH. reflexivity.
Qed.
Lemma id_sound : sound_kev (fun e => e).
Proof. split; [|split]; intros; try reflexivity; apply incl_refl. Qed.
