(** Properties C52-C58 and C65-C69: cost functions, compiled models and fits.
    Beside each theorem a concrete case. *)
From Coq Require Import String Ascii List Arith ZArith Bool Lia Reals QArith Qreals Lra Permutation.
From Coquelicot Require Import Complex.
Import ListNotations.
From Verif Require Import PyBase CBase Expr ExprProofs DataModel FDataModel SpecFData FormModel SpecForm FitModel SpecFit FitProofs FitProofs2 FitProofs3 FitProofs4 FitProofs5 FitProofs6 SpecParts PartProofs.
Local Open Scope nat_scope.

(** A formula in two real parameters and data it reproduces for a = 3, b = 1. *)
Definition sa : sym := mksym "a" (Some true).
Definition sb : sym := mksym "b" (Some true).
Definition Fx : fform := mkff [("PP"%string, mkrow true [ESym sb; ESym sa; ESym sb]); ("PS"%string, mkrow true [num 0; ESym sb; num 0])] 1.
Definition Dx : fdat := mkfdat [("PP"%string, [RtoC 1; RtoC 3; RtoC 1]); ("PS"%string, [RtoC 0; RtoC 1; RtoC 0])] 1 (PNum 0) 1.
Ltac posn := repeat match goal with |- context [Pos.to_nat ?p] => let v := eval vm_compute in (Pos.to_nat p) in change (Pos.to_nat p) with v end.
Lemma Fx_ok : formula_ok Fx.
Proof. split; [repeat constructor; cbn; intuition discriminate|]. cbn. intros k r [E|[E|[]]]; injection E as <- <-; reflexivity. Qed.
Lemma Dx_ok : data_ok Dx.
Proof. split; [repeat constructor; cbn; intuition discriminate|]. cbn. intros k r [E|[E|[]]]; injection E as <- <-; reflexivity. Qed.
Example Fx_matching : matching Fx Dx.
Proof. split; [exact Fx_ok|]. split; [exact Dx_ok|]. split; [reflexivity|]. cbn. tauto. Qed.
Lemma Fx_parts : parts_taken take_parts Fx.
Proof.
  apply real_formula_taken. intros k r e [E|[E|[]]] I; injection E as <- <-; cbn in I; repeat destruct I as [<-|I]; try reflexivity; destruct I.
Qed.
Example Fx_free : ff_free_symbols Fx = Ok [sa; sb].
Proof. reflexivity. Qed.
Example Fx_symbolic : symbolic Fx.
Proof. cbn. intros k r [E|[E|[]]]; injection E as <- <-; reflexivity. Qed.
Example Fx_plain : plain_formula Fx.
Proof.
  cbn. intros k r e [E|[E|[]]]; injection E as <- <-; cbn; intros I; repeat (destruct I as [<-|I]); try destruct I;
    (split; [exact Logic.I|intros s J; repeat (destruct J as [<-|J]); try destruct J; reflexivity]).
Qed.
Example Fx_reproduces : reproduces Fx Dx (reading [sa; sb] [3; 1]%R).
Proof.
  cbn. intros k r m [E|[E|[]]]; injection E as <- <-; cbn; intros I; repeat (destruct I as [<-|I]); try destruct I; cbn; try reflexivity.
  all: posn; cbn; apply C_ext; unfold Re, Im; cbn; unfold Q2R; cbn; lra.
Qed.

(* ================================================================== *)
(** * C52: the cost *)

(** The compiled cost function returns the squared misfit, for the default
    argument list and for any other without omissions, chunked or not. *)
Theorem C52_cost : forall kev F D free chunk save fs, sound_kev kev -> matching F D -> argument_list F free -> (chunk = true -> ff_rows F <> []) ->
  exists lib, gen_cost_func kev F D (Some free) chunk save fs = (save_lib save lib fs, Ok lib) /\
    forall xs rho, length free <= length xs -> assigns free xs rho -> call lib xs = Some (misfit F D rho).
Proof. intros kev F D free chunk save fs KEV. exact (cost_ok kev KEV F D free chunk save fs). Qed.
Print Assumptions C52_cost.

Theorem C52_cost_default : forall kev F D chunk save fs, sound_kev kev -> matching F D -> symbolic F -> (chunk = true -> ff_rows F <> []) ->
  exists free lib, ff_free_symbols F = Ok free /\ argument_list F free /\
    gen_cost_func kev F D None chunk save fs = (save_lib save lib fs, Ok lib) /\
    forall xs rho, length free <= length xs -> assigns free xs rho -> call lib xs = Some (misfit F D rho).
Proof.
  intros kev F D chunk save fs KEV Ma S C. destruct (symbolic_free F S) as (free & E). pose proof (free_argument_list F free E) as A.
  destruct (cost_ok kev KEV F D free chunk save fs Ma A C) as (lib & G & H). exists free, lib.
  rewrite (gen_default kev F D free chunk save fs E). auto.
Qed.
Print Assumptions C52_cost_default.

(** The squared misfit is not negative, zero exactly when the formula reproduces
    the data, and the mean squared misfit over angles. *)
Theorem C52_misfit : forall F D rho, (0 <= misfit F D rho)%R /\ (misfit F D rho = 0%R <-> reproduces F D rho) /\
  (matching F D -> forall n, 2 * ff_M F < n -> misfit F D rho = mean_square F D rho n).
Proof. intros F D rho. split; [apply misfit_nonneg|]. split; [apply misfit_zero|]. intros Ma n. apply (misfit_grid F D rho n Ma). Qed.
Print Assumptions C52_misfit.

Example C52_case : exists lib, gen_cost_func (fun e => e) Fx Dx None true (Some "c"%string) [] = ([("c"%string, lib)], Ok lib) /\
  call lib [3; 1]%R = Some 0%R /\ (forall xs x, length xs = 2 -> call lib xs = Some x -> (0 <= x)%R).
Proof.
  destruct (C52_cost_default (fun e => e) Fx Dx true (Some "c"%string) [] id_sound Fx_matching Fx_symbolic ltac:(discriminate)) as (free & lib & E & (N & A) & G & H).
  rewrite Fx_free in E. injection E as <-. exists lib. split; [exact G|]. split.
  - rewrite (H [3; 1]%R (reading [sa; sb] [3; 1]%R)); [|cbn; lia|apply reading_assigns; [exact N|cbn; lia]]. f_equal. apply (proj1 (proj2 (C52_misfit _ _ _))). exact Fx_reproduces.
  - intros xs x L E. rewrite (H xs (reading [sa; sb] xs)) in E; [|rewrite L; cbn; lia|apply reading_assigns; [exact N|rewrite L; cbn; lia]]. injection E as <-. apply misfit_nonneg.
Qed.

(* ================================================================== *)
(** * C53: chunks *)

(** Splitting keeps the terms and their order, in non-empty pieces of at most n. *)
Theorem C53_split : forall {A} (a : list A) n, (0 < n)%Z -> exists ps, split a n = Ok ps /\ split_into (Z.to_nat n) a ps.
Proof. intros A. exact split_pos. Qed.
Print Assumptions C53_split.

(** The value of an expression is the sum of the values of its pieces. *)
Theorem C53_expression : forall e n, (0 < n)%Z -> exists ps, split_expr e n = Ok ps /\
  forall rho xs, keval rho xs e = keval rho xs (KAdd ps).
Proof.
  intros e n P. destruct e; try (eexists; split; [reflexivity|]; intros; cbn [keval map fold_right]; symmetry; apply Cplus_0_r).
  cbn [split_expr]. destruct (split_pos l n P) as (ps & -> & E & _). cbn [bind]. eexists; split; [reflexivity|]. intros rho xs. cbn [keval]. rewrite <- E.
  clear. induction ps as [|p ps IH]; [reflexivity|]. cbn [concat map fold_right keval]. rewrite map_app, fold_right_app, IH.
  generalize (fold_right Cplus (RtoC 0) (map (keval rho xs) (map KAdd ps))) as s. intros s.
  induction (map (keval rho xs) p) as [|a q IHq]; cbn [fold_right]; [symmetry; apply Cplus_0_l|]. rewrite IHq. apply Cplus_assoc.
Qed.
Print Assumptions C53_expression.

(** The chunked cost function and the other one return the same. *)
Theorem C53_cost : forall kev F D free save save' fs fs', sound_kev kev -> matching F D -> argument_list F free -> ff_rows F <> [] ->
  exists lib lib', snd (gen_cost_func kev F D (Some free) true save fs) = Ok lib /\ snd (gen_cost_func kev F D (Some free) false save' fs') = Ok lib' /\
    forall xs, length free <= length xs -> call lib xs = call lib' xs /\ call lib xs <> None.
Proof.
  intros kev F D free save save' fs fs' KEV Ma Ar NE. destruct (cost_ok kev KEV F D free true save fs Ma Ar (fun _ => NE)) as (lib & -> & H).
  destruct (cost_ok kev KEV F D free false save' fs' Ma Ar ltac:(discriminate)) as (lib' & -> & H'). exists lib, lib'. split; [reflexivity|]. split; [reflexivity|].
  intros xs L. pose proof (reading_assigns free xs (proj1 Ar) L) as A. rewrite (H xs _ L A), (H' xs _ L A). split; [reflexivity|discriminate].
Qed.
Print Assumptions C53_cost.

(** The model function returns the coefficients of the formula, for every positive
    size of the pieces, if sympy takes the real and imaginary parts (C111). *)
Theorem C53_model : forall kev F n free, sound_kev kev -> (0 < n)%Z -> formula_ok F -> parts_taken kev F -> ff_free_symbols F = Ok free ->
  exists fd fs, gen_model_func kev F n = Ok (fd, fs) /\
    forall k r m xs rho, In (k, r) (ff_rows F) -> In m (freqs (ff_M F)) -> length free <= length xs -> assigns free xs rho ->
      model_value fd xs k m = Ok (Some (eval rho (fcell (ff_M F) r m))).
Proof. intros kev F n free KEV. exact (model_ok kev KEV F n free). Qed.
Print Assumptions C53_model.

(** Size 0: ZeroDivisionError as soon as there is a sum to split. *)
Theorem C53_zero : forall e, split_expr e 0 = match e with KAdd _ => Raise ZeroDivisionError | _ => Ok [e] end.
Proof. intros []; reflexivity. Qed.
Print Assumptions C53_zero.
Theorem C53_zero_model : forall kev F fd fs, gen_model_func kev F 0 = Ok (fd, fs) ->
  forall k r m imag e, In (k, r) (ff_rows F) -> In m (freqs (ff_M F)) -> model_expr kev F k m imag None = Ok e -> forall l, e <> KAdd l.
Proof.
  intros kev F fd fs E k r m c e I Jm Em l ->. unfold gen_model_func in E. destruct (model_rows kev F 0) as [rows|] eqn:R; cbn [bind] in E; [|discriminate].
  unfold model_rows in R. apply mapM_Ok in R. assert (Ik : In k (ff_get_keys F)) by (apply in_map_iff; exists (k, r); auto).
  assert (X : exists row, model_row kev F 0 k = Ok row).
  { clear - R Ik. induction R as [|a b l l' Hab H IH]; [destruct Ik|]. destruct Ik as [->|Ik]; [|auto].
    destruct (model_row kev F 0 k) as [row|]; [eauto|discriminate]. }
  destruct X as (row & X). unfold model_row in X. apply mapM_Ok in X.
  assert (Y : exists re im, model_entry kev F 0 k m false = Ok re /\ model_entry kev F 0 k m true = Ok im).
  { clear - X Jm. induction X as [|a b l l' Hab H IH]; [destruct Jm|]. destruct Jm as [->|Jm]; [|auto].
    destruct (model_entry kev F 0 k m false) as [re|]; cbn [bind] in Hab; [|discriminate]. destruct (model_entry kev F 0 k m true) as [im|]; cbn [bind] in Hab; [|discriminate]. eauto. }
  destruct Y as (re & im & Y1 & Y2). unfold model_entry, model_chunks in Y1, Y2. destruct c; rewrite Em in *; discriminate.
Qed.
Print Assumptions C53_zero_model.

(** A negative size is accepted and the model function returns 0 for every sum. *)
Definition Fsum : fform := mkff [("PP"%string, mkrow true [EAdd [ESym sa; ESym sb]])] 0.
Theorem C53_negative_refuted : exists kev F n fd fs r xs rho, sound_kev kev /\ (n < 0)%Z /\ formula_ok F /\ symbolic F /\
  gen_model_func kev F n = Ok (fd, fs) /\ In ("PP"%string, r) (ff_rows F) /\ assigns [sa; sb] xs rho /\ ff_free_symbols F = Ok [sa; sb] /\
  model_value fd xs "PP" 0 = Ok (Some (RtoC 0)) /\ eval rho (fcell (ff_M F) r 0) = RtoC 3.
Proof.
  exists take_parts, Fsum, (-1)%Z. eexists. eexists. exists (mkrow true [EAdd [ESym sa; ESym sb]]), [1; 2]%R, (reading [sa; sb] [1; 2]%R).
  split; [exact take_parts_sound|]. split; [lia|].
  split; [split; [repeat constructor; cbn; tauto|]; cbn; intros k r [E|[]]; injection E as <- <-; reflexivity|].
  split; [cbn; intros k r [E|[]]; injection E as <- <-; reflexivity|].
  split; [cbv; reflexivity|]. split; [left; reflexivity|]. split; [apply reading_assigns; [repeat constructor; cbn; intuition discriminate|cbn; lia]|].
  split; [reflexivity|]. split; [reflexivity|]. cbn. apply C_ext; unfold Re, Im; cbn; lra.
Qed.
Print Assumptions C53_negative_refuted.

Example C53_case : split [1; 2; 3; 4; 5] 2 = Ok [[1; 2]; [3; 4]; [5]] /\ split [1; 2] 7 = Ok [[1; 2]] /\ split [1; 2] 0 = Raise ZeroDivisionError.
Proof. auto. Qed.
Example C53_model_case : exists fd fs, gen_model_func take_parts Fsum 1 = Ok (fd, fs) /\ length fs = 4 /\
  model_value fd [1; 2]%R "PP" 0 = Ok (Some (RtoC 3)).
Proof.
  destruct (C53_model take_parts Fsum 1 [sa; sb] take_parts_sound) as (fd & fs & E & H).
  { lia. }
  { split; [repeat constructor; cbn; tauto|]; cbn; intros k r [E|[]]; injection E as <- <-; reflexivity. }
  { apply real_formula_taken. intros k r e [E|[]] I. injection E as <- <-. cbn in I. destruct I as [<-|[]]. reflexivity. }
  { reflexivity. }
  exists fd, fs. split; [exact E|]. split; [cbv in E; injection E as <- <-; reflexivity|].
  rewrite (H "PP"%string (mkrow true [EAdd [ESym sa; ESym sb]]) 0%Z [1; 2]%R (reading [sa; sb] [1; 2]%R) (or_introl eq_refl) (or_introl eq_refl) (le_n 2)).
  - cbn. f_equal. f_equal. apply C_ext; unfold Re, Im; cbn; lra.
  - apply reading_assigns; [repeat constructor; cbn; intuition discriminate|cbn; lia].
Qed.

(* ================================================================== *)
(** * C54: orders *)

(** Data of lower order: IndexError, and nothing is written. *)
Theorem C54_lower_partial : forall kev F D free chunk save fs, formula_ok F -> data_ok D -> fd_M D < ff_M F -> ff_rows F <> [] ->
  (forall k, In k (map fst (ff_rows F)) -> In k (map fst (fd_data D))) ->
  gen_cost_func kev F D (Some free) chunk save fs = (fs, Raise IndexError).
Proof. intros kev F D free chunk save fs. exact (lower_raises kev F D free chunk save fs). Qed.
Print Assumptions C54_lower_partial.
(** Data of higher order: the cost of other data, shifted in frequency. *)
Theorem C54_higher_partial : forall kev F D free chunk save fs, sound_kev kev -> formula_ok F -> data_ok D -> ff_M F <= fd_M D ->
  (forall k, In k (map fst (ff_rows F)) -> In k (map fst (fd_data D))) -> argument_list F free -> (chunk = true -> ff_rows F <> []) ->
  exists D' lib, gen_cost_func kev F D (Some free) chunk save fs = (save_lib save lib fs, Ok lib) /\
    computes F D' free lib /\ fd_M D' = ff_M F /\
    forall k m, In m (freqs (ff_M F)) -> dvalue D' k m = dvalue D k (m - (Z.of_nat (fd_M D) - Z.of_nat (ff_M F)))%Z.
Proof.
  intros kev F D free chunk save fs KEV FO DO L K Ar C. exists (read_with_order (ff_M F) D).
  pose proof (read_matching F D FO DO L K) as Ma. destruct (cost_ok kev KEV F _ free chunk save fs Ma Ar C) as (lib & G & H).
  exists lib. rewrite (gen_read kev F D (Some free) chunk save fs DO L). split; [exact G|]. split; [exact H|]. split; [reflexivity|].
  intros k m I. rewrite (read_dvalue _ _ _ _ DO L I). f_equal. lia.
Qed.
Print Assumptions C54_higher_partial.
(** The claim that both are errors fails: the data of the example as a file of
    order 2 would hold it, read with the formula of order 1. *)
Definition Dhigh : fdat := mkfdat [("PP"%string, [RtoC 0; RtoC 1; RtoC 3; RtoC 1; RtoC 0]); ("PS"%string, [RtoC 0; RtoC 0; RtoC 1; RtoC 0; RtoC 0])] 1 (PNum 0) 2.
Lemma Dhigh_ok : data_ok Dhigh.
Proof. split; [repeat constructor; cbn; intuition discriminate|]. cbn. intros k r [E|[E|[]]]; injection E as <- <-; reflexivity. Qed.
Theorem C54_higher_refuted : forall kev, sound_kev kev -> exists F D lib xs rho, formula_ok F /\ data_ok D /\ fd_M D <> ff_M F /\
  ff_free_symbols F = Ok [sa; sb] /\ gen_cost_func kev F D None false None [] = ([], Ok lib) /\ assigns [sa; sb] xs rho /\
  reproduces F D rho /\ exists c, call lib xs = Some c /\ (0 < c)%R.
Proof.
  intros kev KEV.
  destruct (C54_higher_partial kev Fx Dhigh [sa; sb] false None [] KEV Fx_ok Dhigh_ok) as (D' & lib & G & Cp & Eo & Sh).
  { cbn; lia. } { cbn; tauto. } { apply free_argument_list. exact Fx_free. } { discriminate. }
  assert (A : assigns [sa; sb] [3; 1]%R (reading [sa; sb] [3; 1]%R)) by (apply reading_assigns; [repeat constructor; cbn; intuition discriminate|cbn; lia]).
  exists Fx, Dhigh, lib, [3; 1]%R, (reading [sa; sb] [3; 1]%R). split; [exact Fx_ok|]. split; [exact Dhigh_ok|]. split; [cbn; lia|]. split; [exact Fx_free|].
  split; [rewrite (gen_default kev Fx Dhigh [sa; sb] false None [] Fx_free); exact G|]. split; [exact A|]. split.
  { cbn. intros k r m [E|[E|[]]]; injection E as <- <-; cbn; intros I; repeat (destruct I as [<-|I]); try destruct I; cbn; try reflexivity.
    all: posn; cbn; apply C_ext; unfold Re, Im; cbn; unfold Q2R; cbn; lra. }
  - exists (misfit Fx D' (reading [sa; sb] [3; 1]%R)). split; [apply Cp; [cbn; lia|exact A]|].
    destruct (Rle_lt_or_eq_dec _ _ (misfit_nonneg Fx D' (reading [sa; sb] [3; 1]%R))) as [H|H]; [exact H|]. exfalso. symmetry in H. apply misfit_zero in H.
    assert (I0 : In 0%Z (freqs (ff_M Fx))) by (right; left; reflexivity).
    specialize (H "PP"%string (mkrow true [ESym sb; ESym sa; ESym sb]) 0%Z (or_introl eq_refl) I0). rewrite (Sh _ _ I0) in H.
    revert H. cbn. posn. cbn. intros H. apply (f_equal fst) in H. cbn in H. lra.
Qed.
Print Assumptions C54_higher_refuted.
Example C54_case : gen_cost_func (fun e => e) (mkff [("PP"%string, mkrow true [num 0; num 0; ESym sa; num 0; num 0])] 2) Dx (Some [sa]) true (Some "c"%string) [] = ([], Raise IndexError).
Proof.
  apply C54_lower_partial; cbn; try lia; try discriminate; try tauto; [|exact Dx_ok].
  split; [repeat constructor; cbn; tauto|]. cbn. intros k r [E|[]]. injection E as <- <-. reflexivity.
Qed.

(* ================================================================== *)
(** * C55: attribution *)

(** least_squares_fit, with and without bounds, for every optimiser: it is given
    the square root of the cost, the start values and bounds in the order of the
    free symbols; its answer is returned with every symbol beside its own entry. *)
Theorem C55_least_squares : forall kev F D guess bounds chunk save kw fs free x0 bs, sound_kev kev -> matching F D -> ff_free_symbols F = Ok free -> free <> [] ->
  in_order free guess x0 -> bounds_ok free bounds bs -> (forall n, In n (ls_reserved bounds) -> dget n kw = None) ->
  exists lib obj, computes F D free lib /\ computes_root F D free obj /\ forall optimiser,
    (forall x, optimiser (Scalar obj) x0 bs [] kw = Ok x -> length x = length free ->
       least_squares_fit kev optimiser F D guess bounds chunk save None kw fs = (save_lib save lib fs, Ok (Fitted x (combine free x)))) /\
    (forall e, optimiser (Scalar obj) x0 bs [] kw = Raise e ->
       least_squares_fit kev optimiser F D guess bounds chunk save None kw fs = (save_lib save lib fs, Raise e)).
Proof. intros kev F D guess bounds chunk save kw fs free x0 bs KEV. exact (least_squares_run kev KEV F D guess bounds chunk save kw fs free x0 bs). Qed.
Print Assumptions C55_least_squares.

Theorem C55_dual_annealing : forall kev F D guess bounds chunk save kw fs free x0 bs, sound_kev kev -> matching F D -> ff_free_symbols F = Ok free -> free <> [] ->
  in_order free guess x0 -> bounds_ok free bounds bs ->
  exists lib, computes F D free lib /\ forall optimiser,
    (forall x, optimiser (Scalar (call lib)) x0 bs [] kw = Ok x -> length x = length free ->
       dual_annealing_fit kev optimiser F D guess bounds chunk save None kw fs = (save_lib save lib fs, Ok (Fitted x (combine free x)))) /\
    (forall e, optimiser (Scalar (call lib)) x0 bs [] kw = Raise e ->
       dual_annealing_fit kev optimiser F D guess bounds chunk save None kw fs = (save_lib save lib fs, Raise e)).
Proof. intros kev F D guess bounds chunk save kw fs free x0 bs KEV. exact (dual_annealing_run kev KEV F D guess bounds chunk save kw fs free x0 bs). Qed.
Print Assumptions C55_dual_annealing.

Theorem C55_basinhopping : forall kev F D guess bounds own chunk save kw fs free x0 bo, sound_kev kev -> matching F D -> ff_free_symbols F = Ok free -> free <> [] ->
  in_order free guess x0 -> bound_option free bounds bo -> (forall n, In n bh_taken -> dget n kw = None) ->
  exists lib, computes F D free lib /\ forall optimiser,
    (forall x, optimiser (Scalar (call lib)) x0 None (own ++ bo)%list kw = Ok x -> length x = length free ->
       basinhopping_fit kev optimiser F D guess bounds own chunk save None kw fs = (save_lib save lib fs, kw, Ok (Fitted x (combine free x)))) /\
    (forall e, optimiser (Scalar (call lib)) x0 None (own ++ bo)%list kw = Raise e ->
       basinhopping_fit kev optimiser F D guess bounds own chunk save None kw fs = (save_lib save lib fs, kw, Raise e)).
Proof. intros kev F D guess bounds own chunk save kw fs free x0 bo KEV. exact (basinhopping_run kev KEV F D guess bounds own chunk save kw fs free x0 bo). Qed.
Print Assumptions C55_basinhopping.

(** The variant with gradient: the optimiser is given the cost together with its gradient. *)
Theorem C55_basinhopping_jac : forall kev F D guess bounds own save gp kw fs free x0 bo, sound_kev kev -> matching F D -> ff_free_symbols F = Ok free -> free <> [] ->
  in_order free guess x0 -> bound_option free bounds bo -> (forall n, In n bh_taken -> dget n kw = None) ->
  forall fs' lib ls, energy_and_denergy kev F D (Some free) false save gp fs = (fs', Ok (lib, ls)) ->
  computes F D free lib /\ gradient F D free ls /\ forall optimiser,
    (forall x, optimiser (WithGradient (call lib) (call_all ls)) x0 None ((own ++ [("jac"%string, VTrue)]) ++ bo)%list kw = Ok x -> length x = length free ->
       basinhopping_fit_jac kev optimiser F D guess bounds own false save gp None None kw fs = (fs', kw, Ok (Fitted x (combine free x)))) /\
    (forall e, optimiser (WithGradient (call lib) (call_all ls)) x0 None ((own ++ [("jac"%string, VTrue)]) ++ bo)%list kw = Raise e ->
       basinhopping_fit_jac kev optimiser F D guess bounds own false save gp None None kw fs = (fs', kw, Raise e)).
Proof. intros kev F D guess bounds own save gp kw fs free x0 bo KEV. exact (jac_run kev KEV F D guess bounds own save gp kw fs free x0 bo). Qed.
Print Assumptions C55_basinhopping_jac.

(** No free parameters: refused by all, whatever the optimiser; nothing is written. *)
Theorem C55_refused : forall kev optimiser F D guess b1 b2 own chunk save gs load gl kw fs, ff_free_symbols F = Ok [] ->
  least_squares_fit kev optimiser F D guess b1 chunk save load kw fs = (fs, Ok Refused) /\
  basinhopping_fit kev optimiser F D guess b2 own chunk save load kw fs = (fs, kw, Ok Refused) /\
  basinhopping_fit_jac kev optimiser F D guess b2 own chunk save gs load gl kw fs = (fs, kw, Ok Refused) /\
  dual_annealing_fit kev optimiser F D guess b1 chunk save load kw fs = (fs, Ok Refused).
Proof. exact fits_refuse. Qed.
Print Assumptions C55_refused.

(** A start dictionary without one of the symbols: KeyError, whatever the optimiser. *)
Theorem C55_missing : forall kev optimiser F D guess b1 b2 own chunk save kw fs free s, sound_kev kev -> matching F D -> ff_free_symbols F = Ok free -> In s free -> dget s guess = None ->
  snd (least_squares_fit kev optimiser F D guess b1 chunk save None kw fs) = Raise KeyError /\
  snd (basinhopping_fit kev optimiser F D guess b2 own chunk save None kw fs) = Raise KeyError /\
  (forall gp fs' lg, energy_and_denergy kev F D (Some free) false save gp fs = (fs', Ok lg) ->
     basinhopping_fit_jac kev optimiser F D guess b2 own false save gp None None kw fs = (fs', kw, Raise KeyError)) /\
  snd (dual_annealing_fit kev optimiser F D guess b1 chunk save None kw fs) = Raise KeyError.
Proof. intros kev optimiser F D guess b1 b2 own chunk save kw fs free s KEV. exact (fits_missing kev KEV optimiser F D guess b1 b2 own chunk save kw fs free s). Qed.
Print Assumptions C55_missing.

(** A formula in numbers that are not sympy expressions: AttributeError. *)
Theorem C55_numeric : forall kev optimiser F D guess b1 b2 own chunk save gs load gl kw fs, ~ symbolic F ->
  least_squares_fit kev optimiser F D guess b1 chunk save load kw fs = (fs, Raise AttributeError) /\
  basinhopping_fit kev optimiser F D guess b2 own chunk save load kw fs = (fs, kw, Raise AttributeError) /\
  basinhopping_fit_jac kev optimiser F D guess b2 own chunk save gs load gl kw fs = (fs, kw, Raise AttributeError) /\
  dual_annealing_fit kev optimiser F D guess b1 chunk save load kw fs = (fs, Raise AttributeError).
Proof. exact fits_numeric. Qed.
Print Assumptions C55_numeric.

(** Start values given in the other order, bounds, an optimiser that returns the answer. *)
Example C55_case : exists fs, least_squares_fit (fun e => e) (fun _ _ _ _ _ => Ok [3; 1]%R) Fx Dx [(sb, 0%R); (sa, 1%R)] (Some [(sb, (0, 2)%R); (sa, (0, 5)%R)]) false None None [] []
  = (fs, Ok (Fitted [3; 1]%R [(sa, 3%R); (sb, 1%R)])).
Proof.
  destruct (C55_least_squares (fun e => e) Fx Dx [(sb, 0%R); (sa, 1%R)] (Some [(sb, (0, 2)%R); (sa, (0, 5)%R)]) false None [] [] [sa; sb] [1; 0]%R (Some [(0, 5); (0, 2)]%R) id_sound Fx_matching Fx_free) as (lib & obj & _ & Hr & H).
  { discriminate. }
  { repeat constructor. }
  { eexists; split; [reflexivity|]. repeat constructor. }
  { reflexivity. }
  exists []. apply (H (fun _ _ _ _ _ => Ok [3; 1]%R)); reflexivity.
Qed.
Example C55_case_missing : snd (dual_annealing_fit (fun e => e) (fun _ _ _ _ _ => Ok [3; 1]%R) Fx Dx [(sb, 0%R)] None true None None [] []) = Raise KeyError.
Proof. apply (C55_missing (fun e => e) (fun _ _ _ _ _ => Ok [3; 1]%R) Fx Dx [(sb, 0%R)] None None [] true None [] [] [sa; sb] sa id_sound Fx_matching Fx_free); [left; reflexivity|reflexivity]. Qed.
Example C55_case_refused : ff_free_symbols (mkff [("PP"%string, mkrow true [num 1])] 0) = Ok [] /\ ~ symbolic (mkff [("PP"%string, mkrow false [num 1])] 0).
Proof. split; [reflexivity|]. intros H. discriminate (H "PP"%string (mkrow false [num 1]) (or_introl eq_refl)). Qed.

(* ================================================================== *)
(** * C56: the options of the caller *)

Theorem C56_options_partial : forall kev optimiser F D guess bounds own chunk save gs load gl kw fs, dget "minimizer_kwargs"%string kw = None ->
  snd (fst (basinhopping_fit kev optimiser F D guess bounds own chunk save load kw fs)) = kw /\
  snd (fst (basinhopping_fit_jac kev optimiser F D guess bounds own chunk save gs load gl kw fs)) = kw.
Proof.
  intros kev optimiser F D guess bounds own chunk save gs load gl kw fs H.
  split; [exact (basinhopping_options kev optimiser F D guess bounds own chunk save load kw fs H)|exact (jac_options kev optimiser F D guess bounds own chunk save gs load gl kw fs H)].
Qed.
Print Assumptions C56_options_partial.

(** The claim fails: an optimiser that reports whether it was given the tolerance
    returns something else on the second call with the same dictionary. *)
Definition asks : objective -> list R -> option (list (R * R)) -> list (string * val) -> list (string * val) -> res (list R) :=
  fun _ _ _ mk _ => Ok (match dget "tol"%string mk with Some _ => [1; 1]%R | None => [0; 0]%R end).
Theorem C56_options_refuted : forall kev, sound_kev kev -> exists optimiser F D guess kw fs1 kw1 fs2 kw2 x1 d1 x2 d2, matching F D /\
  basinhopping_fit kev optimiser F D guess None [] false None None kw [] = (fs1, kw1, Ok (Fitted x1 d1)) /\
  basinhopping_fit kev optimiser F D guess None [] false None None kw1 fs1 = (fs2, kw2, Ok (Fitted x2 d2)) /\
  kw1 <> kw /\ x1 <> x2.
Proof.
  intros kev KEV. destruct (cost_of_made kev KEV Fx Dx [sa; sb] false None [] Fx_matching Fx_free ltac:(discriminate)) as (lib & Ec & _).
  exists asks, Fx, Dx, [(sa, 0%R); (sb, 0%R)], [("minimizer_kwargs"%string, VDict [("tol"%string, VOther 1)])].
  do 8 eexists. split; [exact Fx_matching|]. split.
  { unfold basinhopping_fit. rewrite Fx_free, Ec. cbn. reflexivity. }
  split.
  { unfold basinhopping_fit. rewrite Fx_free. unfold save_lib. cbn [save_lib] in Ec. rewrite Ec. cbn. reflexivity. }
  split; [discriminate|]. intros X. injection X as X _. lra.
Qed.
Print Assumptions C56_options_refuted.

(* ================================================================== *)
(** * C57: saved models *)

Theorem C57_reload_partial : forall kev F n fd fs listing, formula_ok F -> clear_keys (ff_get_keys F) -> gen_model_func kev F n = Ok (fd, fs) ->
  Permutation listing fs -> forall xs k m, model_value (load_model_func F listing) xs k m = model_value fd xs k m.
Proof. exact reload_same. Qed.
Print Assumptions C57_reload_partial.

(** The key of one row is the stem of the files of another. *)
Definition Fclash : fform := mkff [("A"%string, mkrow true [ESym sa]); ("A_0_real"%string, mkrow true [ESym sb])] 0.
Theorem C57_reload_refuted : exists kev F n fd fs xs k m a b, sound_kev kev /\ formula_ok F /\ symbolic F /\ gen_model_func kev F n = Ok (fd, fs) /\
  model_value fd xs k m = Ok (Some a) /\ model_value (load_model_func F fs) xs k m = Ok (Some b) /\ a <> b.
Proof.
  exists take_parts, Fclash, 10%Z. eexists. eexists. exists [0; 1]%R, "A"%string, 0%Z. eexists. eexists.
  split; [exact take_parts_sound|].
  split; [split; [repeat constructor; cbn; intuition discriminate|]; cbn; intros k r [E|[E|[]]]; injection E as <- <-; reflexivity|].
  split; [cbn; intros k r [E|[E|[]]]; injection E as <- <-; reflexivity|].
  split; [cbv; reflexivity|]. split; [cbn; reflexivity|]. split; [cbn; reflexivity|].
  intros X. apply (f_equal fst) in X. cbn in X. lra.
Qed.
Print Assumptions C57_reload_refuted.
(** Keys of one length, like the four polarizations, cannot be confused. *)
Lemma clear_same_length ks n : (forall k, In k ks -> String.length k = n) -> clear_keys ks.
Proof. intros H k k' I I' _ t E. apply (f_equal String.length) in E. rewrite !slength_app, (H k I), (H k' I') in E. cbn in E. lia. Qed.
Example C57_case : clear_keys (ff_get_keys Fx) /\ exists fd fs, gen_model_func take_parts Fx 1 = Ok (fd, fs) /\ length fs = 12 /\
  forall xs k m, model_value (load_model_func Fx (rev fs)) xs k m = model_value fd xs k m.
Proof.
  assert (K : clear_keys (ff_get_keys Fx)) by (apply (clear_same_length _ 2); cbn; intros k [<-|[<-|[]]]; reflexivity).
  split; [exact K|]. destruct (C53_model take_parts Fx 1 [sa; sb] take_parts_sound) as (fd & fs & E & _); [lia|exact Fx_ok|exact Fx_parts|exact Fx_free|].
  exists fd, fs. split; [exact E|]. split; [cbv in E; injection E as <- <-; reflexivity|].
  apply (C57_reload_partial _ _ _ _ _ _ Fx_ok K E). symmetry. apply Permutation_rev.
Qed.

(* ================================================================== *)
(** * C58: saved gradients *)

Theorem C58_reload_partial : forall kev name p fs n F D free chunk fs' lib ls, (forall i, name <> grad_name p i) -> grad_saves kev name p fs n ->
  energy_and_denergy kev F D free chunk (Some name) (Some p) fs = (fs', Ok (lib, ls)) -> n <= length ls ->
  load_energy_and_denergy name p fs' = Ok (lib, ls).
Proof. exact grad_reload. Qed.
Print Assumptions C58_reload_partial.
(** After a save with more components the surplus ones are still loaded. *)
Theorem C58_stale : forall kev name p fs n F D free chunk fs' lib ls, (forall i, name <> grad_name p i) -> grad_saves kev name p fs n ->
  energy_and_denergy kev F D free chunk (Some name) (Some p) fs = (fs', Ok (lib, ls)) -> length ls < n ->
  exists old, load_energy_and_denergy name p fs' = Ok (lib, ls ++ old)%list /\ length old = n - length ls.
Proof. exact grad_stale. Qed.
Print Assumptions C58_stale.

Definition F1 : fform := mkff [("PP"%string, mkrow true [ESym sa])] 0.
Definition D1 : fdat := mkfdat [("PP"%string, [RtoC 2])] 1 (PNum 0) 0.
Lemma F1_matching : matching F1 D1.
Proof.
  split; [split; [repeat constructor; cbn; tauto|]; cbn; intros k r [E|[]]; injection E as <- <-; reflexivity|].
  split; [split; [repeat constructor; cbn; tauto|]; cbn; intros k r [E|[]]; injection E as <- <-; reflexivity|]. split; [reflexivity|]. cbn; tauto.
Qed.
Lemma F1_plain : plain_formula F1.
Proof. cbn. intros k r e [E|[]]; injection E as <- <-; cbn; intros [<-|[]]. split; [exact Logic.I|]. intros s [<-|[]]; reflexivity. Qed.
Lemma F1_misfit x : misfit F1 D1 (reading [sa] [x]) = ((x - 2) ^ 2)%R.
Proof.
  assert (E : misfit F1 D1 (reading [sa] [x]) = (Cmod (Cminus (RtoC x) (RtoC 2)) ^ 2 + 0 + 0)%R) by reflexivity.
  rewrite E, <- RtoC_minus, Cmod_R, pow2_abs. ring.
Qed.
Lemma Fx_varies : misfit Fx Dx (reading [sa; sb] [3; 1]%R) <> misfit Fx Dx (reading [sa; sb] [4; 1]%R).
Proof.
  intros E. assert (Z0 : misfit Fx Dx (reading [sa; sb] [3; 1]%R) = 0%R) by (apply misfit_zero; exact Fx_reproduces).
  rewrite Z0 in E. symmetry in E. apply misfit_zero in E.
  specialize (E "PP"%string (mkrow true [ESym sb; ESym sa; ESym sb]) 0%Z (or_introl eq_refl) (or_intror (or_introl eq_refl))).
  revert E. cbn. posn. cbn. intros E. apply (f_equal fst) in E. cbn in E. lra.
Qed.
Lemma two_assigns x y : assigns [sa; sb] [x; y]%R (reading [sa; sb] [x; y]%R).
Proof. apply reading_assigns; [repeat constructor; cbn; intuition discriminate|cbn; lia]. Qed.
Lemma one_assigns x : assigns [sa] [x]%R (reading [sa] [x]%R).
Proof. apply reading_assigns; [repeat constructor; cbn; tauto|cbn; lia]. Qed.

(** Evaluations that resolve conjugates exist, and with any of them the gradients
    of both formulas can be generated. *)
Lemma Fx_gradient kev save gp fs : sound_kev kev -> resolves kev ->
  exists fs' lib ls, energy_and_denergy kev Fx Dx (Some [sa; sb]) false save gp fs = (fs', Ok (lib, ls)) /\ length ls = 2.
Proof.
  intros KEV RS. destruct (gradient_exists kev KEV Fx Dx [sa; sb] save gp fs RS Fx_matching (free_argument_list _ _ Fx_free) Fx_plain) as [(fs' & lib & ls & E)|(_ & H)].
  - exists fs', lib, ls. split; [exact E|]. destruct (gradient_sound kev KEV _ _ _ _ _ _ _ _ _ Fx_matching (free_argument_list _ _ Fx_free) E) as (_ & _ & L & _). exact L.
  - exfalso. apply Fx_varies. exact (H _ _ _ _ (two_assigns 3 1) (two_assigns 4 1)).
Qed.
Lemma F1_gradient kev save gp fs : sound_kev kev -> resolves kev ->
  exists fs' lib ls, energy_and_denergy kev F1 D1 (Some [sa]) false save gp fs = (fs', Ok (lib, ls)) /\ length ls = 1.
Proof.
  intros KEV RS. assert (A : argument_list F1 [sa]) by (apply free_argument_list; reflexivity).
  destruct (gradient_exists kev KEV F1 D1 [sa] save gp fs RS F1_matching A F1_plain) as [(fs' & lib & ls & E)|(_ & H)].
  - exists fs', lib, ls. split; [exact E|]. destruct (gradient_sound kev KEV _ _ _ _ _ _ _ _ _ F1_matching A E) as (_ & _ & L & _). exact L.
  - exfalso. pose proof (H _ _ _ _ (one_assigns 0) (one_assigns 2)) as X. rewrite !F1_misfit in X. lra.
Qed.
Lemma names_differ i : "cost"%string <> grad_name "grad" i.
Proof. unfold grad_name. cbn. discriminate. Qed.

(** The claim fails: saving a gradient with two components, then one with one. *)
Theorem C58_reload_refuted : forall kev, sound_kev kev -> resolves kev -> exists F D F' D' fs1 fs2 lib ls lib' ls' got,
  matching F D /\ matching F' D' /\
  energy_and_denergy kev F D (Some [sa; sb]) false (Some "cost"%string) (Some "grad"%string) [] = (fs1, Ok (lib, ls)) /\
  energy_and_denergy kev F' D' (Some [sa]) false (Some "cost"%string) (Some "grad"%string) fs1 = (fs2, Ok (lib', ls')) /\
  load_energy_and_denergy "cost" "grad" fs2 = Ok (lib', got) /\ length ls' = 1 /\ length got = 2.
Proof.
  intros kev KEV RS. destruct (Fx_gradient kev (Some "cost"%string) (Some "grad"%string) [] KEV RS) as (fs1 & lib & ls & E1 & L1).
  destruct (F1_gradient kev (Some "cost"%string) (Some "grad"%string) fs1 KEV RS) as (fs2 & lib' & ls' & E2 & L2).
  destruct (C58_stale kev "cost" "grad" fs1 (Nat.max 0 (length ls)) F1 D1 (Some [sa]) false fs2 lib' ls' names_differ) as (old & Eo & Lo).
  { apply (saves_again kev "cost" "grad" [] 0 _ _ _ _ _ _ _ (saves_fresh _ _ _ [] (fun _ => eq_refl)) E1). }
  { exact E2. }
  { lia. }
  exists Fx, Dx, F1, D1, fs1, fs2, lib, ls, lib', ls', (ls' ++ old)%list. split; [exact Fx_matching|]. split; [exact F1_matching|]. split; [exact E1|]. split; [exact E2|].
  split; [exact Eo|]. split; [exact L2|]. rewrite app_length. lia.
Qed.
Print Assumptions C58_reload_refuted.
Example C58_case : exists fs' lib ls, energy_and_denergy push Fx Dx (Some [sa; sb]) false (Some "cost"%string) (Some "grad"%string) [] = (fs', Ok (lib, ls)) /\
  load_energy_and_denergy "cost" "grad" fs' = Ok (lib, ls) /\ length ls = 2.
Proof.
  destruct (Fx_gradient push (Some "cost"%string) (Some "grad"%string) [] push_sound push_resolves) as (fs' & lib & ls & E & L). exists fs', lib, ls.
  split; [exact E|]. split; [|exact L]. apply (C58_reload_partial push "cost" "grad" [] 0 Fx Dx (Some [sa; sb]) false fs' lib ls names_differ); [apply saves_fresh; reflexivity|exact E|lia].
Qed.

(* ================================================================== *)
(** * C65: the gradient given to the optimiser *)

(** What is compiled is the gradient of the cost: every component is the partial
    derivative of the squared misfit. *)
Theorem C65_gradient : forall kev F D free save gp fs fs' lib ls, sound_kev kev -> matching F D -> argument_list F free ->
  energy_and_denergy kev F D (Some free) false save gp fs = (fs', Ok (lib, ls)) ->
  computes F D free lib /\
  forall xs, length xs = length free -> exists g, call_all ls xs = Some g /\ length g = length free /\
    forall i gi, nth_error g i = Some gi -> derivable_pt_lim (fun t => misfit F D (reading free (set_nth i t xs))) (nth i xs 0%R) gi.
Proof.
  intros kev F D free save gp fs fs' lib ls KEV Ma Ar E. destruct (gradient_sound kev KEV _ _ _ _ _ _ _ _ _ Ma Ar E) as (_ & Cp & Gr).
  split; [exact Cp|]. intros xs L. exact (call_all_gradient F D free ls xs Gr L).
Qed.
Print Assumptions C65_gradient.
(** It exists for formulas in real parameters without conjugates, unless the cost
    is constant (IndexError). *)
Theorem C65_exists : forall kev F D free save gp fs, sound_kev kev -> resolves kev -> matching F D -> argument_list F free -> plain_formula F ->
  (exists fs' lib ls, energy_and_denergy kev F D (Some free) false save gp fs = (fs', Ok (lib, ls))) \/
  (energy_and_denergy kev F D (Some free) false save gp fs = (fs, Raise IndexError) /\
   forall xs xs' rho rho', assigns free xs rho -> assigns free xs' rho' -> misfit F D rho = misfit F D rho').
Proof. intros kev F D free save gp fs KEV. exact (gradient_exists kev KEV F D free save gp fs). Qed.
Print Assumptions C65_exists.
(** Other failures are errors too: nothing but OSError. *)
Theorem C65_failure : forall kev F D free save gp fs fs' x, sound_kev kev -> matching F D -> argument_list F free ->
  energy_and_denergy kev F D (Some free) false save gp fs = (fs', Raise x) ->
  x = OSError \/ (x = IndexError /\ fs' = fs /\ forall xs xs' rho rho', assigns free xs rho -> assigns free xs' rho' -> misfit F D rho = misfit F D rho').
Proof. intros kev F D free save gp fs fs' x KEV. exact (gradient_raise kev KEV F D free save gp fs fs' x). Qed.
Print Assumptions C65_failure.
(** Chunking with a gradient is refused before anything is written, unless both
    functions are loaded; then the argument makes no difference. *)
Theorem C65_chunked : forall kev optimiser F D guess bounds own save gs load gl kw fs free, ff_free_symbols F = Ok free -> free <> [] ->
  (load = None \/ gl = None ->
     basinhopping_fit_jac kev optimiser F D guess bounds own true save gs load gl kw fs = (fs, kw, Raise NotImplementedError)) /\
  (load <> None -> gl <> None ->
     basinhopping_fit_jac kev optimiser F D guess bounds own true save gs load gl kw fs
     = basinhopping_fit_jac kev optimiser F D guess bounds own false save gs load gl kw fs).
Proof.
  intros kev optimiser F D guess bounds own save gs load gl kw fs free E NE. unfold basinhopping_fit_jac. rewrite E. destruct free as [|s free]; [congruence|].
  split.
  - intros [-> | ->]; [|destruct load]; reflexivity.
  - destruct load, gl; try congruence; reflexivity.
Qed.
Print Assumptions C65_chunked.
Example C65_case_chunked : snd (basinhopping_fit_jac (fun e => e) (fun _ _ _ _ _ => Ok [3; 1]%R) Fx Dx [(sb, 0%R); (sa, 1%R)] None [] true None None (Some "c"%string) None [] []) = Raise NotImplementedError.
Proof. rewrite (proj1 (C65_chunked _ _ _ _ _ _ _ _ _ _ _ _ _ _ Fx_free ltac:(discriminate)) (or_intror eq_refl)). reflexivity. Qed.
(** The gradient of a cost in complex parameters is refused although the cost works:
    sympy leaves the conjugate, its derivative is not code. *)
Definition sc : sym := mksym "c" None.
Definition Fc : fform := mkff [("PP"%string, mkrow true [ESym sc])] 0.
Theorem C65_complex_refuted : exists kev fs lib, sound_kev kev /\ resolves kev /\ matching Fc D1 /\
  gen_cost_func kev Fc D1 None false None [] = (fs, Ok lib) /\ computes Fc D1 [sc] lib /\
  snd (energy_and_denergy kev Fc D1 None false None None []) = Raise OSError.
Proof.
  assert (Ma : matching Fc D1).
  { split; [split; [repeat constructor; cbn; tauto|]; cbn; intros k r [E|[]]; injection E as <- <-; reflexivity|].
    split; [apply F1_matching|]. split; [reflexivity|]. cbn; tauto. }
  destruct (cost_ok push push_sound Fc D1 [sc] false None [] Ma) as (lib & G & H); [apply free_argument_list; reflexivity|discriminate|].
  exists push, [], lib. split; [exact push_sound|]. split; [exact push_resolves|]. split; [exact Ma|].
  split; [rewrite (gen_default push Fc D1 [sc] false None [] eq_refl); exact G|]. split; [exact H|]. reflexivity.
Qed.
Print Assumptions C65_complex_refuted.
Example C65_case : exists fs' lib ls g, energy_and_denergy push F1 D1 (Some [sa]) false None None [] = (fs', Ok (lib, ls)) /\ call_all ls [5]%R = Some [g] /\ g = 6%R.
Proof.
  destruct (F1_gradient push None None [] push_sound push_resolves) as (fs' & lib & ls & E & L).
  destruct (C65_gradient push F1 D1 [sa] None None [] fs' lib ls push_sound F1_matching) as (_ & H); [apply free_argument_list; reflexivity|exact E|].
  destruct (H [5]%R eq_refl) as (g & Eg & Lg & Dg). destruct g as [|g [|? ?]]; try discriminate. exists fs', lib, ls, g. split; [exact E|]. split; [exact Eg|].
  specialize (Dg 0 g eq_refl). cbn [nth set_nth] in Dg.
  apply (uniqueness_limite (fun t => misfit F1 D1 (reading [sa] [t])) 5%R); [exact Dg|].
  apply (dpl_ext (fun t => (t - 2) ^ 2)%R _ 5%R 6%R); [intros t; symmetry; apply F1_misfit|reflexivity|].
  replace 6%R with (INR 2 * (5 - 2) ^ 1 * 1)%R by (cbn; ring).
  apply (dpl_comp (fun t => (t - 2)%R) (fun y => (y ^ 2)%R)).
  - replace 1%R with (1 - 0)%R at 1 by ring. apply (derivable_pt_lim_minus id (fct_cte 2)); [apply derivable_pt_lim_id|apply derivable_pt_lim_const].
  - apply derivable_pt_lim_pow.
Qed.

(* ================================================================== *)
(** * C66: saved costs *)

(** A cost saved with the default arguments and loaded by a fit gives the same fit
    as one that is generated, for every optimiser. *)
Theorem C66_reuse : forall kev F D chunk name fs fs1 lib, sound_kev kev -> matching F D ->
  gen_cost_func kev F D None chunk (Some name) fs = (fs1, Ok lib) -> forall free, ff_free_symbols F = Ok free ->
  load_func name fs1 = Ok lib /\ computes F D free lib /\
  forall optimiser guess b1 b2 own kw,
    least_squares_fit kev optimiser F D guess b1 chunk None (Some name) kw fs1 = least_squares_fit kev optimiser F D guess b1 chunk None None kw fs1 /\
    basinhopping_fit kev optimiser F D guess b2 own chunk None (Some name) kw fs1 = basinhopping_fit kev optimiser F D guess b2 own chunk None None kw fs1 /\
    dual_annealing_fit kev optimiser F D guess b1 chunk None (Some name) kw fs1 = dual_annealing_fit kev optimiser F D guess b1 chunk None None kw fs1.
Proof.
  intros kev F D chunk name fs fs1 lib KEV Ma G free Ef. rewrite (gen_default kev F D free chunk (Some name) fs Ef) in G.
  assert (C : chunk = true -> ff_rows F <> []).
  { intros -> X. revert G. unfold gen_cost_func, terms, symbols_or. cbn [bind]. unfold ff_get_keys. rewrite X. cbn. discriminate. }
  destruct (cost_ok kev KEV F D free chunk (Some name) fs Ma (free_argument_list F free Ef) C) as (lib' & G' & H). rewrite G' in G. injection G as <- <-.
  assert (Ld : load_func name (save_lib (Some name) lib' fs) = Ok lib') by (unfold load_func; cbn [save_lib]; rewrite dget_dset_eq; reflexivity).
  split; [exact Ld|]. split; [exact H|]. intros optimiser guess b1 b2 own kw.
  unfold least_squares_fit, basinhopping_fit, dual_annealing_fit. rewrite Ef. destruct free as [|s free]; [auto|]. unfold cost_of.
  assert (G2 : gen_cost_func kev F D (Some (s :: free)) chunk None (save_lib (Some name) lib' fs) = (save_lib (Some name) lib' fs, Ok lib')).
  { clear - G'. revert G'. unfold gen_cost_func. destruct chunk.
    - destruct (terms kev F D (Some (s :: free))) as [(ts, n)|]; [|discriminate]. unfold chunked.
      destruct (forallb _ ts); [|discriminate]. destruct ts as [|t ts]; [discriminate|]. cbn [save_lib]. intros X; injection X as _ <-. reflexivity.
    - destruct (energy_expr kev F D (Some (s :: free))) as [(e, n)|]; [|discriminate]. unfold autowrap. cbn [save_lib]. intros X; injection X as _ <-. reflexivity. }
  cbn [save_lib] in *. rewrite Ld, G2. auto.
Qed.
Print Assumptions C66_reuse.
(** Saved with another argument order it is the cost of other parameter values:
    the fit does not notice. *)
Definition F12 : fform := mkff [("PP"%string, mkrow true [EAdd [ESym sa; ESym sb; ESym sb]])] 0.
Definition D12 : fdat := mkfdat [("PP"%string, [RtoC 1])] 1 (PNum 0) 0.
Lemma F12_matching : matching F12 D12.
Proof.
  split; [split; [repeat constructor; cbn; tauto|]; cbn; intros k r [E|[]]; injection E as <- <-; reflexivity|].
  split; [split; [repeat constructor; cbn; tauto|]; cbn; intros k r [E|[]]; injection E as <- <-; reflexivity|]. split; [reflexivity|]. cbn; tauto.
Qed.
Lemma F12_misfit rho x y : rho sa = RtoC x -> rho sb = RtoC y -> misfit F12 D12 rho = ((x + 2 * y - 1) ^ 2)%R.
Proof.
  intros A B. assert (E : misfit F12 D12 rho = (Cmod (Cminus (rho sa + (rho sb + (rho sb + RtoC 0)))%C (RtoC 1)) ^ 2 + 0 + 0)%R) by reflexivity.
  rewrite E, A, B, <- !RtoC_plus, <- RtoC_minus, Cmod_R, pow2_abs. ring.
Qed.
Theorem C66_order_refuted : forall kev, sound_kev kev -> exists F D args name fs1 lib xs rho, matching F D /\ ff_free_symbols F = Ok [sa; sb] /\ argument_list F args /\
  gen_cost_func kev F D (Some args) false (Some name) [] = (fs1, Ok lib) /\
  assigns [sa; sb] xs rho /\ misfit F D rho = 0%R /\ call lib xs = Some 1%R /\
  forall guess kw, (forall n, In n (ls_reserved (@None unit)) -> dget n kw = None) -> dget sa guess = Some 0%R -> dget sb guess = Some 0%R ->
    forall optimiser x, optimiser (Scalar (fun x => option_map sqrt (call lib x))) [0; 0]%R None [] kw = Ok x -> length x = 2 ->
      least_squares_fit kev optimiser F D guess None false None (Some name) kw fs1 = (fs1, Ok (Fitted x (combine [sa; sb] x))).
Proof.
  intros kev KEV. assert (A : argument_list F12 [sb; sa]).
  { split; [repeat constructor; cbn; intuition discriminate|]. intros s (k & r & e & I & J & S). cbn in I. destruct I as [E|[]]. injection E as <- <-.
    cbn in J. destruct J as [<-|[]]. cbn in S. cbn. tauto. }
  assert (A' : argument_list F12 [sa; sb]) by (apply free_argument_list; reflexivity).
  destruct (cost_ok kev KEV F12 D12 [sb; sa] false (Some "c"%string) [] F12_matching A ltac:(discriminate)) as (lib & G & H).
  exists F12, D12, [sb; sa], "c"%string, (save_lib (Some "c"%string) lib []), lib, [1; 0]%R, (reading [sa; sb] [1; 0]%R).
  split; [exact F12_matching|]. split; [reflexivity|]. split; [exact A|]. split; [exact G|]. split; [apply reading_assigns; [apply A'|cbn; lia]|].
  split; [rewrite (F12_misfit _ 1 0); [ring|reflexivity|reflexivity]|]. split.
  { rewrite (H [1; 0]%R (reading [sb; sa] [1; 0]%R)); [|cbn; lia|apply reading_assigns; [apply A|cbn; lia]]. f_equal.
    rewrite (F12_misfit _ 0 1); [ring|reflexivity|reflexivity]. }
  intros guess kw K Ga Gb optimiser x Ex L. unfold least_squares_fit. change (ff_free_symbols F12) with (Ok [sa; sb]). cbn iota beta.
  unfold cost_of, load_func. change (dget "c"%string (save_lib (Some "c"%string) lib [])) with (Some lib). cbn [bind].
  assert (X0 : x0_of [sa; sb] guess = Ok [0; 0]%R) by (apply x0_of_ok; repeat constructor; assumption). rewrite X0. cbn [bind].
  rewrite no_clash_ok by exact K. cbn [bind]. change (root (call lib)) with (fun x => option_map sqrt (call lib x)). rewrite Ex. cbn [bind].
  destruct (xdict_exists [sa; sb] x L) as (xd & Ed). rewrite Ed. cbn [bind]. rewrite (xdict_combine [sa; sb] x xd (proj1 A') L Ed). reflexivity.
Qed.
Print Assumptions C66_order_refuted.
Example C66_case : exists fs1 lib, gen_cost_func (fun e => e) Fx Dx None true (Some "c"%string) [] = (fs1, Ok lib) /\ load_func "c" fs1 = Ok lib /\ call lib [3; 1]%R = Some 0%R.
Proof.
  destruct C52_case as (lib & G & E & _). exists [("c"%string, lib)], lib. split; [exact G|]. split; [|exact E].
  apply (C66_reuse _ _ _ _ _ _ _ _ id_sound Fx_matching G [sa; sb] Fx_free).
Qed.

(* ================================================================== *)
(** * C67: argument lists with omissions *)

(** Whatever the list (parameters may be missing or repeated), no wrong cost comes
    out.  Chunked, the list is refused and nothing is written, or the function
    computes the misfit whatever the values of the missing parameters … *)
Theorem C67_chunked_partial : forall kev F D args save fs, sound_kev kev -> matching F D -> ff_rows F <> [] ->
  gen_cost_func kev F D (Some args) true save fs = (fs, Raise CodeGenArgumentListError) \/
  exists fs' lib, gen_cost_func kev F D (Some args) true save fs = (fs', Ok lib) /\
    forall xs rho, respects rho -> length args <= length xs -> assigns args xs rho -> call lib xs = Some (misfit F D rho).
Proof. intros kev F D args save fs KEV. exact (chunked_outcome kev KEV F D args save fs). Qed.
Print Assumptions C67_chunked_partial.
(** … so a list that misses a parameter on which the misfit depends is refused. *)
Theorem C67_refused_partial : forall kev F D args save fs xs rho rho', sound_kev kev -> matching F D -> ff_rows F <> [] ->
  respects rho -> respects rho' -> length args <= length xs -> assigns args xs rho -> assigns args xs rho' -> misfit F D rho <> misfit F D rho' ->
  gen_cost_func kev F D (Some args) true save fs = (fs, Raise CodeGenArgumentListError).
Proof.
  intros kev F D args save fs xs rho rho' KEV Ma NE R R' L A A' N.
  destruct (chunked_outcome kev KEV F D args save fs Ma NE) as [E|(fs' & lib & _ & H)]; [exact E|exfalso].
  apply N. pose proof (H xs rho R L A) as E. rewrite (H xs rho' R' L A') in E. congruence.
Qed.
Print Assumptions C67_refused_partial.
(** Not chunked, the function is never defined or computes the misfit. *)
Theorem C67_plain_partial : forall kev F D args save fs, sound_kev kev -> matching F D ->
  exists fs' lib, gen_cost_func kev F D (Some args) false save fs = (fs', Ok lib) /\
    ((forall xs, call lib xs = None) \/
     forall xs rho, respects rho -> length args <= length xs -> assigns args xs rho -> call lib xs = Some (misfit F D rho)).
Proof. intros kev F D args save fs KEV. exact (plain_outcome kev KEV F D args save fs). Qed.
Print Assumptions C67_plain_partial.
(** Both values of the omitted b of [F12] leave a = 0; the misfits differ. *)
Example C67_case : exists rho rho', respects rho /\ respects rho' /\ assigns [sa] [0]%R rho /\ assigns [sa] [0]%R rho' /\ misfit F12 D12 rho <> misfit F12 D12 rho'.
Proof.
  exists (reading [sa; sb] [0; 0]%R), (reading [sa; sb] [0; 2]%R).
  split; [intros s _; cbn; destruct (sym_eqb s sa); [reflexivity|destruct (sym_eqb s sb); reflexivity]|].
  split; [intros s _; cbn; destruct (sym_eqb s sa); [reflexivity|destruct (sym_eqb s sb); reflexivity]|].
  split; [intros [|[|i]] s E; cbn in E; try discriminate; injection E as <-; reflexivity|].
  split; [intros [|[|i]] s E; cbn in E; try discriminate; injection E as <-; reflexivity|].
  rewrite (F12_misfit _ 0 0), (F12_misfit _ 0 2) by reflexivity. lra.
Qed.
(** Not chunked: accepted, and calling the result is undefined behaviour. *)
Theorem C67_plain_refuted : exists kev F D args lib, sound_kev kev /\ matching F D /\ in_formula F sb /\ ~ In sb args /\
  gen_cost_func kev F D (Some args) false None [] = ([], Ok lib) /\ (forall xs, call lib xs = None) /\
  gen_cost_func kev F D (Some args) true None [] = ([], Raise CodeGenArgumentListError).
Proof.
  exists (fun e => e), F12, D12, [sa]. eexists. split; [exact id_sound|]. split; [exact F12_matching|]. split.
  { exists "PP"%string, (mkrow true [EAdd [ESym sa; ESym sb; ESym sb]]), (EAdd [ESym sa; ESym sb; ESym sb]). cbn. tauto. }
  split; [cbn; intuition discriminate|]. split; [cbn; reflexivity|]. split; [reflexivity|]. cbn. reflexivity.
Qed.
Print Assumptions C67_plain_refuted.

(* ================================================================== *)
(** * C68: a model that was never saved *)

Theorem C68_missing_model_refuted : exists F xs rho k r m, formula_ok F /\ ff_free_symbols F = Ok [sa; sb] /\ assigns [sa; sb] xs rho /\ In (k, r) (ff_rows F) /\
  eval rho (fcell (ff_M F) r m) = RtoC 3 /\ model_value (load_model_func F []) xs k m = Ok (Some (RtoC 0)).
Proof.
  exists Fx, [3; 1]%R, (reading [sa; sb] [3; 1]%R), "PP"%string, (mkrow true [ESym sb; ESym sa; ESym sb]), 0%Z.
  split; [exact Fx_ok|]. split; [exact Fx_free|]. split; [apply two_assigns|]. split; [left; reflexivity|]. split; [|apply load_empty; [left; reflexivity|right; left; reflexivity]].
  cbn. posn. reflexivity.
Qed.
Print Assumptions C68_missing_model_refuted.
(** A cost that was never saved is an error. *)
Theorem C68_missing_cost_partial : forall kev optimiser F D guess b1 b2 own chunk save gs name prefix kw fs s free, ff_free_symbols F = Ok (s :: free) -> dget name fs = None ->
  load_func name fs = Raise OSError /\
  least_squares_fit kev optimiser F D guess b1 chunk save (Some name) kw fs = (fs, Raise OSError) /\
  basinhopping_fit kev optimiser F D guess b2 own chunk save (Some name) kw fs = (fs, kw, Raise OSError) /\
  basinhopping_fit_jac kev optimiser F D guess b2 own chunk save gs (Some name) (Some prefix) kw fs = (fs, kw, Raise OSError) /\
  dual_annealing_fit kev optimiser F D guess b1 chunk save (Some name) kw fs = (fs, Raise OSError).
Proof.
  intros kev optimiser F D guess b1 b2 own chunk save gs name prefix kw fs s free Ef En.
  assert (L : load_func name fs = Raise OSError) by (unfold load_func; rewrite En; reflexivity). split; [exact L|].
  unfold least_squares_fit, basinhopping_fit, basinhopping_fit_jac, dual_annealing_fit, cost_of, load_energy_and_denergy. rewrite Ef, L. auto.
Qed.
Print Assumptions C68_missing_cost_partial.

(* ================================================================== *)
(** * C69: saving one cost leaves the others *)

Theorem C69_other_files : forall kev F D free chunk name other fs, name <> other ->
  dget other (fst (gen_cost_func kev F D free chunk (Some name) fs)) = dget other fs.
Proof.
  intros kev F D free chunk name other fs N. unfold gen_cost_func. destruct chunk.
  - destruct (terms kev F D free) as [(ts, n)|]; [|reflexivity]. unfold chunked. destruct (forallb _ ts); [|reflexivity].
    destruct ts; cbn [fst save_lib]; [apply dget_dremove_neq; congruence|apply dget_dset_neq; congruence].
  - destruct (energy_expr kev F D free) as [(e, n)|]; [|reflexivity]. unfold autowrap. cbn [fst save_lib]. apply dget_dset_neq; congruence.
Qed.
Print Assumptions C69_other_files.
(** Without a file name nothing is written, whatever happens. *)
Theorem C69_no_file : forall kev F D free chunk fs, fst (gen_cost_func kev F D free chunk None fs) = fs.
Proof.
  intros kev F D free chunk fs. unfold gen_cost_func. destruct chunk.
  - destruct (terms kev F D free) as [(ts, n)|]; [|reflexivity]. unfold chunked. destruct (forallb _ ts); [|reflexivity]. destruct ts; reflexivity.
  - destruct (energy_expr kev F D free) as [(e, n)|]; reflexivity.
Qed.
Print Assumptions C69_no_file.
(** A failed generation does not destroy the file that was there (the claim), except
    for an empty formula, chunked: the file is removed. *)
Theorem C69_failure_partial : forall kev F D free chunk save fs fs' x, ff_rows F <> [] ->
  gen_cost_func kev F D free chunk save fs = (fs', Raise x) -> fs' = fs.
Proof.
  intros kev F D free chunk save fs fs' x NE. unfold gen_cost_func. destruct chunk.
  - destruct (terms kev F D free) as [(ts, n)|] eqn:T; [|intros X; injection X as <- _; reflexivity]. unfold chunked. destruct (forallb _ ts); [|intros X; injection X as <- _; reflexivity].
    destruct ts as [|t ts]; [|discriminate]. exfalso. unfold terms in T. destruct (symbols_or F free) as [l|]; cbn [bind] in T; [|discriminate].
    destruct (mapM _ _) as [ts|] eqn:M; cbn [bind] in T; [|discriminate]. injection T as -> _. apply mapM_Ok in M. inversion M as [E|]. 
    apply NE. unfold ff_get_keys, dkeys in E. destruct (ff_rows F) as [|(k, r) rs]; [reflexivity|]. exfalso. cbn [map list_prod] in E.
    assert (Q : length (freqs (ff_M F)) = 2 * ff_M F + 1) by apply length_freqs. destruct (freqs (ff_M F)); [cbn [length] in Q; lia|discriminate].
  - destruct (energy_expr kev F D free) as [(e, n)|]; [discriminate|]. intros X; injection X as <- _; reflexivity.
Qed.
Print Assumptions C69_failure_partial.
Theorem C69_failure_refuted : forall kev lib, exists F D fs', formula_ok F /\ data_ok D /\
  gen_cost_func kev F D None true (Some "c"%string) [("c"%string, lib)] = (fs', Raise FileNotFoundError) /\ dget "c"%string fs' = None.
Proof.
  intros kev lib. exists (mkff [] 1), (mkfdat [] 1 (PNum 0) 1), []. split; [split; [constructor|intros k r []]|]. split; [split; [constructor|intros k r []]|].
  split; reflexivity.
Qed.
Print Assumptions C69_failure_refuted.
Example C69_case : dget "d"%string (fst (gen_cost_func (fun e => e) Fx Dx None true (Some "c"%string) [("d"%string, [])])) = Some [].
Proof. rewrite C69_other_files by discriminate. reflexivity. Qed.
