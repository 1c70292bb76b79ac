(** C143: the cost is the distance of the data from the simulated data. *)
From Coq Require Import String List Arith ZArith QArith Qreals Bool Lia Reals Lra.
From Coquelicot Require Import Complex.
From Verif Require Import PyBase CBase Expr ExprProofs SpecForm SpecFData FDataModel FormModel FormProofs2 FitModel SpecFit FitProofs FitProofs2 FitProofs3 PropertiesForm PropertiesFit SpecPipe PipeThms PropertiesPipe
  SpecLoop SpecChain ChainProofs PropertiesChain SpecSim SimProofs.
Import ListNotations.
Local Open Scope nat_scope.

(* ================================================================== *)
(** * C143 *)

(** The cost at given values is the squared distance of the data from what these values
    simulate. *)
Theorem C143_cost : forall ev kev F D d free xs chunk save fs, sound_ev ev -> sound_kev kev -> ff_reachable ev F -> symbolic F -> ff_M F = 16 -> matching F D ->
  argument_list F free -> (chunk = true -> ff_rows F <> []) -> parameter_values d -> listed d free xs ->
  exists S lib, fform_to_fdat ev F d = Ok S /\ gen_cost_func kev F D (Some free) chunk save fs = (save_lib save lib fs, Ok lib) /\ call lib xs = Some (distance S D).
Proof.
  intros ev kev F D d free xs chunk save fs EV KEV Rc. exact (cost_distance ev EV kev KEV F D d free xs chunk save fs (ff_reachable_wf ev F Rc)).
Qed.
Print Assumptions C143_cost.

(** What the result of a fit simulates is no farther from the data than what its start
    simulates. *)
Theorem C143_fit : forall ev kev F D free guess x0 c fs fs' x xd d0 d, sound_ev ev -> sound_kev kev -> ff_reachable ev F -> symbolic F -> ff_M F = 16 -> matching F D ->
  ff_free_symbols F = Ok free -> improves (optimiser_of c) -> in_order free guess x0 -> fit kev F D guess c fs = (fs', Ok (Fitted x xd)) ->
  parameter_values d0 -> same_numbers guess d0 -> parameter_values d -> same_numbers xd d ->
  exists S0 S, fform_to_fdat ev F d0 = Ok S0 /\ fform_to_fdat ev F d = Ok S /\ (distance S D <= distance S0 D)%R.
Proof.
  intros ev kev F D free guess x0 c fs fs' x xd d0 d EV KEV Rc Sy M16 Ma FF O Io X P0 N0 P N.
  pose proof (ff_reachable_wf ev F Rc) as W.
  destruct (numbers_misfit ev EV F D free guess x0 d0 W Sy M16 Ma FF Io P0 N0) as (S0 & E0 & V0).
  destruct (fit_distance ev EV kev KEV F D free guess c fs fs' x xd d W Sy M16 Ma FF O X P N) as (S & E & V).
  exists S0, S. split; [exact E0|]. split; [exact E|]. rewrite <- V0, <- V. exact (proj2 (C141_step kev F D free guess c fs fs' x xd KEV Ma FF O X)).
Qed.
Print Assumptions C143_fit.

Lemma rsum_repeat (a b : C) n : rsum (fun ab => (Cmod (Cminus (fst ab) (snd ab)) ^ 2)%R) (combine (repeat a n) (repeat b n)) = (INR n * Cmod (Cminus a b) ^ 2)%R.
Proof.
  induction n as [|n IH]; [cbn [repeat combine rsum fold_right INR]; unfold rsum; cbn [fold_right]; ring|]. unfold rsum in *. cbn [repeat combine fold_right fst snd]. rewrite IH, S_INR. ring.
Qed.
Lemma repeated {A B} (f : A -> B) a n : map f (repeat a n) = repeat (f a) n.
Proof. induction n as [|n IH]; cbn [repeat map]; [reflexivity|rewrite IH; reflexivity]. Qed.
Definition at_a (q : Q) : list (sym * (Q * Q)) := [(a_sym, (q, 0%Q))].
Lemma at_a_values q : parameter_values (at_a q).
Proof. split; [repeat constructor; cbn; tauto|]. intros s a b [E|[]] _. injection E as _ _ <-. reflexivity. Qed.
Lemma flat_simulated q S : fform_to_fdat (fun e => e) (flat 16) (at_a q) = Ok S -> fd_data S = [("PP"%string, repeat (RtoC (Q2R q)) 33)].
Proof.
  intros E. assert (Oc : forall s, ff_occurs (flat 16) s -> In s (dkeys (at_a q))) by (intros s O; apply flat_occurs in O; left; auto).
  rewrite (simulated_items (fun e => e) PropertiesForm.id_sound (flat 16) (at_a q) S (dict_env (at_a q)) (ff_reachable_wf _ _ (flat_reachable (fun e => e) 16)) (flat_symbolic 16) eq_refl Oc
    (dict_env_respects _ (proj2 (at_a_values q))) (dict_env_agrees _ (proj1 (at_a_values q))) E).
  assert (V : eval (dict_env (at_a q)) A_ = RtoC (Q2R q)).
  { change (eval (dict_env (at_a q)) A_) with (qval (q, 0%Q)). unfold qval, RtoC. cbn [fst snd]. f_equal. unfold Q2R. cbn. lra. }
  unfold flat, dmap. cbn [ff_rows map fst snd r_cells]. rewrite repeated, V. reflexivity.
Qed.
(** Simulated at 3/2, looked at from 1, and fitted from 0. *)
Example C143_case : exists D S S0 lib, fform_to_fdat (fun e => e) (flat 16) (at_a (3 # 2)) = Ok D /\ fform_to_fdat (fun e => e) (flat 16) (at_a 1) = Ok S /\
  matching (flat 16) D /\ gen_cost_func (fun e => e) (flat 16) D (Some [a_sym]) true None [] = ([], Ok lib) /\ call lib [1%R] = Some (distance S D) /\ distance S D = (33 / 4)%R /\
  fit (fun e => e) (flat 16) D [(a_sym, 0%R)] (DualAnnealing (greedy [1%R]) None true None []) [] = ([], Ok (Fitted [1%R] [(a_sym, 1%R)])) /\
  fform_to_fdat (fun e => e) (flat 16) (at_a 0) = Ok S0 /\ (distance S D <= distance S0 D)%R.
Proof.
  destruct C75_case as (_ & _ & A). pose proof (ff_reachable_wf _ _ (flat_reachable (fun e => e) 16)) as W.
  assert (FF : ff_free_symbols (flat 16) = Ok [a_sym]) by reflexivity.
  assert (Oc : forall q s, ff_occurs (flat 16) s -> In s (dkeys (at_a q))) by (intros q s O; apply flat_occurs in O; left; auto).
  assert (Z1 : Q2R 1 = 1%R) by (unfold Q2R; cbn; field). assert (Z0 : Q2R 0 = 0%R) by (unfold Q2R; cbn; field). assert (Z3 : Q2R (3 # 2) = (3 / 2)%R) by (unfold Q2R; cbn; field).
  destruct (simulated_matching (fun e => e) PropertiesForm.id_sound (flat 16) (at_a (3 # 2)) W (flat_symbolic 16) eq_refl (Oc _)) as (D & ED & Ma & _).
  assert (Li : forall q, listed (at_a q) [a_sym] [Q2R q]) by (intros q; constructor; [|constructor]; exists q, 0%Q; split; [left; reflexivity|]; split; reflexivity).
  assert (Dist : forall q S, fform_to_fdat (fun e => e) (flat 16) (at_a q) = Ok S -> distance S D = (33 * (Q2R q - 3 / 2) ^ 2)%R).
  { intros q S ES. unfold distance, fget_items, fget_pc. rewrite (flat_simulated q S ES), (flat_simulated _ D ED). unfold rsum at 1. cbn [fold_right fst snd].
    change (dgetr "PP"%string [("PP"%string, repeat (RtoC (Q2R (3 # 2))) 33)]) with (Ok (repeat (RtoC (Q2R (3 # 2))) 33)). cbv iota beta.
    rewrite rsum_repeat, Z3, <- RtoC_minus, Cmod_R, pow2_abs. replace (INR 33) with 33%R by (rewrite INR_IZR_INZ; reflexivity). ring. }
  destruct (C143_cost (fun e => e) (fun e => e) (flat 16) D (at_a 1) [a_sym] _ true None [] PropertiesForm.id_sound FitProofs5.id_sound (flat_reachable _ 16) (flat_symbolic 16) eq_refl Ma A ltac:(intros _; discriminate) (at_a_values 1) (Li 1%Q)) as (S & lib & ES & G & V).
  destruct (C143_cost (fun e => e) (fun e => e) (flat 16) D (at_a 0) [a_sym] _ true None [] PropertiesForm.id_sound FitProofs5.id_sound (flat_reachable _ 16) (flat_symbolic 16) eq_refl Ma A ltac:(intros _; discriminate) (at_a_values 0) (Li 0%Q)) as (S0 & lib0 & ES0 & G0 & V0).
  cbn [save_lib] in G, G0. assert (lib0 = lib) by congruence. subst lib0. rewrite Z1 in V. rewrite Z0 in V0.
  assert (X : fit (fun e => e) (flat 16) D [(a_sym, 0%R)] (DualAnnealing (greedy [1%R]) None true None []) [] = ([], Ok (Fitted [1%R] [(a_sym, 1%R)]))).
  { cbn [fit]. unfold dual_annealing_fit. rewrite FF. unfold cost_of. rewrite G. cbn [bind]. change (x0_of [a_sym] [(a_sym, 0%R)]) with (Ok [0%R]). cbn [bind].
    unfold greedy. cbn [value]. rewrite V, V0. cbn [length Nat.eqb]. destruct (Rle_dec _ _) as [_|N]; [reflexivity|]. exfalso. apply N. rewrite (Dist _ _ ES), (Dist _ _ ES0), Z1, Z0. lra. }
  exists D, S, S0, lib. split; [exact ED|]. split; [exact ES|]. split; [exact Ma|]. split; [exact G|]. split; [exact V|]. split; [rewrite (Dist _ _ ES), Z1; lra|]. split; [exact X|]. split; [exact ES0|].
  assert (Sn : forall q, same_numbers [(a_sym, Q2R q)] (at_a q)) by (intros q s y [I|[]]; injection I as <- <-; exists q, 0%Q; split; [left; reflexivity|]; split; reflexivity).
  assert (N0 : same_numbers [(a_sym, 0%R)] (at_a 0)) by (rewrite <- Z0; apply Sn). assert (N1 : same_numbers [(a_sym, 1%R)] (at_a 1)) by (rewrite <- Z1; apply Sn).
  assert (Io : in_order [a_sym] [(a_sym, 0%R)] [0%R]) by (constructor; [reflexivity|constructor]).
  destruct (C143_fit (fun e => e) (fun e => e) (flat 16) D [a_sym] [(a_sym, 0%R)] [0%R] (DualAnnealing (greedy [1%R]) None true None []) [] [] _ _ (at_a 0) (at_a 1) PropertiesForm.id_sound FitProofs5.id_sound
    (flat_reachable _ 16) (flat_symbolic 16) eq_refl Ma FF (greedy_improves _) Io X (at_a_values 0) N0 (at_a_values 1) N1) as (T0 & T & E0 & E1 & Le).
  assert (T0 = S0) by congruence. assert (T = S) by congruence. subst. exact Le.
Qed.
