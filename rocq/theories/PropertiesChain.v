(** C141: fits started from the results of other fits. *)
From Coq Require Import String List Arith ZArith QArith Bool Lia Reals Lra.
From Coquelicot Require Import Complex.
From Verif Require Import PyBase CBase Expr ExprProofs SpecFData FDataModel FormModel FitModel SpecFit FitProofs FitProofs2 FitProofs3 FormgenProofs PropertiesFit SpecChain ChainProofs.
Import ListNotations.
Local Open Scope nat_scope.

(* ================================================================== *)
(** * C141 *)

(** One fit: its dictionary, handed to the next fit, is read as exactly the array the
    optimiser returned, and fits no worse than the dictionary it was started from. *)
Theorem C141_step : forall kev F D free guess c fs fs' x xd, sound_kev kev -> matching F D -> ff_free_symbols F = Ok free -> improves (optimiser_of c) ->
  fit kev F D guess c fs = (fs', Ok (Fitted x xd)) ->
  in_order free xd x /\ (misfit F D (valued xd) <= misfit F D (valued guess))%R.
Proof. intros kev F D free guess c fs fs' x xd KEV Ma FF. exact (fit_improves kev KEV F D free Ma FF guess c fs fs' x xd). Qed.
Print Assumptions C141_step.

(** A series of fits by any of the functions, in any order: no result is worse than an
    earlier one, or than the start. *)
Theorem C141_series : forall kev F D free guess fs cs l, sound_kev kev -> matching F D -> ff_free_symbols F = Ok free ->
  (forall c, In c cs -> improves (optimiser_of c)) -> series kev F D guess fs cs l ->
  forall i j xd xd', i <= j -> nth_error (guess :: l) i = Some xd -> nth_error (guess :: l) j = Some xd' -> (misfit F D (valued xd') <= misfit F D (valued xd))%R.
Proof. intros kev F D free guess fs cs l KEV Ma FF O S i j xd xd' Le Ei Ej. exact (series_improves kev KEV F D free Ma FF guess fs cs l O S i xd Ei j xd' Ej Le). Qed.
Print Assumptions C141_series.

(** An optimiser that compares its start with one other array. *)
Definition greedy (cand : list R) (o : objective) (x0 : list R) (bs : option (list (R * R))) (own kw : list (string * val)) : res (list R) :=
  Ok (match value o cand, value o x0 with
      | Some u, Some v => if Nat.eqb (length cand) (length x0) then if Rle_dec u v then cand else x0 else x0
      | _, _ => x0
      end).
Lemma greedy_improves cand : improves (greedy cand).
Proof.
  intros o x0 bs own kw x E. unfold greedy in E. injection E as <-. destruct (value o cand) as [u|] eqn:U, (value o x0) as [v|] eqn:V; try (split; [reflexivity|]; intros w W; exists w; split; [congruence|lra]).
  destruct (Nat.eqb_spec (length cand) (length x0)) as [L|]; [|split; [reflexivity|]; intros w W; exists w; split; [congruence|lra]].
  destruct (Rle_dec u v) as [Le|]; [|split; [reflexivity|]; intros w W; exists w; split; [congruence|lra]].
  split; [exact L|]. intros w W. exists u. split; [exact U|]. assert (v = w) by congruence. subst. exact Le.
Qed.
Lemma Fx_value a b : misfit Fx Dx (reading [sa; sb] [a; b]) = (3 * (b - 1) ^ 2 + (a - 3) ^ 2)%R.
Proof.
  change (misfit Fx Dx (reading [sa; sb] [a; b])) with
    ((Cmod (Cminus (RtoC b) (RtoC 1)) ^ 2 + (Cmod (Cminus (RtoC a) (RtoC 3)) ^ 2 + (Cmod (Cminus (RtoC b) (RtoC 1)) ^ 2 + 0)) +
      (Cmod (Cminus (eval (reading [sa; sb] [a; b]) (num 0)) (RtoC 0)) ^ 2 + (Cmod (Cminus (RtoC b) (RtoC 1)) ^ 2 + (Cmod (Cminus (eval (reading [sa; sb] [a; b]) (num 0)) (RtoC 0)) ^ 2 + 0)) + 0))%R).
  rewrite eval_num0, <- !RtoC_minus, !Cmod_R, !pow2_abs. ring.
Qed.
(** A least-squares fit followed by dual annealing. *)
Example C141_case : let c1 := LeastSquares (greedy [3; 0]%R) None false None [] in let c2 := DualAnnealing (greedy [3; 1]%R) None true None [] in
  improves (optimiser_of c1) /\ improves (optimiser_of c2) /\
  series (fun e => e) Fx Dx [(sb, 0%R); (sa, 0%R)] [] [c1; c2] [[(sa, 3%R); (sb, 0%R)]; [(sa, 3%R); (sb, 1%R)]] /\
  (misfit Fx Dx (valued [(sa, 3%R); (sb, 1%R)]) <= misfit Fx Dx (valued [(sb, 0%R); (sa, 0%R)]))%R.
Proof.
  intros c1 c2. pose proof (free_argument_list Fx [sa; sb] Fx_free) as A.
  assert (S : series (fun e => e) Fx Dx [(sb, 0%R); (sa, 0%R)] [] [c1; c2] [[(sa, 3%R); (sb, 0%R)]; [(sa, 3%R); (sb, 1%R)]]).
  { assert (Q : forall ch, exists lib, cost_of (fun e => e) Fx Dx [sa; sb] ch None None [] = ([], Ok lib) /\ forall a b, call lib [a; b] = Some (3 * (b - 1) ^ 2 + (a - 3) ^ 2)%R).
    { intros ch. destruct (cost_ok (fun e => e) FitProofs5.id_sound Fx Dx [sa; sb] ch None [] Fx_matching A ltac:(intros _; discriminate)) as (lib & G & V). exists lib. split; [exact G|].
      intros a b. rewrite <- Fx_value. apply V; [cbn; lia|]. apply reading_assigns; [apply A|cbn; lia]. }
    destruct (Q false) as (lib1 & G1 & V1). destruct (Q true) as (lib2 & G2 & V2).
    apply series_cons with (fs' := []) (x := [3; 0]%R).
    - cbn [fit c1]. unfold least_squares_fit. rewrite Fx_free, G1. cbn [bind]. change (x0_of [sa; sb] [(sb, 0%R); (sa, 0%R)]) with (Ok [0; 0]%R). cbn [bind].
      change (no_clash ["fun"; "x0"]%string []) with (Ok tt). cbn [bind]. unfold greedy. cbn [value]. unfold root. rewrite !V1. cbn [option_map length Nat.eqb].
      destruct (Rle_dec _ _) as [_|N]; [reflexivity|]. exfalso. apply N. apply sqrt_le_1_alt. lra.
    - apply series_cons with (fs' := []) (x := [3; 1]%R); [|constructor].
      cbn [fit c2]. unfold dual_annealing_fit. rewrite Fx_free, G2. cbn [bind]. change (x0_of [sa; sb] [(sa, 3%R); (sb, 0%R)]) with (Ok [3; 0]%R). cbn [bind].
      unfold greedy. cbn [value]. rewrite !V2. cbn [length Nat.eqb].
      destruct (Rle_dec _ _) as [_|N]; [reflexivity|]. exfalso. apply N. lra. }
  assert (O : forall c, In c [c1; c2] -> improves (optimiser_of c)) by (intros c [<-|[<-|[]]]; apply greedy_improves).
  split; [apply greedy_improves|]. split; [apply greedy_improves|]. split; [exact S|].
  exact (C141_series (fun e => e) Fx Dx [sa; sb] _ [] [c1; c2] _ FitProofs5.id_sound Fx_matching Fx_free O S 0 2 _ _ ltac:(lia) eq_refl eq_refl).
Qed.
