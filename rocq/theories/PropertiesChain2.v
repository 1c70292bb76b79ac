(** C141: series of fits with one saved cost function. *)
From Coq Require Import String List Arith ZArith QArith Bool Lia Reals Lra.
From Coquelicot Require Import Complex.
From Verif Require Import PyBase CBase Expr ExprProofs SpecFData FDataModel FormModel FitModel SpecFit FitProofs FitProofs2 FitProofs3 FormgenProofs PropertiesFit SpecChain ChainProofs PropertiesChain SpecChain2 ChainProofs2.
Import ListNotations.
Local Open Scope nat_scope.

(* ================================================================== *)
(** * C141 *)

(** The first fit saves its cost function, the others load it: no result is worse than an
    earlier one, or than the start. *)
Theorem C141_reuse : forall kev F D free name guess c fs fs' x xd cs l, sound_kev kev -> matching F D -> ff_free_symbols F = Ok free ->
  saves_as c name -> (forall c', In c' (c :: cs) -> improves (optimiser_of c')) ->
  fit kev F D guess c fs = (fs', Ok (Fitted x xd)) -> reuse kev F D name xd fs' cs l ->
  (misfit F D (valued xd) <= misfit F D (valued guess))%R /\
  forall i j y z, i <= j -> nth_error (xd :: l) i = Some y -> nth_error (xd :: l) j = Some z -> (misfit F D (valued z) <= misfit F D (valued y))%R.
Proof. intros kev F D free name guess c fs fs' x xd cs l KEV Ma FF. exact (reuse_saved kev KEV F D free Ma FF name guess c fs fs' x xd cs l). Qed.
Print Assumptions C141_reuse.

(** A least-squares fit saves the cost function, dual annealing loads it. *)
Example C141_case_reuse : exists fs', let c1 := LeastSquares (greedy [3; 0]%R) None false (Some "cost.so"%string) [] in let c2 := DualAnnealing (greedy [3; 1]%R) None true None [] in
  saves_as c1 "cost.so" /\ fit (fun e => e) Fx Dx [(sb, 0%R); (sa, 0%R)] c1 [] = (fs', Ok (Fitted [3; 0]%R [(sa, 3%R); (sb, 0%R)])) /\
  reuse (fun e => e) Fx Dx "cost.so" [(sa, 3%R); (sb, 0%R)] fs' [c2] [[(sa, 3%R); (sb, 1%R)]] /\
  (misfit Fx Dx (valued [(sa, 3%R); (sb, 1%R)]) <= misfit Fx Dx (valued [(sa, 3%R); (sb, 0%R)]))%R.
Proof.
  pose proof (free_argument_list Fx [sa; sb] Fx_free) as A.
  destruct (cost_ok (fun e => e) FitProofs5.id_sound Fx Dx [sa; sb] false (Some "cost.so"%string) [] Fx_matching A ltac:(discriminate)) as (lib & G & V0).
  assert (V : forall a b, call lib [a; b] = Some (3 * (b - 1) ^ 2 + (a - 3) ^ 2)%R) by (intros u v; rewrite <- Fx_value; apply V0; [cbn; lia|]; apply reading_assigns; [apply A|cbn; lia]).
  exists [("cost.so"%string, lib)]. intros c1 c2.
  assert (X1 : fit (fun e => e) Fx Dx [(sb, 0%R); (sa, 0%R)] c1 [] = ([("cost.so"%string, lib)], Ok (Fitted [3; 0]%R [(sa, 3%R); (sb, 0%R)]))).
  { cbn [fit c1]. unfold least_squares_fit. rewrite Fx_free. unfold cost_of. rewrite G. cbn [bind]. change (save_lib (Some "cost.so"%string) lib []) with [("cost.so"%string, lib)].
    change (x0_of [sa; sb] [(sb, 0%R); (sa, 0%R)]) with (Ok [0; 0]%R). cbn [bind].
    change (no_clash ["fun"; "x0"]%string []) with (Ok tt). cbn [bind]. unfold greedy. cbn [value]. unfold root. rewrite !V. cbn [option_map length Nat.eqb].
    destruct (Rle_dec _ _) as [_|N]; [reflexivity|]. exfalso. apply N. apply sqrt_le_1_alt. lra. }
  assert (X2 : reuse (fun e => e) Fx Dx "cost.so" [(sa, 3%R); (sb, 0%R)] [("cost.so"%string, lib)] [c2] [[(sa, 3%R); (sb, 1%R)]]).
  { apply reuse_cons with (fs' := [("cost.so"%string, lib)]) (x := [3; 1]%R); [|constructor].
    cbn [refit c2]. unfold dual_annealing_fit. rewrite Fx_free. unfold cost_of. change (load_func "cost.so" [("cost.so"%string, lib)]) with (Ok lib). cbn [bind].
    change (x0_of [sa; sb] [(sa, 3%R); (sb, 0%R)]) with (Ok [3; 0]%R). cbn [bind]. unfold greedy. cbn [value]. rewrite !V. cbn [length Nat.eqb].
    destruct (Rle_dec _ _) as [_|N]; [reflexivity|]. exfalso. apply N. lra. }
  split; [reflexivity|]. split; [exact X1|]. split; [exact X2|].
  assert (O : forall c', In c' [c1; c2] -> improves (optimiser_of c')) by (intros c [<-|[<-|[]]]; apply greedy_improves).
  destruct (C141_reuse (fun e => e) Fx Dx [sa; sb] "cost.so" _ c1 [] _ _ _ [c2] _ FitProofs5.id_sound Fx_matching Fx_free eq_refl O X1 X2) as (_ & H).
  exact (H 0 1 _ _ ltac:(lia) eq_refl eq_refl).
Qed.
