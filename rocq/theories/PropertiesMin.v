(** Properties C83 (ranking), C91, C92: what fits find.  Beside each theorem a
    concrete case. *)
From Coq Require Import String List Arith ZArith QArith Qreals Reals Lra Lia Permutation.
From Coquelicot Require Import Complex.
From Verif Require Import PyBase CBase Expr ExprProofs DataModel FDataModel SpecFData FDataProofs FormModel SpecForm FormProofs FormProofs2 FormProofs3
  FitModel SpecFit FitProofs FitProofs2 FitProofs3 FitProofs4 FitProofs5 SpecLsq LsqProofs LsqProofs2 SpecPipe PipeProofs PipeThms PropertiesForm PropertiesFit PropertiesLsq MinProofs.
Import ListNotations.
Local Open Scope nat_scope.

(* ================================================================== *)
(** * C91: the gradient vanishes where the cost is smallest *)

Theorem C91_minimum : forall kev F D free save gp fs fs' lib ls xs c, sound_kev kev -> matching F D -> argument_list F free ->
  energy_and_denergy kev F D (Some free) false save gp fs = (fs', Ok (lib, ls)) ->
  length xs = length free -> call lib xs = Some c ->
  (forall ys y, length ys = length free -> call lib ys = Some y -> (c <= y)%R) ->
  call_all ls xs = Some (repeat 0%R (length free)).
Proof.
  intros kev F D free save gp fs fs' lib ls xs c KEV Ma Ar E L Ec Mn.
  destruct (C65_gradient kev F D free save gp fs fs' lib ls KEV Ma Ar E) as (Cp & Gr).
  destruct (Gr xs L) as (g & Eg & Lg & Dg). rewrite Eg. f_equal.
  assert (V : forall ys, length ys = length free -> call lib ys = Some (misfit F D (reading free ys))).
  { intros ys Ly. apply Cp; [lia|]. apply reading_assigns; [apply Ar|lia]. }
  apply (gradient_at_minimum F D free xs g Lg Dg). intros ys Ly.
  assert (Ly' : length ys = length free) by congruence.
  pose proof (V xs L) as Vx. rewrite Ec in Vx. injection Vx as <-. apply (Mn ys); auto.
Qed.
Print Assumptions C91_minimum.

(** In particular where the formula reproduces the data, and at the parameters
    from which simulated data were made. *)
Theorem C91_perfect : forall kev F D free save gp fs fs' lib ls xs, sound_kev kev -> matching F D -> argument_list F free ->
  energy_and_denergy kev F D (Some free) false save gp fs = (fs', Ok (lib, ls)) ->
  length xs = length free -> reproduces F D (reading free xs) ->
  call lib xs = Some 0%R /\ call_all ls xs = Some (repeat 0%R (length free)).
Proof.
  intros kev F D free save gp fs fs' lib ls xs KEV Ma Ar E L Rp.
  destruct (C65_gradient kev F D free save gp fs fs' lib ls KEV Ma Ar E) as (Cp & _).
  assert (V : forall ys, length ys = length free -> call lib ys = Some (misfit F D (reading free ys))).
  { intros ys Ly. apply Cp; [lia|]. apply reading_assigns; [apply Ar|lia]. }
  assert (Z : call lib xs = Some 0%R) by (rewrite (V xs L); f_equal; apply misfit_zero; exact Rp).
  split; [exact Z|]. apply (C91_minimum kev F D free save gp fs fs' lib ls xs 0%R KEV Ma Ar E L Z).
  intros ys y Ly Ey. rewrite (V ys Ly) in Ey. injection Ey as <-. apply misfit_nonneg.
Qed.
Print Assumptions C91_perfect.

Theorem C91_generated : forall ev kev F d free xs save gp fs D fs' lib ls, sound_ev ev -> sound_kev kev -> ff_reachable ev F -> symbolic F -> ff_M F = 16 ->
  argument_list F free -> parameter_values d -> listed d free xs -> fform_to_fdat ev F d = Ok D ->
  energy_and_denergy kev F D (Some free) false save gp fs = (fs', Ok (lib, ls)) ->
  call lib xs = Some 0%R /\ call_all ls xs = Some (repeat 0%R (length free)).
Proof.
  intros ev kev F d free xs save gp fs D fs' lib ls EV KEV R S M16 Ar [N Rd] L ED E.
  destruct (listed_assigns d free xs N L) as (As & _ & Inc).
  assert (Oc : forall s, ff_occurs F s -> In s (dkeys d)) by (intros s O; apply Inc, (proj2 Ar); exact O).
  destruct (simulated_matching ev EV F d (ff_reachable_wf ev F R) S M16 Oc) as (D' & ED' & Ma & Rp). rewrite ED in ED'. injection ED' as <-.
  assert (Lx : length xs = length free) by (clear - L; induction L; simpl; congruence).
  apply (C91_perfect kev F D free save gp fs fs' lib ls xs KEV Ma Ar E Lx).
  pose proof (Rp (dict_env d) (dict_env_respects d Rd) (dict_env_agrees d N)) as Z.
  apply misfit_zero. apply misfit_zero in Z.
  destruct (C65_gradient kev F D free save gp fs fs' lib ls KEV Ma Ar E) as (Cp & _).
  pose proof (Cp xs (dict_env d) ltac:(lia) As) as C1.
  pose proof (Cp xs (reading free xs) ltac:(lia) (reading_assigns free xs (proj1 Ar) ltac:(lia))) as C2. congruence.
Qed.
Print Assumptions C91_generated.

Example C91_case : exists fs' lib ls, energy_and_denergy push Fx Dx (Some [sa; sb]) false None None [] = (fs', Ok (lib, ls)) /\
  call_all ls [3; 1]%R = Some [0; 0]%R.
Proof.
  assert (A : argument_list Fx [sa; sb]) by (apply free_argument_list; reflexivity).
  destruct (gradient_exists push push_sound Fx Dx [sa; sb] None None [] push_resolves Fx_matching A Fx_plain) as [(fs' & lib & ls & E)|(_ & H)].
  2:{ exfalso. apply Fx_varies. apply (H [3; 1]%R [4; 1]%R); apply reading_assigns; try apply A; cbn; lia. }
  exists fs', lib, ls. split; [exact E|].
  apply (C91_perfect push Fx Dx [sa; sb] None None [] fs' lib ls [3; 1]%R push_sound Fx_matching A E eq_refl Fx_reproduces).
Qed.

(* ================================================================== *)
(** * C92: the cost depends on the polarizations of the formula and the data for
    them, not on the order in which they are listed nor on other data *)

Theorem C92_misfit : forall F F' D D' rho, matching F D -> matching F' D' -> ff_M F = ff_M F' ->
  (forall k, ff_get_pc F k = ff_get_pc F' k) -> (forall k, In k (ff_get_keys F) -> fget_pc D k = fget_pc D' k) ->
  misfit F D rho = misfit F' D' rho.
Proof. exact misfit_rows. Qed.
Print Assumptions C92_misfit.

Theorem C92_cost : forall kev F F' D D' free chunk chunk' save save' fs fs', sound_kev kev -> matching F D -> matching F' D' -> ff_M F = ff_M F' ->
  (forall k, ff_get_pc F k = ff_get_pc F' k) -> (forall k, In k (ff_get_keys F) -> fget_pc D k = fget_pc D' k) ->
  ff_get_keys F <> [] -> argument_list F free ->
  exists lib lib', gen_cost_func kev F D (Some free) chunk save fs = (save_lib save lib fs, Ok lib) /\
    gen_cost_func kev F' D' (Some free) chunk' save' fs' = (save_lib save' lib' fs', Ok lib') /\
    forall xs, length free <= length xs -> call lib xs <> None /\ call lib xs = call lib' xs.
Proof.
  intros kev F F' D D' free chunk chunk' save save' fs fs' KEV Ma Ma' M H HD NE Ar.
  assert (Ar' : argument_list F' free).
  { split; [apply Ar|]. intros s (k & r & e & I & Ie & Is). apply (proj2 Ar).
    destruct (rows_back F F' k r (proj1 Ma) (proj1 Ma') H I) as (r0 & I0 & E0). exists k, r0, e. rewrite E0. auto. }
  assert (NE' : ff_rows F' <> []).
  { intros E. apply NE. unfold ff_get_keys, dkeys. destruct (ff_rows F) as [|[k r] l] eqn:Er; [reflexivity|]. exfalso.
    specialize (H k). unfold ff_get_pc, dgetr in H. rewrite E, Er in H. cbn [dget] in H. rewrite eqb_refl in H. discriminate H. }
  assert (NE0 : ff_rows F <> []) by (intros E; apply NE; unfold ff_get_keys; rewrite E; reflexivity).
  destruct (C52_cost kev F D free chunk save fs KEV Ma Ar (fun _ => NE0)) as (lib & G & V).
  destruct (C52_cost kev F' D' free chunk' save' fs' KEV Ma' Ar' (fun _ => NE')) as (lib' & G' & V').
  exists lib, lib'. split; [exact G|]. split; [exact G'|]. intros xs L.
  pose proof (reading_assigns free xs (proj1 Ar) L) as A. rewrite (V xs _ L A), (V' xs _ L A). split; [discriminate|].
  f_equal. apply C92_misfit; assumption.
Qed.
Print Assumptions C92_cost.

(** The polarizations of the example in the other order, and one more in the data. *)
Example C92_case :
  let F' := mkff (rev (ff_rows Fx)) 1 in
  let D' := mkfdat (("SS"%string, [RtoC 0; RtoC 7; RtoC 0]) :: rev (fd_data Dx)) 1 (PNum 0) 1 in
  matching F' D' /\ (forall k, ff_get_pc Fx k = ff_get_pc F' k) /\ (forall k, In k (ff_get_keys Fx) -> fget_pc Dx k = fget_pc D' k) /\
  fget_items D' <> fget_items Dx /\ ff_get_keys F' <> ff_get_keys Fx.
Proof.
  cbn zeta. split.
  { split; [split; [repeat constructor; cbn; intuition discriminate|]; cbn; intros k r [E|[E|[]]]; injection E as <- <-; reflexivity|].
    split; [split; [repeat constructor; cbn; intuition discriminate|]; cbn; intros k r [E|[E|[E|[]]]]; injection E as <- <-; reflexivity|].
    split; [reflexivity|]. cbn. tauto. }
  split; [|split; [|split; discriminate]].
  - intros k. unfold ff_get_pc, dgetr. cbn. destruct (String.eqb_spec k "PP"%string) as [->|N]; [reflexivity|]. destruct (String.eqb_spec k "PS"%string); reflexivity.
  - intros k [<-|[<-|[]]]; reflexivity.
Qed.

(* ================================================================== *)
(** * C83: scaling formula and data together by a positive number does not change
    which parameters fit better *)

Theorem C83_ranking : forall ev kev F D s x free free' chunk save fs, sound_ev ev -> sound_kev kev -> matching F D -> (chunk = true -> ff_rows F <> []) ->
  argument_list F free -> argument_list (ff_scale ev F s) free' -> (forall rho, respects rho -> eval rho s = RtoC x) -> (0 < x)%R ->
  exists lib lib', gen_cost_func kev F D (Some free) chunk save fs = (save_lib save lib fs, Ok lib) /\
    gen_cost_func kev (ff_scale ev F s) (fst (scale_fdata D x)) (Some free') chunk save fs = (save_lib save lib' fs, Ok lib') /\
    forall rho1 rho2 xs1 xs2 ys1 ys2 c1 c2 e1 e2, respects rho1 -> respects rho2 ->
      length free <= length xs1 -> length free <= length xs2 -> length free' <= length ys1 -> length free' <= length ys2 ->
      assigns free xs1 rho1 -> assigns free xs2 rho2 -> assigns free' ys1 rho1 -> assigns free' ys2 rho2 ->
      call lib xs1 = Some c1 -> call lib xs2 = Some c2 -> call lib' ys1 = Some e1 -> call lib' ys2 = Some e2 ->
      ((c1 <= c2)%R <-> (e1 <= e2)%R).
Proof.
  intros ev kev F D s x free free' chunk save fs EV KEV Ma C Ar Ar' Es P.
  destruct (C83_cost ev kev F D s x free free' chunk save fs EV KEV Ma C Ar Ar' Es ltac:(lra)) as (lib & lib' & G & G' & V).
  exists lib, lib'. split; [exact G|]. split; [exact G'|].
  intros rho1 rho2 xs1 xs2 ys1 ys2 c1 c2 e1 e2 H1 H2 L1 L2 K1 K2 A1 A2 B1 B2 E1 E2 E3 E4.
  destruct (V rho1 xs1 ys1 H1 L1 K1 A1 B1) as (c & X & Y). destruct (V rho2 xs2 ys2 H2 L2 K2 A2 B2) as (c' & X' & Y').
  rewrite E1 in X. injection X as <-. rewrite E2 in X'. injection X' as <-. rewrite E3 in Y. injection Y as ->. rewrite E4 in Y'. injection Y' as ->.
  assert (Q : (0 < x ^ 2)%R) by (apply pow_lt; exact P). split; intros Z.
  - apply Rmult_le_compat_l; lra.
  - apply (Rmult_le_reg_l (x ^ 2)); assumption.
Qed.
Print Assumptions C83_ranking.
