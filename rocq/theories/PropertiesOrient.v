(** C140: fits with an unknown orientation. *)
From Coq Require Import String List Arith ZArith QArith Bool Lia Reals Lra.
From Coquelicot Require Import Complex.
From Verif Require Import PyBase RMod CBase Expr DataModel SpecData DataProofs DataProofs2 FDataModel SpecFData FDataProofs FDataProofs2 FormModel SpecForm FitModel SpecFit FitProofs
  PropertiesFData PropertiesForm FormgenProofs PropertiesFit SpecUnit SpecOrient OrientProofs.
Import ListNotations.
Local Open Scope nat_scope.

(* ================================================================== *)
(** * C140 *)

(** A formula shifted by a new parameter [psi], data and the same data shifted by an
    angle: the two costs differ by that angle in [psi] only, and so do the best fits. *)
Theorem C140_fourier : forall ev kev F psi D a np free chunk save fs, sound_ev ev -> sound_kev kev -> matching F D -> ~ ff_occurs F psi ->
  argument_list (ff_phase_shift ev F (ESym psi)) free -> In psi free -> (chunk = true -> ff_rows F <> []) ->
  exists lib lib', gen_cost_func kev (ff_phase_shift ev F (ESym psi)) D (Some free) chunk save fs = (save_lib save lib fs, Ok lib) /\
    gen_cost_func kev (ff_phase_shift ev F (ESym psi)) (fst (phase_shift_fdata D a np "radians")) (Some free) chunk save fs = (save_lib save lib' fs, Ok lib') /\
    (forall xs, length xs = length free -> exists c, call lib xs = Some c /\ call lib' (turned psi a free xs) = Some c) /\
    (forall xs, minimises lib (length free) xs -> minimises lib' (length free) (turned psi a free xs)) /\
    (forall xs, minimises lib' (length free) (turned psi a free xs) -> length xs = length free -> minimises lib (length free) xs).
Proof.
  intros ev kev F psi D a np free chunk save fs EV KEV Ma NP A Ip Ne. destruct (shifted_values F D a np Ma) as (Ma' & V).
  exact (oriented_costs ev EV F psi (proj1 Ma) NP kev KEV D _ a free Ma Ma' V A Ip chunk save fs Ne).
Qed.
Print Assumptions C140_fourier.

(** Measured data turned by a multiple of their spacing before the transform: the
    opposite sign. *)
Theorem C140_data : forall ev kev interp d n j F psi free chunk save fs, let x := (2 * PI * IZR j / INR n)%R in
  sound_ev ev -> sound_kev kev -> exact_at_nodes interp -> accepts interp n -> 2 <= n -> reachable d ->
  (forall pc p, get_pc d pc "radians" = Ok p -> length p = n /\ equally_spaced p) ->
  formula_ok F -> (forall k, In k (ff_get_keys F) -> In k (get_keys d)) -> ~ ff_occurs F psi ->
  argument_list (ff_phase_shift ev F (ESym psi)) free -> In psi free -> (chunk = true -> ff_rows F <> []) ->
  exists D D' lib lib', dat_to_fdat interp d (ff_M F) = Ok D /\ dat_to_fdat interp (fst (phase_shift_data d x "radians")) (ff_M F) = Ok D' /\
    gen_cost_func kev (ff_phase_shift ev F (ESym psi)) D (Some free) chunk save fs = (save_lib save lib fs, Ok lib) /\
    gen_cost_func kev (ff_phase_shift ev F (ESym psi)) D' (Some free) chunk save fs = (save_lib save lib' fs, Ok lib') /\
    (forall xs, length xs = length free -> exists c, call lib xs = Some c /\ call lib' (turned psi (- x) free xs) = Some c) /\
    (forall xs, minimises lib (length free) xs -> minimises lib' (length free) (turned psi (- x) free xs)) /\
    (forall xs, minimises lib' (length free) (turned psi (- x) free xs) -> length xs = length free -> minimises lib (length free) xs).
Proof.
  intros ev kev interp d n j F psi free chunk save fs x EV KEV X Ac L R H FO K NP A Ip Ne.
  destruct (C17_phase_sign_partial interp d n j (ff_M F) false X Ac L R H) as (D & D' & E & E' & _ & I). fold x in E', I.
  assert (W := reachable_wf d R).
  assert (H' : forall k p, In (k, p) (dc_data d) -> map fst p = grid (length p) /\ 2 <= length p /\ is_ok (interp p)).
  { intros k p Ip'. destruct (H k p) as [Lp Sp]; [apply get_pc_In; assumption|]. split; [exact Sp|]. split; [lia|]. apply Ac; [exact Lp|].
    rewrite Sp. exact (grid_NoDup (length p)). }
  assert (Ma : matching F D).
  { rewrite dat_to_fdat_spec in E by auto. injection E as <-. set (D := mkfdat _ _ _ _) in *. split; [exact FO|]. split; [split|split].
    - change (NoDup (dkeys (fd_data D))). unfold D. cbn [fd_data]. rewrite dkeys_dmap. exact W.
    - intros k v Iv. unfold D in Iv. cbn [fd_data] in Iv. apply In_dmap in Iv as (p & _ & ->). rewrite map_length, length_freqs. reflexivity.
    - reflexivity.
    - intros k Ik. change (In k (dkeys (fd_data D))). unfold D. cbn [fd_data]. rewrite dkeys_dmap. apply K, Ik. }
  destruct (shifted_values F D (- x)%R false Ma) as (Ma2 & V).
  assert (EM : fd_M D' = ff_M F).
  { destruct (dat_to_fdat interp _ _) as [D2|] eqn:E2 in E'; [|discriminate]. injection E' as <-. unfold dat_to_fdat in E2.
    destruct (dmapM _ _) as [rows|]; [|discriminate]. cbn [bind] in E2. apply fconstruct_wf in E2. apply E2. }
  assert (EM2 : fd_M (fst (phase_shift_fdata D (- x) false "radians")) = ff_M F) by apply Ma2.
  assert (Ma' : matching F D').
  { destruct Ma2 as (_ & (N2 & L2) & _ & K2). change (fd_data (fst (phase_shift_fdata D (- x) false "radians"))) with (fget_items (fst (phase_shift_fdata D (- x) false "radians"))) in N2, L2, K2.
    rewrite <- I in N2, L2, K2. split; [exact FO|]. split; [split; [exact N2|]|split; [exact EM|exact K2]]. intros k v J. rewrite EM, <- EM2. exact (L2 k v J). }
  assert (V' : forall k m, In k (map fst (ff_rows F)) -> In m (freqs (ff_M F)) -> dvalue D' k m = Cmult (cis (IZR m * - x)) (dvalue D k m)).
  { intros k m J1 J2. rewrite <- (V k m J1 J2). unfold dvalue. change (fd_data D') with (fget_items D'). rewrite I, EM, EM2. reflexivity. }
  destruct (oriented_costs ev EV F psi FO NP kev KEV D D' (- x)%R free Ma Ma' V' A Ip chunk save fs Ne) as (lib & lib' & Q).
  exists D, D', lib, lib'. split; [exact E|]. split; [exact E'|]. exact Q.
Qed.
Print Assumptions C140_data.

(** Two parameters and an orientation; the data have the orientation 1/2. *)
Definition s_psi : sym := mksym "psi" (Some true).
Lemma s_args : argument_list (ff_phase_shift (fun e => e) Fx (ESym s_psi)) [sa; sb; s_psi].
Proof.
  split; [repeat constructor; cbn; intuition discriminate|]. intros s (k & r & e & I & J & S). cbn in I.
  destruct I as [I|[I|[]]]; injection I as <- <-; cbn in J; repeat (destruct J as [<-|J]; [cbn in S; cbn; tauto|]); destruct J.
Qed.
Lemma s_absent : ~ ff_occurs Fx s_psi.
Proof.
  intros (k & r & e & I & J & S). cbn in I.
  destruct I as [I|[I|[]]]; injection I as <- <-; cbn in J; repeat (destruct J as [<-|J]; [cbn in S; intuition discriminate|]); destruct J.
Qed.
Example C140_case : exists lib, gen_cost_func (fun e => e) (ff_phase_shift (fun e => e) Fx (ESym s_psi)) (fst (phase_shift_fdata Dx (/ 2) false "radians")) (Some [sa; sb; s_psi]) false None [] = ([], Ok lib) /\
  call lib [3; 1; 0 + / 2]%R = Some 0%R /\ minimises lib 3 [3; 1; 0 + / 2]%R.
Proof.
  destruct (C140_fourier (fun e => e) (fun e => e) Fx s_psi Dx (/ 2)%R false [sa; sb; s_psi] false None [] PropertiesForm.id_sound FitProofs5.id_sound Fx_matching s_absent s_args
    ltac:(cbn; tauto) ltac:(discriminate)) as (lib & lib' & G & G' & C & M & _).
  exists lib'. split; [exact G'|]. destruct (C52_cost (fun e => e) (ff_phase_shift (fun e => e) Fx (ESym s_psi)) Dx [sa; sb; s_psi] false None [] FitProofs5.id_sound
    (oriented_matching _ Fx s_psi Fx_ok Dx Fx_matching) s_args ltac:(discriminate)) as (lib0 & G0 & V). assert (lib0 = lib) by congruence. subst lib0.
  assert (Z : call lib [3; 1; 0]%R = Some 0%R).
  { rewrite (V [3; 1; 0]%R (reading [sa; sb; s_psi] [3; 1; 0]%R)); [|cbn; lia|apply FitProofs2.reading_assigns; [apply s_args|cbn; lia]]. f_equal.
    rewrite (oriented_misfit _ PropertiesForm.id_sound Fx s_psi Fx_ok Dx (reading [sa; sb; s_psi] [3; 1; 0]%R) 0 (reading_respects _ _) eq_refl).
    transitivity (misfit Fx Dx (reading [sa; sb] [3; 1]%R)).
    - unfold misfit. apply rsum_ext. intros (k, r) I. apply rsum_ext. intros m J. cbn [fst snd]. rewrite Rmult_0_r, cis_0, Cmult_1_r. do 3 f_equal.
      apply ExprProofs.eval_ext. intros s S. assert (Is : s = sa \/ s = sb).
      { assert (O : ff_occurs Fx s). { exists k, r, (fcell (ff_M Fx) r m). split; [exact I|]. split; [apply (fcell_In Fx k r m Fx_ok I J)|exact S]. }
        clear - O. destruct O as (k & r & e & I & J & S). cbn in I. destruct I as [I|[I|[]]]; injection I as <- <-; cbn in J; repeat (destruct J as [<-|J]; [cbn in S; intuition congruence|]); destruct J. }
      destruct Is as [-> | ->]; reflexivity.
    - change (misfit Fx Dx (reading [sa; sb] [3; 1]%R)) with
      ((Cmod (Cminus (RtoC 1) (RtoC 1)) ^ 2 + (Cmod (Cminus (RtoC 3) (RtoC 3)) ^ 2 + (Cmod (Cminus (RtoC 1) (RtoC 1)) ^ 2 + 0)) +
        (Cmod (Cminus (eval (reading [sa; sb] [3; 1]%R) (num 0)) (RtoC 0)) ^ 2 + (Cmod (Cminus (RtoC 1) (RtoC 1)) ^ 2 + (Cmod (Cminus (eval (reading [sa; sb] [3; 1]%R) (num 0)) (RtoC 0)) ^ 2 + 0)) + 0))%R).
      rewrite eval_num0, <- !RtoC_minus, !Cmod_R, !pow2_abs. ring. }
  assert (T : turned s_psi (/ 2) [sa; sb; s_psi] [3; 1; 0]%R = [3; 1; 0 + / 2]%R) by reflexivity.
  destruct (C [3; 1; 0]%R eq_refl) as (c & E1 & E2). assert (c = 0%R) by congruence. subst c. rewrite T in E2. split; [exact E2|]. rewrite <- T. apply (M [3; 1; 0]%R).
  split; [reflexivity|]. exists 0%R. split; [exact Z|]. intros ys Ly. exists (misfit (ff_phase_shift (fun e => e) Fx (ESym s_psi)) Dx (reading [sa; sb; s_psi] ys)). split.
  - apply V; [cbn in Ly |- *; lia|]. apply FitProofs2.reading_assigns; [apply s_args|cbn in Ly |- *; lia].
  - apply misfit_nonneg.
Qed.

(** Four points of a cosine, turned by a quarter. *)
Definition Fc : fform := mkff [("PP"%string, mkrow true [ESym sa; ESym sb; ESym sa])] 1.
Example C140_case_data : exists D' lib', dat_to_fdat table_interp (fst (phase_shift_data cos_dat (2 * PI * IZR 1 / INR 4) "radians")) 1 = Ok D' /\
  gen_cost_func (fun e => e) (ff_phase_shift (fun e => e) Fc (ESym s_psi)) D' (Some [s_psi; sa; sb]) false None [] = ([], Ok lib').
Proof.
  destruct (C140_data (fun e => e) (fun e => e) table_interp cos_dat 4 1 Fc s_psi [s_psi; sa; sb] false None [] PropertiesForm.id_sound FitProofs5.id_sound table_exact (table_accepts 4)
    ltac:(lia) cos_dat_reach cos_dat_pcs) as (D & D' & lib & lib' & _ & E & _ & G & _).
  - split; [repeat constructor; cbn; intuition discriminate|]. cbn. intros k r [E|[]]; injection E as <- <-; reflexivity.
  - intros k I. exact I.
  - intros (k & r & e & I & J & S). cbn in I. destruct I as [I|[]]; injection I as <- <-; cbn in J; repeat (destruct J as [<-|J]; [cbn in S; intuition discriminate|]); destruct J.
  - split; [repeat constructor; cbn; intuition discriminate|]. intros s (k & r & e & I & J & S). cbn in I.
    destruct I as [I|[]]; injection I as <- <-; cbn in J; repeat (destruct J as [<-|J]; [cbn in S; cbn; tauto|]); destruct J.
  - cbn; tauto.
  - discriminate.
  - exists D', lib'. split; [exact E|exact G].
Qed.
