(** C120 and C121: fixed and constrained parameters, and the scale variable. *)
From Coq Require Import String Ascii List Arith ZArith Bool Lia Reals QArith Qreals Lra Permutation.
From Coquelicot Require Import Complex.
Import ListNotations.
From Verif Require Import PyBase CBase Expr ExprProofs SpecForm SpecFData FDataModel FormModel LookupTable TableProofs
  TensorInst UtilModel SpecUtil SpecFormgen FormgenModel FformgenModel SpecFformgen TensorDefs
  FormgenProofs FormgenProofs2 FormgenProofs4 FormgenThms FormgenTables FformgenProofs4 FformgenThms PropertiesFformgen SpecPhys PhysThms
  FitModel SpecFit PropertiesFit Printer SpecSym SymProofs2 PropertiesSym SpecSubs ConstrainProofs.
From Verif Require Import SpecTensor TensorModel.
Local Open Scope nat_scope.

(* ================================================================== *)
(** * C120: fixed and constrained parameters *)

(** Numbers substituted for parameters: the parameters disappear from the formula,
    and the cost of the rest is the cost of the original formula with these
    parameters held at their values. *)
Theorem C120_fixed : forall ev kev F D sa F' free free' chunk chunk' save save' lfs lfs', sound_ev ev -> sound_kev kev ->
  matching F D -> ff_rows F <> [] -> ff_subs ev F (dmap number sa) = Ok F' -> argument_list F free -> argument_list F' free' ->
  (forall s, in_formula F' s -> in_formula F s /\ ~ In s (map fst sa)) /\
  exists lib lib', gen_cost_func kev F D (Some free) chunk save lfs = (save_lib save lib lfs, Ok lib) /\
    gen_cost_func kev F' D (Some free') chunk' save' lfs' = (save_lib save' lib' lfs', Ok lib') /\
    forall rho xs xs', respects rho -> (forall s q, In (s, q) sa -> rho s = qval q) -> length free <= length xs -> length free' <= length xs' ->
      assigns free xs rho -> assigns free' xs' rho -> exists c, call lib xs = Some c /\ call lib' xs' = Some c.
Proof. intros ev kev F D sa F' free free' chunk chunk' save save' lfs lfs' EV KEV. apply (fixed_cost ev EV kev KEV). Qed.
Print Assumptions C120_fixed.

(** Expressions in the parameters substituted for parameters: every value of the
    cost of the constrained formula is a value of the cost of the original one, so
    the constrained fit is never the better one. *)
Theorem C120_constrained : forall ev kev F D sa F' free free' chunk chunk' save save' lfs lfs', sound_ev ev -> sound_kev kev ->
  matching F D -> ff_rows F <> [] -> declared_subs sa ->
  ff_subs ev F sa = Ok F' -> argument_list F free -> argument_list F' free' -> (forall s, In s free -> sreal s = Some true) ->
  exists lib lib', gen_cost_func kev F D (Some free) chunk save lfs = (save_lib save lib lfs, Ok lib) /\
    gen_cost_func kev F' D (Some free') chunk' save' lfs' = (save_lib save' lib' lfs', Ok lib') /\
    forall xs', length xs' = length free' -> exists xs c, length xs = length free /\ call lib' xs' = Some c /\ call lib xs = Some c.
Proof. intros ev kev F D sa F' free free' chunk chunk' save save' lfs lfs' EV KEV. apply (constrained_cost ev EV kev KEV). Qed.
Print Assumptions C120_constrained.

(** a fixed at 3. *)
Example C120_case_fixed : exists F' lib lib', ff_subs (fun e => e) Fx [(sa, num 3)] = Ok F' /\ in_formula F' sb /\
  gen_cost_func (fun e => e) Fx Dx (Some [sa; sb]) false None [] = ([], Ok lib) /\
  gen_cost_func (fun e => e) F' Dx (Some [sb]) false None [] = ([], Ok lib') /\
  call lib' [1]%R = Some 0%R /\ forall x, exists c, call lib [3; x]%R = Some c /\ call lib' [x]%R = Some c.
Proof.
  assert (A : argument_list Fx [sa; sb]) by exact (FitProofs3.free_argument_list Fx [sa; sb] Fx_free).
  destruct (ff_subs (fun e => e) Fx [(sa, num 3)]) as [F'|] eqn:E; [|discriminate E].
  assert (A' : argument_list F' [sb]).
  { injection E as <-. split; [repeat constructor; intros []|]. intros s (k & r & e & I & J & S). cbn in I. cbn.
    destruct I as [I|[I|[]]]; injection I as <- <-; cbn in J; repeat (destruct J as [<-|J]; [cbn in S; tauto|]); destruct J. }
  assert (B : in_formula F' sb).
  { injection E as <-. do 2 eexists. exists (ESym sb). split; [left; reflexivity|]. split; left; reflexivity. }
  destruct (C120_fixed (fun e => e) (fun e => e) Fx Dx [(sa, (3, 0)%Q)] F' [sa; sb] [sb] false false None None [] []
    PropertiesForm.id_sound FitProofs5.id_sound Fx_matching ltac:(discriminate) E A A') as (_ & lib & lib' & G & G' & H).
  assert (V : Q2R 3 = 3%R) by (unfold Q2R; cbn; field).
  assert (W : Q2R 0 = 0%R) by (unfold Q2R; cbn; field).
  assert (X : forall x, exists c, call lib [3; x]%R = Some c /\ call lib' [x]%R = Some c).
  { intros x. apply (H (reading [sa; sb] [3; x]%R)).
    - apply reading_respects.
    - intros s q [I|[]]. injection I as <- <-. cbn. unfold qval. cbn [fst snd]. rewrite V, W. reflexivity.
    - cbn. lia.
    - cbn. lia.
    - apply FitProofs2.reading_assigns; [apply A|cbn; lia].
    - intros [|[|i]] s I; try discriminate I. injection I as <-. reflexivity. }
  exists F', lib, lib'. split; [reflexivity|]. split; [exact B|]. split; [exact G|]. split; [exact G'|]. split; [|exact X].
  destruct (X 1%R) as (c & C1 & C2). rewrite C2, <- C1.
  destruct (FitProofs.cost_ok (fun e => e) FitProofs5.id_sound Fx Dx [sa; sb] false None [] Fx_matching A ltac:(discriminate)) as (lib2 & G2 & Cp).
  assert (lib2 = lib) by congruence. subst lib2.
  rewrite (Cp [3; 1]%R (reading [sa; sb] [3; 1]%R)); [|cbn; lia|apply FitProofs2.reading_assigns; [apply A|cbn; lia]].
  f_equal. apply (proj2 (proj1 (proj2 (C52_misfit Fx Dx (reading [sa; sb] [3; 1]%R)))) Fx_reproduces).
Qed.

(** b constrained to be twice a. *)
Example C120_case_constrained : exists F' lib lib', declared_subs [(sb, EMul [num 2; ESym sa])] /\
  ff_subs (fun e => e) Fx [(sb, EMul [num 2; ESym sa])] = Ok F' /\
  gen_cost_func (fun e => e) Fx Dx (Some [sa; sb]) false None [] = ([], Ok lib) /\
  gen_cost_func (fun e => e) F' Dx (Some [sa]) false None [] = ([], Ok lib') /\
  forall x, exists y z c, call lib' [x]%R = Some c /\ call lib [y; z]%R = Some c.
Proof.
  assert (A : argument_list Fx [sa; sb]) by exact (FitProofs3.free_argument_list Fx [sa; sb] Fx_free).
  assert (De : declared_subs [(sb, EMul [num 2; ESym sa])]).
  { intros s a [I|[]]. injection I as <- <-. split; [intros X; discriminate X|]. split; [intros [X|[]]; discriminate X|]. split; [intros u [<-|[]]; reflexivity|].
    intros _ rho R. rewrite ExprProofs.eval_mul. cbn [map fold_right eval num]. specialize (R sa eq_refl). destruct (rho sa) as [x y]. unfold Im in *. cbn in *. subst y.
    unfold Q2R. cbn. ring. }
  destruct (ff_subs (fun e => e) Fx [(sb, EMul [num 2; ESym sa])]) as [F'|] eqn:E; [|discriminate E].
  assert (A' : argument_list F' [sa]).
  { injection E as <-. split; [repeat constructor; intros []|]. intros s (k & r & e & I & J & S). cbn in I. cbn.
    destruct I as [I|[I|[]]]; injection I as <- <-; cbn in J; repeat (destruct J as [<-|J]; [cbn in S; tauto|]); destruct J. }
  destruct (C120_constrained (fun e => e) (fun e => e) Fx Dx _ F' [sa; sb] [sa] false false None None [] []
    PropertiesForm.id_sound FitProofs5.id_sound Fx_matching ltac:(discriminate) De E A A') as (lib & lib' & G & G' & H).
  { intros s [<-|[<-|[]]]; reflexivity. }
  exists F', lib, lib'. split; [exact De|]. split; [reflexivity|]. split; [exact G|]. split; [exact G'|].
  intros x. destruct (H [x]%R eq_refl) as (xs & c & L & C1 & C2). destruct xs as [|y [|z [|]]]; try discriminate L.
  exists y, z, c. split; assumption.
Qed.

(* ================================================================== *)
(** * C121: the scale variable *)

(** Crystals from the tables: a scale variable that does not occur in the formula
    adds nothing to the fit.  A cost with a scale that is not negative is a cost
    without one, and the other way round with the scale 1. *)
Theorem C121_scale : forall ev expand kev order aoi prefix fs name name' d0 q0 d q srepr parse, sound_ev ev -> sound_kev kev -> iterates order ->
  dipole_entry name d0 -> quadrupole name' = Ok q0 -> prepared order d0 d -> prepared order q0 q -> (forall e, parse (srepr e) = Ok e) ->
  exists fs' file F, generate_uncontracted_fourier_transforms ev aoi prefix 16 fs = Ok fs' /\
    generate_contracted_fourier_transforms ev expand srepr prefix fs' d q 16 None = Ok file /\ load_fform parse file = Ok F /\
    ff_M F = 16 /\ dkeys (ff_rows F) = ["PP"; "PS"; "SP"; "SS"]%string /\ formula_ok F /\
    forall D s free free' chunk chunk' save save' lfs lfs', matching F D -> ~ in_formula F s ->
      argument_list F free -> argument_list (ff_scale ev F (ESym s)) free' ->
      exists lib lib', gen_cost_func kev F D (Some free) chunk save lfs = (save_lib save lib lfs, Ok lib) /\
        gen_cost_func kev (ff_scale ev F (ESym s)) D (Some free') chunk' save' lfs' = (save_lib save' lib' lfs', Ok lib') /\
        (forall xs', length xs' = length free' -> (forall i, nth_error free' i = Some s -> (0 <= nth i xs' 0)%R) ->
           exists xs c, length xs = length free /\ call lib' xs' = Some c /\ call lib xs = Some c) /\
        (forall xs, length xs = length free -> exists xs' c, length xs' = length free' /\
           (forall i, nth_error free' i = Some s -> nth i xs' 0%R = 1%R) /\ call lib' xs' = Some c /\ call lib xs = Some c).
Proof.
  intros ev expand kev order aoi prefix fs name name' d0 q0 d q srepr parse EV KEV Ho Ed Eq Pd Pq P.
  destruct (dipole_entry_plain name d0 Ed) as (Pl & Sd).
  assert (Ld : forall i, linear (at_ d0 i) = true).
  { destruct linear_tables as (T1 & T2 & _). destruct Ed as [Ed|Ed]; [exact (linear_lookup _ _ _ _ T1 Ed)|exact (linear_lookup _ _ _ _ T2 Ed)]. }
  destruct plain_tables as (_ & _ & T3). destruct (plain_lookup _ _ _ _ T3 Eq) as (Plq & Sq).
  assert (Lq : forall i, linear (at_ q0 i) = true) by (exact (linear_lookup _ _ _ _ (proj2 (proj2 linear_tables)) Eq)).
  destruct (scale_chain ev expand EV order Ho aoi prefix fs d0 q0 d q srepr parse Pl Plq Sd Sq Ld Lq Pd Pq P) as (fs' & file & F & E & EF & LF & M & K & OK & H).
  exists fs', file, F. do 6 (split; [assumption|]). intros D s free free' chunk chunk' save save' lfs lfs' Ma N A A'.
  assert (NE : ff_rows F <> []) by (intros Z; rewrite Z in K; discriminate K).
  exact (scale_cost ev EV kev F D s free free' chunk chunk' save save' lfs lfs' KEV M Ma NE H N A A').
Qed.
Print Assumptions C121_scale.

(** C_3v dipole and O_h quadrupole, and a scale named A. *)
Example C121_case : exists d0 q0 d q fs' file F s free free' lib lib', dipole_entry "C_3v" d0 /\ quadrupole "O_h" = Ok q0 /\
  make_tensor_real (fun l => l) d0 = Ok d /\ make_tensor_complex (fun l => l) ("real_", "imag_")%string ("", "")%string q0 = Ok q /\ has_parameter d0 /\ has_parameter q0 /\
  generate_uncontracted_fourier_transforms (fun e => e) (1 # 10) "u" 16 [] = Ok fs' /\
  generate_contracted_fourier_transforms (fun e => e) (fun e => e) show "u" fs' d q 16 None = Ok file /\
  load_fform read file = Ok F /\ matching F dark /\ argument_list F free /\ ~ in_formula F s /\ argument_list (ff_scale (fun e => e) F (ESym s)) free' /\ In s free' /\
  gen_cost_func (fun e => e) F dark (Some free) false None [] = ([], Ok lib) /\
  gen_cost_func (fun e => e) (ff_scale (fun e => e) F (ESym s)) dark (Some free') true None [] = ([], Ok lib') /\
  forall xs, length xs = length free -> exists xs' c, length xs' = length free' /\ call lib' xs' = Some c /\ call lib xs = Some c.
Proof.
  assert (D : exists d0, dipole_entry "C_3v" d0 /\ has_parameter d0).
  { eexists. split; [left; reflexivity|]. exists [2; 2; 2]. eexists. split; [apply fits3; lia|]. left. reflexivity. }
  assert (Q : exists q0, quadrupole "O_h" = Ok q0 /\ has_parameter q0).
  { eexists. split; [reflexivity|]. exists [0; 0; 0; 0]. eexists. split; [apply fits4; lia|]. left. reflexivity. }
  destruct D as (d0 & Ed & Nd), Q as (q0 & Eq & Nq).
  destruct (dipole_entry_plain _ d0 Ed) as (Pl & _). destruct plain_tables as (_ & _ & T3). destruct (plain_lookup _ _ _ _ T3 Eq) as (Plq & _).
  pose proof (real_is (fun l => l) d0 Pl) as Md. pose proof (complex_is (fun l => l) q0 Plq) as Mq.
  set (d := real_tensor (fun l => l) d0) in *. set (q := complex_tensor (fun l => l) q0) in *. clearbody d q.
  destruct (C121_scale (fun e => e) (fun e => e) (fun e => e) (fun l => l) (1 # 10) "u" [] "C_3v" "O_h" d0 q0 d q show read PropertiesForm.id_sound FitProofs5.id_sound)
    as (fs' & file & F & E & EF & LF & M & K & OK & H); auto.
  { intros l. apply Permutation.Permutation_refl. }
  { left; exact Md. }
  { right; exact Mq. }
  { exact read_show. }
  destruct (some_arguments F) as (free & A). pose proof (dark_matching F M K OK) as Ma.
  (* a name longer than those of the parameters *)
  assert (Mx : forall l (u : sym), In u l -> String.length (sname u) <= fold_right Nat.max 0 (map (fun s => String.length (sname s)) l)).
  { induction l as [|f l IH]; intros u I; [destruct I|]. cbn [map fold_right]. destruct I as [-> |I]; [lia|]. specialize (IH u I). lia. }
  set (n := fold_right Nat.max 0 (map (fun s => String.length (sname s)) free)).
  set (long := fix long k := match k with O => EmptyString | S k => String "A"%char (long k) end).
  assert (Ll : forall k, String.length (long k) = k) by (induction k; cbn; congruence).
  set (s := mksym (long (S n)) (Some true)).
  assert (N : ~ in_formula F s).
  { intros I. apply (proj2 A) in I. pose proof (Mx free s I) as X. change (String.length (sname s) <= n) in X.
    cbn [s sname] in X. rewrite Ll in X. lia. }
  assert (A' : argument_list (ff_scale (fun e => e) F (ESym s)) (s :: free)).
  { split; [constructor; [|apply A]|].
    - intros I. pose proof (Mx free s I) as X. change (String.length (sname s) <= n) in X.
      cbn [s sname] in X. rewrite Ll in X. lia.
    - intros u I. destruct (in_map_rows _ F u OK I) as (m & e & J & U). cbn in J. destruct J as [<- |J]; [left; reflexivity|].
      right. rewrite app_nil_r in J. apply A, U, J. }
  destruct (H dark s free (s :: free) false true None None [] [] Ma N A A') as (lib & lib' & G & G' & _ & S).
  exists d0, q0, d, q, fs', file, F, s, free, (s :: free), lib, lib'. repeat (split; [assumption|]). split; [left; reflexivity|]. split; [exact G|]. split; [exact G'|].
  intros xs L. destruct (S xs L) as (xs' & c & X1 & _ & X2 & X3). exists xs', c. auto.
Qed.
