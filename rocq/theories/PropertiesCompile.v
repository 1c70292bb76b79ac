(** C134: when a cost function can be compiled. *)
From Coq Require Import String List Arith ZArith Bool Lia Reals QArith Qreals Lra.
From Coquelicot Require Import Complex.
Import ListNotations.
From Verif Require Import PyBase CBase Expr ExprProofs SpecForm SpecFData FDataModel FormModel FitModel SpecFit FitProofs FitProofs2 FitProofs3 FitProofs5 PropertiesFit
  SpecParts PartProofs PropertiesParts CompileModel SpecCompile CompileProofs.
Local Open Scope nat_scope.

(** A formula without real and imaginary parts: the cost is compiled, saved, can be
    loaded, and is the misfit. *)
Theorem C134_whole_partial : forall kev strict F D free chunk save fs, sound_kev kev -> brings_none kev -> wf_dict fs -> matching F D -> argument_list F free -> ff_rows F <> [] ->
  whole_formula F ->
  exists lib, gen_cost_compiled kev strict F D (Some free) chunk save fs = (save_lib save lib fs, Ok lib) /\ computes F D free lib /\
    forall name, save = Some name -> load_compiled name (save_lib save lib fs) = Ok lib.
Proof.
  intros kev strict F D free chunk save fs KEV BN Wf Ma Ar NE Wh.
  destruct (cost_ok kev KEV F D free chunk save fs Ma Ar (fun _ => NE)) as (lib & E & H). exists lib.
  pose proof (cost_no_parts kev BN F D (Some free) chunk save fs _ lib Wh E) as C. unfold gen_cost_compiled. rewrite E, C. split; [reflexivity|]. split; [exact H|].
  intros name ->. unfold load_compiled, load_func. cbn [save_lib]. rewrite dget_dset_eq. cbn [bind]. rewrite C. reflexivity.
Qed.
Print Assumptions C134_whole_partial.

(** In every case: a function is returned when all expressions compile, and it is then
    the misfit; otherwise OSError or FileNotFoundError is raised, nothing can be loaded under the
    name any more, and other files are as before. *)
Theorem C134_exact : forall kev strict F D free chunk save fs fs' r, sound_kev kev -> wf_dict fs -> matching F D -> argument_list F free -> ff_rows F <> [] ->
  gen_cost_compiled kev strict F D (Some free) chunk save fs = (fs', r) ->
  exists lib, snd (gen_cost_func kev F D (Some free) chunk save fs) = Ok lib /\
    (forallb compiles lib = true /\ r = Ok lib /\ computes F D free lib /\ (forall name, save = Some name -> load_compiled name fs' = Ok lib) \/
     forallb compiles lib = false /\ (exists e, r = Raise e /\ os_error e) /\ (forall name, save = Some name -> load_compiled name fs' = Raise OSError)) /\
    forall other, save <> Some other -> dget other fs' = dget other fs.
Proof.
  intros kev strict F D free chunk save fs fs' r KEV Wf Ma Ar NE E. destruct (cost_ok kev KEV F D free chunk save fs Ma Ar (fun _ => NE)) as (lib & G & H).
  exists lib. rewrite G. split; [reflexivity|].
  destruct (compiled_outcome kev strict F D (Some free) chunk save fs fs' r Wf E) as [(l & -> & C & G' & Ld)|[(e & -> & G')|(e & l & -> & Oe & G' & C & Ld & Ot)]].
  - rewrite G in G'. assert (l = lib /\ fs' = save_lib save lib fs) as [-> ->] by (split; congruence). split; [left; auto|].
    intros o N. destruct save as [f|]; [|reflexivity]. cbn [save_lib]. apply dget_dset_neq. congruence.
  - rewrite G in G'. discriminate.
  - rewrite G in G'. assert (l = lib) as -> by (cbn in G'; congruence). split; [right; eauto|exact Ot].
Qed.
Print Assumptions C134_exact.

(** The real part of a parameter not declared real: no cost function, and the one saved
    before is lost, with either kind of compiler. *)
Definition Fpart : fform := mkff [("PP"%string, mkrow true [ERe (ESym sc)])] 0.
Lemma Fpart_matching : matching Fpart Dundeclared.
Proof.
  split; [split; [repeat constructor; cbn; tauto|]; cbn; intros k r [E|[]]; injection E as <- <-; reflexivity|].
  split; [split; [repeat constructor; cbn; tauto|]; cbn; intros k r [E|[]]; injection E as <- <-; reflexivity|]. split; [reflexivity|]. cbn; tauto.
Qed.
Theorem C134_parts_refuted : forall strict chunk, exists kev F D old fs fs' e, sound_kev kev /\ (forall F, real_formula F -> parts_taken kev F) /\
  matching F D /\ symbolic F /\ ff_free_symbols F = Ok [sc] /\
  load_compiled "cost" fs = Ok old /\ gen_cost_compiled kev strict F D None chunk (Some "cost"%string) fs = (fs', Raise e) /\ os_error e /\
  load_compiled "cost" fs' = Raise OSError.
Proof.
  intros strict chunk.
  assert (X : exists fs' e, gen_cost_compiled take_parts strict Fpart Dundeclared None chunk (Some "cost"%string) [("cost"%string, [KVar 0])] = (fs', Raise e) /\ os_error e /\ load_compiled "cost" fs' = Raise OSError).
  { destruct strict, chunk; (eexists _, _; split; [reflexivity|]; split; [first [left; reflexivity|right; reflexivity]|reflexivity]). }
  destruct X as (fs' & e & G & Oe & Ld). exists take_parts, Fpart, Dundeclared, [KVar 0], [("cost"%string, [KVar 0])], fs', e.
  split; [exact take_parts_sound|]. split; [exact real_formula_taken|]. split; [exact Fpart_matching|].
  split; [cbn; intros k r [E|[]]; injection E as <- <-; reflexivity|]. split; [reflexivity|]. split; [reflexivity|]. split; [exact G|]. split; [exact Oe|exact Ld].
Qed.
Print Assumptions C134_parts_refuted.

(** The hypotheses are met by the formula of C52, saved over an older function. *)
Example C134_case : whole_formula Fx /\ brings_none (fun e => e) /\ exists lib,
  gen_cost_compiled (fun e => e) true Fx Dx (Some [sa; sb]) true (Some "cost"%string) [("cost"%string, [KVar 0])] = ([("cost"%string, lib)], Ok lib) /\
  load_compiled "cost" [("cost"%string, lib)] = Ok lib /\ call lib [3; 1]%R = Some 0%R.
Proof.
  assert (W : whole_formula Fx).
  { intros k r e I J. cbn in I. destruct I as [I|[I|[]]]; injection I as <- <-; cbn in J; repeat destruct J as [<-|J]; try contradiction; exact Logic.I. }
  split; [exact W|]. split; [intros e H; exact H|].
  destruct (C134_whole_partial (fun e => e) true Fx Dx [sa; sb] true (Some "cost"%string) [("cost"%string, [KVar 0])] id_sound (fun e H => H)) as (lib & G & Cp & Ld);
    [unfold wf_dict; repeat constructor; cbn; tauto|exact Fx_matching|exact (free_argument_list Fx [sa; sb] Fx_free)|discriminate|exact W|].
  exists lib. split; [exact G|]. split; [exact (Ld "cost"%string eq_refl)|].
  rewrite (Cp [3; 1]%R (reading [sa; sb] [3; 1]%R)); [|cbn; lia|apply reading_assigns; [apply (free_argument_list Fx [sa; sb] Fx_free)|cbn; lia]].
  f_equal. apply misfit_zero. exact Fx_reproduces.
Qed.
