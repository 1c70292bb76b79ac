(** Property C107: what generating a model does to the disk. *)
From Coq Require Import String List Arith ZArith Reals QArith Lra Lia.
From Coquelicot Require Import Complex.
Import ListNotations.
From Verif Require Import PyBase CBase Expr DataModel FDataModel SpecFData FormModel SpecForm FitModel SpecFit FitProofs FitProofs2 FitProofs3 FitProofs4 FitProofs5 FitProofs6 SpecParts PartProofs PropertiesFit DiskModel SpecDisk SpecDisk2 DiskProofs DiskProofs2.
Local Open Scope nat_scope.

(** Success: the functions of C53, and exactly their files in the folder. *)
Theorem C107_success : forall kev F n p d fd fs, gen_model_func kev F n = Ok (fd, fs) ->
  gen_model_disk kev F n (Some p) d = (dset p fs d, Ok fd) /\ gen_model_disk kev F n None d = (d, Ok fd).
Proof.
  intros kev F n p d fd fs E. split; [exact (disk_success kev F n p d fd fs E)|].
  pose proof (disk_nothing kev F n d) as N. pose proof (disk_result kev F n None d) as R. rewrite E in R. cbn [bind fst] in R.
  destruct (gen_model_disk kev F n None d) as (d', r). cbn [fst snd] in *. now rewrite N, R.
Qed.
Print Assumptions C107_success.

(** It fails exactly when the functions cannot be made. *)
Theorem C107_fails : forall kev F n folder d e,
  snd (gen_model_disk kev F n folder d) = Raise e <-> gen_model_func kev F n = Raise e.
Proof.
  intros kev F n folder d e. rewrite disk_result. destruct (gen_model_func kev F n) as [x|e']; cbn [bind]; split; intros H; try discriminate H; congruence.
Qed.
Print Assumptions C107_fails.

(** Other folders are left alone, and without a folder the whole disk. *)
Theorem C107_other_folders : forall kev F n folder other d, folder <> Some other ->
  dget other (fst (gen_model_disk kev F n folder d)) = dget other d.
Proof. exact disk_others. Qed.
Print Assumptions C107_other_folders.

(** Whether it succeeds or not, nothing of what the folder held before survives:
    its new content does not depend on the old one, and every file in it is named
    after a polarization and a frequency of the formula. *)
Theorem C107_folder : forall kev F n p, exists fs,
  (forall d, dget p (fst (gen_model_disk kev F n (Some p) d)) = Some fs) /\
  forall name, In name (map fst fs) -> exists k m imag i, In k (ff_get_keys F) /\ In m (freqs (ff_M F)) /\ name = library_name k m imag i.
Proof.
  intros kev F n p. destruct (disk_own kev F n p []) as (fs & E & O). exists fs. split; [|exact O].
  intros d. rewrite <- E. apply disk_forgets.
Qed.
Print Assumptions C107_folder.

(** A call that fails destroys the model that was saved before. *)
Example C107_name : library_name "PP" (-3) false 0 = "PP_-3_real_0.so"%string.
Proof. reflexivity. Qed.
Definition Fnumber : fform := mkff [("PP"%string, mkrow false [num 1])] 0.
Theorem C107_keeps_refuted : exists kev F F' d d' fs xs rho, sound_kev kev /\ formula_ok F /\ formula_ok F' /\
  assigns [sa; sb] xs rho /\ ff_free_symbols F = Ok [sa; sb] /\
  snd (gen_model_disk kev F 10 (Some "model"%string) []) = (do x <- gen_model_func kev F 10; Ok (fst x)) /\
  fst (gen_model_disk kev F 10 (Some "model"%string) []) = d /\
  dget "model"%string d = Some fs /\ model_value (load_model_func F fs) xs "PP" 0 = Ok (Some (RtoC 3)) /\
  gen_model_disk kev F' 10 (Some "model"%string) d = (d', Raise AttributeError) /\
  exists fs', dget "model"%string d' = Some fs' /\ model_value (load_model_func F fs') xs "PP" 0 = Ok (Some (RtoC 0)).
Proof.
  destruct (C53_model take_parts Fx 10 [sa; sb] take_parts_sound) as (fd & fs & E & V); [lia|exact Fx_ok|exact Fx_parts|exact Fx_free|].
  pose proof (disk_success take_parts Fx 10 "model" [] fd fs E) as G.
  exists take_parts, Fx, Fnumber, [("model"%string, fs)], [("model"%string, [])], fs, [3; 1]%R, (reading [sa; sb] [3; 1]%R).
  split; [exact take_parts_sound|]. split; [exact Fx_ok|]. split; [split; [repeat constructor; intros []|intros k r [H|[]]; injection H as <- <-; reflexivity]|].
  split; [apply two_assigns|]. split; [exact Fx_free|]. split; [rewrite G, E; reflexivity|]. split; [rewrite G; reflexivity|]. split; [reflexivity|].
  split.
  - rewrite (C57_reload_partial take_parts Fx 10 fd fs fs Fx_ok) by (try exact E; try apply Permutation.Permutation_refl; apply (clear_same_length _ 2); cbn; intros k [<-|[<-|[]]]; reflexivity).
    rewrite (V "PP"%string (mkrow true [ESym sb; ESym sa; ESym sb]) 0%Z [3; 1]%R (reading [sa; sb] [3; 1]%R));
      [|left; reflexivity|right; left; reflexivity|cbn; lia|apply two_assigns].
    cbn. posn. reflexivity.
  - split; [reflexivity|]. exists []. split; [reflexivity|]. apply load_empty; [left; reflexivity|right; left; reflexivity].
Qed.
Print Assumptions C107_keeps_refuted.

(** A call that fails half way leaves a folder that loads without an error as a
    model with missing terms. *)
Definition Fhalf : fform := mkff [("PP"%string, mkrow true [ESym sa]); ("PS"%string, mkrow true [EAdd [ESym sa; ESym sb]])] 0.
Theorem C107_half_refuted : exists kev F d fs xs rho, sound_kev kev /\ formula_ok F /\ ff_free_symbols F = Ok [sa; sb] /\ assigns [sa; sb] xs rho /\
  gen_model_disk kev F 0 (Some "model"%string) [] = (d, Raise ZeroDivisionError) /\ dget "model"%string d = Some fs /\
  model_value (load_model_func F fs) xs "PP" 0 = Ok (Some (RtoC 3)) /\
  model_value (load_model_func F fs) xs "PS" 0 = Ok (Some (RtoC 0)) /\
  eval rho (EAdd [ESym sa; ESym sb]) = RtoC 4.
Proof.
  set (fs := [("PP_0_real_0.so"%string, [KVar 0]); ("PP_0_imag_0.so"%string, [KNum (RtoC 0)])]).
  assert (L : load_model_func Fhalf fs = [("PP"%string, [(0%Z, ([[KVar 0]], [[KNum (RtoC 0)]]))]); ("PS"%string, [(0%Z, ([], []))])])
    by (vm_compute; reflexivity).
  exists take_parts, Fhalf, [("model"%string, fs)], fs, [3; 1]%R, (reading [sa; sb] [3; 1]%R). split; [exact take_parts_sound|].
  split; [split; [repeat constructor; cbn; intuition discriminate|cbn; intros k r [E|[E|[]]]; injection E as <- <-; reflexivity]|].
  split; [reflexivity|]. split; [apply two_assigns|]. split; [vm_compute; reflexivity|]. split; [reflexivity|]. rewrite L.
  split; [cbn; do 2 f_equal; apply C_ext; unfold Re, Im; simpl; lra|]. split; [cbn; reflexivity|].
  cbn. apply C_ext; unfold Re, Im; simpl; lra.
Qed.
Print Assumptions C107_half_refuted.

(** Precisely: whether or not the call fails, the folder has the library of a piece
    if and only if the piece was reached, in the order of the polarizations, the
    frequencies, real before imaginary part, and the pieces of each. *)
Theorem C107_reached : forall kev F n p d k m imag i lib,
  (exists fs, dget p (fst (gen_model_disk kev F n (Some p) d)) = Some fs /\ dget (library_name k m imag i) fs = Some lib) <->
  exists e, lib = [e] /\ reached kev F n (k, m, imag) i e.
Proof. exact disk_reached. Qed.
Print Assumptions C107_reached.
Example C107_reached_case : reached take_parts Fhalf 0 ("PP"%string, 0%Z, true) 0 (KNum (RtoC 0)) /\
  forall e, ~ reached take_parts Fhalf 0 ("PS"%string, 0%Z, false) 0 e.
Proof.
  split.
  - exists [("PP"%string, 0%Z, false)], [("PS"%string, 0%Z, false); ("PS"%string, 0%Z, true)], [KNum (RtoC 0)].
    split; [reflexivity|]. split; [intros j [<-|[]]; exists [KVar 0]; split; [reflexivity|intros c [<-|[]]; reflexivity]|].
    split; [reflexivity|]. split; [reflexivity|]. intros c [<-|[]]. reflexivity.
  - intros e (before & after & cs & _ & _ & E & _). discriminate E.
Qed.

Example C107_case : exists fd fs d, gen_model_func take_parts Fx 1 = Ok (fd, fs) /\ length fs = 12 /\
  gen_model_disk take_parts Fx 1 (Some "model"%string) [("model"%string, [("old.so"%string, [])]); ("other"%string, [])] = (d, Ok fd) /\
  dget "model"%string d = Some fs /\ dget "other"%string d = Some [].
Proof.
  destruct (C53_model take_parts Fx 1 [sa; sb] take_parts_sound) as (fd & fs & E & _); [lia|exact Fx_ok|exact Fx_parts|exact Fx_free|].
  exists fd, fs. eexists. split; [exact E|]. split; [cbv in E; injection E as <- <-; reflexivity|].
  split; [exact (disk_success _ _ _ _ _ _ _ E)|]. split; reflexivity.
Qed.
