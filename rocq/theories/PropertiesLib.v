(** C127, C128: saving and loading cost functions in one session. *)
From Coq Require Import String List Arith ZArith Bool Lia Reals Lra.
From Coquelicot Require Import Complex.
Import ListNotations.
From Verif Require Import PyBase CBase Expr FDataModel FormModel FitModel SpecFit FitProofs FitProofs2 FitProofs3 FitProofs5 PropertiesFit LibModel SpecLib LibProofs.
Local Open Scope nat_scope.

(** * C127: what loading returns *)

(** A name that was not loaded yet in this process gives what was saved last,
    whatever was generated, saved and loaded before. *)
Theorem C127_first_partial : forall kev cwd fs h F D free chunk a lib p1, starts "/" cwd = true -> (forall e, In e h -> ~ opens cwd e (handed cwd a)) -> names_file a ->
  generate kev cwd F D free chunk (Some a) (session kev cwd (new_process fs) h) = (p1, Ok lib) -> snd (load_now cwd a p1) = Ok lib.
Proof. exact first_load. Qed.
Print Assumptions C127_first_partial.
(** The same for a function loaded for several processes, at its first call. *)
Theorem C127_first_call_partial : forall kev cwd fs h F D free chunk a lib p1 xs, (forall e, In e h -> ~ opens cwd e (text a)) -> has_slash (text a) = true ->
  generate kev cwd F D free chunk (Some a) (session kev cwd (new_process fs) h) = (p1, Ok lib) -> snd (call_later cwd a xs p1) = Ok (call lib xs).
Proof. exact first_call. Qed.
Print Assumptions C127_first_call_partial.
(** Once loaded, a name stands for the same function until the process ends. *)
Theorem C127_pinned : forall kev cwd p h a lib, ~ In NewProcess h -> snd (load_now cwd a p) = Ok lib ->
  snd (load_now cwd a (session kev cwd (fst (load_now cwd a p)) h)) = Ok lib.
Proof. exact pinned. Qed.
Print Assumptions C127_pinned.

(** So a cost saved again for other data is not what loading returns, and a fit
    to the new data is silently a fit to the old data. *)
Definition Dzero : fdat := mkfdat [("PP"%string, [RtoC 0; RtoC 0; RtoC 0]); ("PS"%string, [RtoC 0; RtoC 0; RtoC 0])] 1 (PNum 0) 1.
Example Dzero_matching : matching Fx Dzero.
Proof.
  split; [exact Fx_ok|]. split; [|split; [reflexivity|cbn; tauto]].
  split; [repeat constructor; cbn; intuition discriminate|]. cbn. intros k r [E|[E|[]]]; injection E as <- <-; reflexivity.
Qed.
Theorem C127_stale_refuted : forall kev cwd a, sound_kev kev -> starts "/" cwd = true -> names_file a ->
  exists old new p xs c, matching Fx Dx /\ matching Fx Dzero /\
    p = session kev cwd (new_process []) [Generate Fx Dx None false (Some a); Open a] /\
    generate kev cwd Fx Dzero None false (Some a) p = (session kev cwd p [Generate Fx Dzero None false (Some a)], Ok new) /\
    computes Fx Dx [sa; sb] old /\ computes Fx Dzero [sa; sb] new /\
    snd (load_now cwd a (session kev cwd p [Generate Fx Dzero None false (Some a)])) = Ok old /\
    call old xs = Some 0%R /\ call new xs = Some c /\ (c > 0)%R /\
    forall optimiser guess kw, fit_loaded kev cwd optimiser Fx Dzero guess a kw (session kev cwd p [Generate Fx Dzero None false (Some a)]) =
      snd (least_squares_fit kev optimiser Fx Dx guess None false None None kw []).
Proof.
  intros kev cwd a KEV A Nf. assert (Ar := free_argument_list Fx [sa; sb] Fx_free).
  assert (NE : false = true -> ff_rows Fx <> []) by discriminate.
  set (nm := absolute cwd (text a)).
  destruct (cost_ok kev KEV Fx Dx [sa; sb] false (Some nm) [] Fx_matching Ar NE) as (old & Go & Co).
  rewrite <- (gen_default kev Fx Dx [sa; sb] false (Some nm) [] Fx_free) in Go.
  set (p1 := mkproc (save_lib (Some nm) old []) []).
  assert (E1 : generate kev cwd Fx Dx None false (Some a) (new_process []) = (p1, Ok old)).
  { unfold generate. cbn [option_map on_disk new_process]. fold nm. rewrite Go. reflexivity. }
  assert (L1 : snd (load_now cwd a p1) = Ok old).
  { apply (first_load kev cwd [] [] Fx Dx None false a old p1 A); [intros e []|exact Nf|exact E1]. }
  set (p := fst (load_now cwd a p1)).
  assert (Ep : session kev cwd (new_process []) [Generate Fx Dx None false (Some a); Open a] = p).
  { cbn [session fold_left happen]. rewrite E1. reflexivity. }
  destruct (cost_ok kev KEV Fx Dzero [sa; sb] false (Some nm) (on_disk p) Dzero_matching Ar NE) as (new & Gn & Cn).
  rewrite <- (gen_default kev Fx Dzero [sa; sb] false (Some nm) (on_disk p) Fx_free) in Gn.
  assert (As : assigns [sa; sb] [3; 1]%R (reading [sa; sb] [3; 1]%R)) by (apply reading_assigns; [apply Ar|cbn; lia]).
  assert (L3 : snd (load_now cwd a (session kev cwd p [Generate Fx Dzero None false (Some a)])) = Ok old).
  { apply (pinned kev cwd p1 [Generate Fx Dzero None false (Some a)] a old); [|exact L1]. intros [X|[]]; discriminate X. }
  exists old, new, p, [3; 1]%R, (misfit Fx Dzero (reading [sa; sb] [3; 1]%R)).
  split; [exact Fx_matching|]. split; [exact Dzero_matching|]. split; [symmetry; exact Ep|].
  split; [|split; [exact Co|split; [exact Cn|split; [exact L3|]]]].
  { cbn [session fold_left happen]. unfold generate. cbn [option_map]. fold nm. rewrite Gn. reflexivity. }
  split; [rewrite (Co [3; 1]%R _ (le_n 2) As); f_equal; apply (proj1 (proj2 (C52_misfit _ _ _))); exact Fx_reproduces|].
  split; [apply (Cn [3; 1]%R _ (le_n 2) As)|]. split.
  - destruct (Rle_lt_or_eq_dec _ _ (misfit_nonneg Fx Dzero (reading [sa; sb] [3; 1]%R))) as [H|H]; [exact H|]. exfalso. symmetry in H. apply misfit_zero in H.
    assert (I0 : In 0%Z (freqs (ff_M Fx))) by (right; left; reflexivity).
    specialize (H "PP"%string (mkrow true [ESym sb; ESym sa; ESym sb]) 0%Z (or_introl eq_refl) I0).
    change (RtoC 3 = RtoC 0) in H. apply (f_equal fst) in H. cbn in H. lra.
  - intros optimiser guess kw. unfold fit_loaded, found. rewrite L3.
    rewrite (gen_default kev Fx Dx [sa; sb] false (Some nm) [] Fx_free) in Go.
    unfold least_squares_fit. rewrite Fx_free. unfold cost_of.
    destruct (gen_cost_func kev Fx Dx (Some [sa; sb]) false None []) as [fs' r] eqn:G0.
    assert (Er : r = Ok old).
    { revert G0 Go. unfold gen_cost_func. destruct (energy_expr kev Fx Dx (Some [sa; sb])) as [[e n]|]; [|discriminate]. unfold autowrap. intros X Y. congruence. }
    rewrite Er. unfold load_func. cbn [dget]. rewrite eqb_refl. reflexivity.
Qed.
Print Assumptions C127_stale_refuted.

(** * C128: names that cannot be loaded *)

(** A str without a slash is never found, whatever was saved under it, in any
    session; nor is a Path without one by a function for several processes. *)
Theorem C128_bare : forall kev cwd fs h name, has_slash name = false -> snd (load_now cwd (PStr name) (session kev cwd (new_process fs) h)) = Raise OSError /\
  forall a xs, text a = name -> snd (call_later cwd a xs (session kev cwd (new_process fs) h)) = Raise OSError.
Proof. exact bare. Qed.
Print Assumptions C128_bare.
Theorem C128_bare_refuted : forall kev cwd, sound_kev kev -> exists F D name lib p1, matching F D /\
  generate kev cwd F D None false (Some (PStr name)) (new_process []) = (p1, Ok lib) /\ dget (absolute cwd name) (on_disk p1) = Some lib /\
  snd (load_now cwd (PStr name) p1) = Raise OSError.
Proof.
  intros kev cwd KEV. set (nm := absolute cwd "cost.so").
  destruct (cost_ok kev KEV Fx Dx [sa; sb] false (Some nm) [] Fx_matching (free_argument_list Fx [sa; sb] Fx_free) ltac:(discriminate)) as (lib & G & _).
  rewrite <- (gen_default kev Fx Dx [sa; sb] false (Some nm) [] Fx_free) in G.
  assert (E : generate kev cwd Fx Dx None false (Some (PStr "cost.so")) (new_process []) = (mkproc (save_lib (Some nm) lib []) [], Ok lib)).
  { unfold generate. cbn [option_map on_disk new_process text]. fold nm. rewrite G. reflexivity. }
  exists Fx, Dx, "cost.so"%string, lib, (mkproc (save_lib (Some nm) lib []) []). split; [exact Fx_matching|]. split; [exact E|].
  split; [exact (saved_on_disk kev cwd Fx Dx None false (PStr "cost.so") _ _ lib E)|].
  pose proof (proj1 (C128_bare kev cwd [] [Generate Fx Dx None false (Some (PStr "cost.so"))] "cost.so"%string eq_refl)) as B.
  cbn [session fold_left happen] in B. rewrite E in B. exact B.
Qed.
Print Assumptions C128_bare_refuted.
(** A pathlib.Path, or a name with a slash, is found by the next process, and the
    fit run there is the fit with a fresh cost. *)
Theorem C128_next_partial : forall kev cwd p F D chunk a lib p1 free, sound_kev kev -> starts "/" cwd = true -> names_file a -> matching F D -> ff_free_symbols F = Ok free ->
  generate kev cwd F D None chunk (Some a) p = (p1, Ok lib) ->
  snd (load_now cwd a (session kev cwd p1 [NewProcess])) = Ok lib /\ computes F D free lib /\
  forall optimiser guess kw fs, fit_loaded kev cwd optimiser F D guess a kw (session kev cwd p1 [NewProcess]) =
    snd (least_squares_fit kev optimiser F D guess None chunk None None kw fs).
Proof. exact next_process. Qed.
Print Assumptions C128_next_partial.
Example C127_case : names_file (PPath "cost.so") /\ names_file (PStr "./cost.so") /\ starts "/" "/home/u" = true /\ has_slash "cost.so" = false /\
  handed "/home/u" (PPath "cost.so") = "/home/u/cost.so"%string /\ ~ opens "/home/u" (Open (PStr "./cost.so")) (handed "/home/u" (PPath "cost.so")).
Proof. repeat split. cbn. discriminate. Qed.
