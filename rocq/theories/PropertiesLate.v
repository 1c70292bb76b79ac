(** C135: models loaded for several processes. *)
From Coq Require Import String List Arith ZArith QArith Bool Lia Reals Lra Permutation.
From Coquelicot Require Import Complex.
Import ListNotations.
From Verif Require Import PyBase CBase Expr FDataModel FormModel FitModel SpecFit FitProofs FitProofs3 SpecParts PartProofs PropertiesFit DiskModel LibModel LibModel2 SpecLib2 LateModel SpecLate LateProofs.
Local Open Scope nat_scope.

(** The model saved in a folder is what the function loaded from it computes, at
    every later call and in every process, until a model is saved there again: if the
    folder is given by its absolute name, and the process has opened no library of it
    before. *)
Theorem C135_saved_partial : forall kev order cwd, (forall l, Permutation (order l) l) -> forall F n folder fd fs, formula_ok F -> clear_keys (ff_get_keys F) ->
  gen_model_func kev F n = Ok (fd, fs) -> starts "/" folder = true ->
  forall d h h' xs k m, (forall e, In e h -> aside folder e) -> (forall e, In e h' -> tidy folder e /\ ~ saves_in folder e) ->
  let q := deeds kev order cwd (mkshelf d []) (h ++ [Do (GenModel F n (Some folder))]) in
  snd (late_value cwd (load_late order cwd F folder q) folder xs k m (deeds kev order cwd q h')) = model_value fd xs k m.
Proof. exact saved_first. Qed.
Print Assumptions C135_saved_partial.
(** A process started after the model was saved computes it in any case. *)
Theorem C135_worker_partial : forall kev order cwd, (forall l, Permutation (order l) l) -> forall F n folder fd fs, formula_ok F -> clear_keys (ff_get_keys F) ->
  gen_model_func kev F n = Ok (fd, fs) -> starts "/" folder = true ->
  forall p h xs k m, (forall e, In e h -> tidy folder e /\ ~ saves_in folder e) ->
  let q := does kev order cwd p (Do (GenModel F n (Some folder))) in
  snd (late_value cwd (load_late order cwd F folder q) folder xs k m (deeds kev order cwd q (Do Afresh :: h))) = model_value fd xs k m.
Proof. exact saved_worker. Qed.
Print Assumptions C135_worker_partial.
(** A frequency that was computed once is computed in the same way until the process
    ends, whatever is saved. *)
Theorem C135_pinned : forall kev order cwd fd dir xs k m p v h, ~ In (Do Afresh) h -> snd (late_value cwd fd dir xs k m p) = Ok v ->
  forall ys, snd (late_value cwd fd dir ys k m (deeds kev order cwd (fst (late_value cwd fd dir xs k m p)) h)) = snd (late_value cwd fd dir ys k m p).
Proof. exact late_pinned. Qed.
Print Assumptions C135_pinned.

(** The function is not one function: when another model is saved in the folder,
    polarizations already computed belong to the old model and the others to the new. *)
Definition Fold : fform := mkff [("PP"%string, mkrow true [ESym sa]); ("PS"%string, mkrow true [ESym sa])] 0.
Definition Fnew : fform := mkff [("PP"%string, mkrow true [EMul [num 2; ESym sa]]); ("PS"%string, mkrow true [EMul [num 2; ESym sa]])] 0.
Theorem C135_mixed_refuted : exists kev order F G n old new xs m a b p q, sound_kev kev /\ (forall l, Permutation (order l) l) /\ formula_ok F /\ formula_ok G /\
  clear_keys (ff_get_keys F) /\ clear_keys (ff_get_keys G) /\ (exists fs, gen_model_func kev F n = Ok (old, fs)) /\ (exists fs, gen_model_func kev G n = Ok (new, fs)) /\
  (forall k, In k ["PP"; "PS"]%string -> model_value old xs k m = Ok (Some a) /\ model_value new xs k m = Ok (Some b)) /\ a <> b /\
  p = does kev order "/home" (mkshelf [] []) (Do (GenModel F n (Some "/m"%string))) /\
  q = deeds kev order "/home" p [CallModel (load_late order "/home" F "/m" p) "/m" xs "PP" m; Do (GenModel G n (Some "/m"%string))] /\
  snd (late_value "/home" (load_late order "/home" F "/m" p) "/m" xs "PP" m q) = Ok (Some a) /\
  snd (late_value "/home" (load_late order "/home" F "/m" p) "/m" xs "PS" m q) = Ok (Some b).
Proof.
  exists take_parts, (fun l => l), Fold, Fnew, 10%Z. eexists. eexists. exists [1]%R, 0%Z. eexists. eexists. eexists. eexists.
  split; [exact take_parts_sound|]. split; [intros l; apply Permutation_refl|].
  split; [split; [repeat constructor; cbn; intuition discriminate|]; cbn; intros k r [E|[E|[]]]; injection E as <- <-; reflexivity|].
  split; [split; [repeat constructor; cbn; intuition discriminate|]; cbn; intros k r [E|[E|[]]]; injection E as <- <-; reflexivity|].
  split; [apply (clear_same_length _ 2); intros k [<-|[<-|[]]]; reflexivity|].
  split; [apply (clear_same_length _ 2); intros k [<-|[<-|[]]]; reflexivity|].
  split; [eexists; cbv; reflexivity|]. split; [eexists; cbv; reflexivity|].
  split; [intros k [<-|[<-|[]]]; (split; [cbn; reflexivity|cbn; reflexivity])|].
  split; [intros X; apply (f_equal fst) in X; cbn in X; lra|].
  split; [reflexivity|]. split; [reflexivity|]. split; cbn; reflexivity.
Qed.
Print Assumptions C135_mixed_refuted.

(** A model in the working directory, loaded from ".", is never found. *)
Theorem C135_here : forall kev order cwd d h F p xs k m, In k (ff_get_keys F) -> In m (freqs (ff_M F)) ->
  (forall imag n, In n (found_names order cwd "." k m imag p) -> has_slash n = false) -> found_names order cwd "." k m false p <> [] ->
  snd (late_value cwd (load_late order cwd F "." p) "." xs k m (deeds kev order cwd (mkshelf d []) h)) = Raise OSError.
Proof. exact late_here. Qed.
Print Assumptions C135_here.
Theorem C135_here_refuted : exists kev order F n fd fs xs k m v, sound_kev kev /\ (forall l, Permutation (order l) l) /\ formula_ok F /\ clear_keys (ff_get_keys F) /\
  gen_model_func kev F n = Ok (fd, fs) /\ model_value fd xs k m = Ok (Some v) /\
  let p := does kev order "/home" (mkshelf [] []) (Do (GenModel F n (Some (located "/home" ".")))) in
  model_value (snd (load_model_now order F (located "/home" ".") p)) xs k m = Ok (Some v) /\
  snd (late_value "/home" (load_late order "/home" F "." p) "." xs k m p) = Raise OSError.
Proof.
  exists take_parts, (fun l => l), Fold, 10%Z. eexists. eexists. exists [1]%R, "PP"%string, 0%Z. eexists.
  split; [exact take_parts_sound|]. split; [intros l; apply Permutation_refl|].
  split; [split; [repeat constructor; cbn; intuition discriminate|]; cbn; intros k r [E|[E|[]]]; injection E as <- <-; reflexivity|].
  split; [apply (clear_same_length _ 2); intros k [<-|[<-|[]]]; reflexivity|].
  split; [cbv; reflexivity|]. split; [cbn; reflexivity|]. split; cbn; reflexivity.
Qed.
Print Assumptions C135_here_refuted.
(** The hypotheses are met. *)
Example C135_case : starts "/" "/data/m" = true /\ aside "/data/m" (Do (LoadModel Fold "/data/n")) /\
  (forall fd xs, tidy "/data/m" (CallModel fd "/data/m" xs "PP" 0) /\ tidy "/data/m" (CallModel fd "/data/n" xs "PP" 0)) /\ ~ saves_in "/data/m" (Do (GenModel Fold 10 (Some "/data/n"%string))) /\
  found_names (fun l => l) "/home" "." "PP" 0 false (does take_parts (fun l => l) "/home" (mkshelf [] []) (Do (GenModel Fold 10 (Some "/home"%string)))) = ["PP_0_real_0.so"%string].
Proof.
  split; [reflexivity|]. split; [split; reflexivity|]. split; [intros fd xs; split; (split; [reflexivity|]); [left; reflexivity|right; split; reflexivity]|].
  split; [intros X; discriminate X|]. cbv. reflexivity.
Qed.
