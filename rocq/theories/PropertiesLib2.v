(** C130: saved models in a running process. *)
From Coq Require Import String List Arith ZArith QArith Bool Lia Reals Lra Permutation.
From Coquelicot Require Import Complex.
Import ListNotations.
From Verif Require Import PyBase CBase Expr FDataModel FormModel FitModel SpecFit FitProofs FitProofs3 SpecParts PartProofs PropertiesFit DiskModel DiskProofs LibModel2 SpecLib2 LibProofs2.
Local Open Scope nat_scope.

(** In a process that loaded no model from the folder, nor from one inside it or
    around it, a model saved there gives, loaded, the model that was generated:
    whatever was on the disk before, and whatever was generated and loaded before. *)
Theorem C130_first_partial : forall kev order d h F n folder fd fs, (forall l, Permutation (order l) l) -> formula_ok F -> clear_keys (ff_get_keys F) ->
  gen_model_func kev F n = Ok (fd, fs) -> (forall G f, In (LoadModel G f) h -> apart f folder) ->
  forall xs k m, model_value (snd (load_model_now order F folder (course kev order (mkshelf d []) (h ++ [GenModel F n (Some folder)])))) xs k m = model_value fd xs k m.
Proof. exact first_model. Qed.
Print Assumptions C130_first_partial.
(** The next process loads it in any case. *)
Theorem C130_next_partial : forall kev order p F n folder fd fs, (forall l, Permutation (order l) l) -> formula_ok F -> clear_keys (ff_get_keys F) ->
  gen_model_func kev F n = Ok (fd, fs) ->
  forall xs k m, model_value (snd (load_model_now order F folder (course kev order p [GenModel F n (Some folder); Afresh]))) xs k m = model_value fd xs k m.
Proof. exact next_model. Qed.
Print Assumptions C130_next_partial.
(** A model once loaded is what loading gives until the process ends, as long as
    the folder has files of the same names, whatever these now compute. *)
Theorem C130_pinned : forall kev order F folder p h, ~ In Afresh h ->
  names_in order folder (course kev order (fst (load_model_now order F folder p)) h) = names_in order folder p ->
  snd (load_model_now order F folder (course kev order (fst (load_model_now order F folder p)) h)) = snd (load_model_now order F folder p).
Proof. exact again. Qed.
Print Assumptions C130_pinned.

(** So a model saved again under the same name is not what loading gives. *)
Definition Fone : fform := mkff [("PP"%string, mkrow true [ESym sa])] 0.
Definition Ftwo : fform := mkff [("PP"%string, mkrow true [EMul [num 2; ESym sa]])] 0.
Theorem C130_stale_refuted : exists kev order F G n fd fs xs k m a b, sound_kev kev /\ (forall l, Permutation (order l) l) /\ formula_ok F /\ formula_ok G /\ clear_keys (ff_get_keys G) /\
  gen_model_func kev G n = Ok (fd, fs) /\ model_value fd xs k m = Ok (Some a) /\
  model_value (snd (load_model_now order G "/m" (course kev order (mkshelf [] []) [GenModel F n (Some "/m"%string); LoadModel F "/m"; GenModel G n (Some "/m"%string)]))) xs k m = Ok (Some b) /\ a <> b.
Proof.
  exists take_parts, (fun l => l), Fone, Ftwo, 10%Z. eexists. eexists. exists [1]%R, "PP"%string, 0%Z. eexists. eexists.
  split; [exact take_parts_sound|]. split; [intros l; apply Permutation_refl|].
  split; [split; [repeat constructor; cbn; intuition discriminate|]; cbn; intros k r [E|[]]; injection E as <- <-; reflexivity|].
  split; [split; [repeat constructor; cbn; intuition discriminate|]; cbn; intros k r [E|[]]; injection E as <- <-; reflexivity|].
  split; [apply (clear_same_length _ 2); intros k [<-|[]]; reflexivity|].
  split; [cbv; reflexivity|]. split; [cbn; reflexivity|]. split; [cbn; reflexivity|].
  intros X. apply (f_equal fst) in X. cbn in X. lra.
Qed.
Print Assumptions C130_stale_refuted.
(** The hypotheses are met: folders side by side, and the same names after a second save. *)
Example C130_case : apart "/data/a" "/data/ab" /\ ~ apart "/data/a" "/data/a/b" /\
  names_in (fun l => l) "/m" (course take_parts (fun l => l) (mkshelf [] []) [GenModel Fone 10 (Some "/m"%string); LoadModel Fone "/m"; GenModel Ftwo 10 (Some "/m"%string)]) =
  ["PP_0_real_0.so"; "PP_0_imag_0.so"]%string.
Proof. split; [split; reflexivity|]. split; [intros [X _]; discriminate X|]. cbv. reflexivity. Qed.
