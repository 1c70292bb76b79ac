(** Property C108: loading a model whose keys are part of a file name pattern. *)
From Coq Require Import String Ascii List Arith ZArith Reals QArith Lra Lia Permutation.
From Coquelicot Require Import Complex.
Import ListNotations.
From Verif Require Import PyBase CBase Expr DataModel FDataModel SpecFData FormModel SpecForm FitModel SpecFit FitProofs FitProofs2 FitProofs3 FitProofs4 FitProofs5 FitProofs6 SpecParts PartProofs PropertiesFit GlobModel SpecGlob GlobProofs GlobProofs2.
Local Open Scope nat_scope.

(** A pattern whose beginning has no special character finds exactly the names
    with that beginning and the ending. *)
Theorem C108_pattern : forall p name, plain_key p -> (glob (p ++ "*.so") name = true <-> exists t, name = (p ++ t ++ ".so")%string).
Proof. exact glob_iff. Qed.
Print Assumptions C108_pattern.

(** With such keys a saved model is the model: the functions loaded through the
    pattern have the values of those that were saved. *)
Theorem C108_reload_partial : forall kev F n fd fs listing, formula_ok F -> clear_keys (ff_get_keys F) ->
  (forall k, In k (ff_get_keys F) -> plain_key k) -> gen_model_func kev F n = Ok (fd, fs) -> Permutation listing fs ->
  forall xs k m, model_value (load_model_glob F listing) xs k m = model_value fd xs k m.
Proof. intros kev F n fd fs listing Ok_ K P E L xs k m. rewrite load_plain by exact P. exact (reload_same kev F n fd fs listing Ok_ K E L xs k m). Qed.
Print Assumptions C108_reload_partial.

(** The polarizations of the library meet both conditions. *)
Theorem C108_polarizations : forall F, (forall k, In k (ff_get_keys F) -> In k ["PP"; "PS"; "SP"; "SS"]%string) ->
  clear_keys (ff_get_keys F) /\ forall k, In k (ff_get_keys F) -> plain_key k.
Proof.
  intros F H. split.
  - apply (clear_same_length _ 2). intros k I. apply H in I. cbn in I. destruct I as [<-|[<-|[<-|[<-|[]]]]]; reflexivity.
  - intros k I c J. apply H in I. cbn in I. destruct I as [<-|[<-|[<-|[<-|[]]]]]; cbn in J; destruct J as [<-|[<-|[]]]; reflexivity.
Qed.
Print Assumptions C108_polarizations.

(** A key with brackets: the model is saved, and loads without an error as zero. *)
Definition Fbracket : fform := mkff [("P[1]"%string, mkrow true [ESym sa])] 0.
Theorem C108_bracket_refuted : exists kev F n fd fs xs k m a, sound_kev kev /\ formula_ok F /\ symbolic F /\ clear_keys (ff_get_keys F) /\
  gen_model_func kev F n = Ok (fd, fs) /\ model_value fd xs k m = Ok (Some a) /\
  model_value (load_model_glob F fs) xs k m = Ok (Some (RtoC 0)) /\ a <> RtoC 0.
Proof.
  exists take_parts, Fbracket, 10%Z. eexists. eexists. exists [1]%R, "P[1]"%string, 0%Z. eexists.
  split; [exact take_parts_sound|].
  split; [split; [repeat constructor; cbn; intuition discriminate|]; cbn; intros k r [E|[]]; injection E as <- <-; reflexivity|].
  split; [cbn; intros k r [E|[]]; injection E as <- <-; reflexivity|].
  split; [apply (clear_same_length _ 4); intros k [<-|[]]; reflexivity|].
  split; [cbv; reflexivity|]. split; [cbn; reflexivity|].
  split; [cbn; reflexivity|]. intros X. apply (f_equal fst) in X. cbn in X. lra.
Qed.
Print Assumptions C108_bracket_refuted.

(** A key with a star also loads the terms of other keys. *)
Definition Fstar : fform := mkff [("P*"%string, mkrow true [ESym sa]); ("PS"%string, mkrow true [ESym sb])] 0.
Theorem C108_star_refuted : exists kev F n fd fs xs k m a b, sound_kev kev /\ formula_ok F /\ symbolic F /\ clear_keys (ff_get_keys F) /\
  gen_model_func kev F n = Ok (fd, fs) /\ model_value fd xs k m = Ok (Some a) /\
  model_value (load_model_glob F fs) xs k m = Ok (Some b) /\ a <> b.
Proof.
  exists take_parts, Fstar, 10%Z. eexists. eexists. exists [0; 1]%R, "P*"%string, 0%Z. eexists. eexists.
  split; [exact take_parts_sound|].
  split; [split; [repeat constructor; cbn; intuition discriminate|]; cbn; intros k r [E|[E|[]]]; injection E as <- <-; reflexivity|].
  split; [cbn; intros k r [E|[E|[]]]; injection E as <- <-; reflexivity|].
  split; [apply (clear_same_length _ 2); intros k [<-|[<-|[]]]; reflexivity|].
  split; [cbv; reflexivity|]. split; [cbn; reflexivity|]. split; [cbn; reflexivity|].
  intros X. apply (f_equal fst) in X. cbn in X. lra.
Qed.
Print Assumptions C108_star_refuted.

Example C108_glob_case : glob "P[1]_0_real*.so" "P1_0_real_0.so" = true /\ glob "P[1]_0_real*.so" "P[1]_0_real_0.so" = false /\
  glob "P[!a-c]?*.so" "Pdx.so" = true /\ glob "P[!a-c]?*.so" "Pbx.so" = false /\ glob "P[_0_real*.so" "P[_0_real_1.so" = true /\ glob "a*b*.so" "aXbYbZ.so" = true.
Proof. repeat split; reflexivity. Qed.
Example C108_case : exists fd fs, gen_model_func take_parts Fx 1 = Ok (fd, fs) /\ length fs = 12 /\
  forall xs k m, model_value (load_model_glob Fx (rev fs)) xs k m = model_value fd xs k m.
Proof.
  destruct (C108_polarizations Fx) as [K P]; [intros k [<-|[<-|[]]]; cbn; tauto|].
  destruct (C53_model take_parts Fx 1 [sa; sb] take_parts_sound) as (fd & fs & E & _); [lia|exact Fx_ok|exact Fx_parts|exact Fx_free|].
  exists fd, fs. split; [exact E|]. split; [cbv in E; injection E as <- <-; reflexivity|].
  apply (C108_reload_partial _ _ _ _ _ _ Fx_ok K P E). symmetry. apply Permutation_rev.
Qed.

(** What the pattern finds, character by character. *)
Theorem C108_characters : forall q name,
  (glob "" name = true <-> name = ""%string) /\
  (forall p, plain_key p -> (glob (p ++ q) name = true <-> exists t, name = (p ++ t)%string /\ glob q t = true)) /\
  (glob ("*" ++ q) name = true <-> exists u t, name = (u ++ t)%string /\ glob q t = true) /\
  (glob ("?" ++ q) name = true <-> exists c t, name = String c t /\ glob q t = true).
Proof. intros q name. split; [apply glob_nil|]. split; [intros p; apply glob_plain|]. split; [apply glob_star|apply glob_quest]. Qed.
Print Assumptions C108_characters.
(** Brackets stand for one character of a list, or with an exclamation mark for one
    that is not in it; with a dash for a range; without an end for themselves. *)
Theorem C108_brackets : forall q name,
  (forall c a, c <> "!"%char -> ~ In "]"%char (list_ascii_of_string a) -> ~ In "-"%char (list_ascii_of_string (String c a)) ->
     (glob ("[" ++ String c a ++ "]" ++ q) name = true <->
      exists d t, name = String d t /\ In d (list_ascii_of_string (String c a)) /\ glob q t = true)) /\
  (forall c a, ~ In "]"%char (list_ascii_of_string a) -> ~ In "-"%char (list_ascii_of_string (String c a)) ->
     (glob ("[!" ++ String c a ++ "]" ++ q) name = true <->
      exists d t, name = String d t /\ ~ In d (list_ascii_of_string (String c a)) /\ glob q t = true)) /\
  (forall lo hi, lo <> "!"%char -> hi <> "]"%char ->
     (glob ("[" ++ String lo (String "-" (String hi ("]" ++ q)))) name = true <->
      exists d t, name = String d t /\ nat_of_ascii lo <= nat_of_ascii d <= nat_of_ascii hi /\ glob q t = true)) /\
  (~ In "]"%char (list_ascii_of_string q) -> (glob ("[" ++ q) name = true <-> exists t, name = String "[" t /\ glob q t = true)).
Proof.
  intros q name. split; [intros c a B; exact (glob_class false c a q name (fun _ => B))|].
  split; [intros c a; exact (glob_class true c a q name (fun X => match Bool.diff_true_false X with end))|].
  split; [intros lo hi; apply glob_range|apply glob_open].
Qed.
Print Assumptions C108_brackets.
(** A key without an opening bracket finds at least its own files. *)
Theorem C108_own : forall k q t, ~ In "["%char (list_ascii_of_string k) -> glob q t = true -> glob (k ++ q) (k ++ t) = true.
Proof. exact glob_self. Qed.
Print Assumptions C108_own.
Example C108_characters_case : glob "P?_0_real*.so" "PS_0_real_0.so" = true /\ glob "P[!S]_0*.so" "PP_0_real_0.so" = true /\ glob "P[a-c]_0*.so" "Pb_0_real_0.so" = true /\ glob "P[1_0*.so" "P[1_0_real_0.so" = true.
Proof. repeat split. Qed.
