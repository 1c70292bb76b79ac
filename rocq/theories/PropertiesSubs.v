(** Property C102: parameters may be given values (or be expressed by other
    parameters) in the tensors or in the generated formulas.  Beside each theorem
    a concrete case. *)
From Coq Require Import String List Arith ZArith Bool Lia Reals QArith Qreals Lra.
From Coquelicot Require Import Complex.
Import ListNotations.
From Verif Require Import PyBase CBase Expr ExprProofs SpecForm FormModel UtilModel SpecFormgen FormgenModel
  FformgenModel SpecFformgen FormgenProofs4 FormgenThms FormgenThms2 PropertiesFformgen PropertiesFormgen PropertiesSym SpecSubs SubsProofs SubsThms.
From Verif Require Import SpecTensor TensorModel.
Local Open Scope nat_scope.

(** formgen on tensors in which the substitution has been made gives the formulas
    one gets by substituting afterwards. *)
Theorem C102_formgen : forall ev ex theta e m q sa F, sound_ev ev -> sound_ev ex -> shapes e m q -> declared_subs sa ->
  formgen ev ex theta e m q = Ok F ->
  let sub := subs_seq ev sa in let on := option_map (entries_subs sub) in
  exists G, formgen ev ex (sub theta) (on e) (on m) (on q) = Ok G /\ dkeys G = dkeys F /\
    forall k x y, form_get_pc (form_subs ev F sa) k = Ok x -> form_get_pc G k = Ok y ->
    forall rho th, respects rho -> eval rho (sub theta) = RtoC th -> eval rho x = eval rho y.
Proof. intros ev ex theta e m q sa F EV EX. exact (formgen_subs ev EV ex theta e m q sa F EX). Qed.
Print Assumptions C102_formgen.

(** The same for the Fourier formulas, angle of incidence kept symbolic … *)
Theorem C102_fformgen : forall ev expand srepr parse prefix fs d q sa, sound_ev ev -> (forall e, parse (srepr e) = Ok e) -> declared_subs sa ->
  good_tensors d q -> ~ In theta_sym (map fst sa) ->
  exists fs' F F' F1, generate_uncontracted_fourier_transforms_symb ev prefix 16 fs = Ok fs' /\
    saved_for ev expand srepr parse prefix fs' d q F /\
    saved_for ev expand srepr parse prefix fs' (entries_subs (subs_seq ev sa) d) (entries_subs (subs_seq ev sa) q) F' /\
    ff_subs ev F sa = Ok F1 /\ ff_get_keys F1 = ff_get_keys F' /\ ff_M F1 = ff_M F' /\
    forall inp out, exists r1 r', ff_get_pc F1 (key inp out) = Ok r1 /\ ff_get_pc F' (key inp out) = Ok r' /\ length r1 = 33 /\
      forall rho, respects rho -> map (eval rho) r1 = map (eval rho) r'.
Proof.
  intros ev expand srepr parse prefix fs d q sa EV P D G N. destruct (symb_for ev EV sa prefix fs N) as (fs' & E & T). exists fs'.
  destruct (fformgen_subs ev EV expand srepr parse prefix fs' d q sa P D G (T D)) as (F & F' & F1 & H). exists F, F', F1. split; [exact E|exact H].
Qed.
Print Assumptions C102_fformgen.

(** … or given as a number. *)
Theorem C102_fformgen_number : forall ev expand srepr parse aoi prefix fs d q sa, sound_ev ev -> (forall e, parse (srepr e) = Ok e) -> declared_subs sa ->
  good_tensors d q ->
  exists fs' F F' F1, generate_uncontracted_fourier_transforms ev aoi prefix 16 fs = Ok fs' /\
    saved_for ev expand srepr parse prefix fs' d q F /\
    saved_for ev expand srepr parse prefix fs' (entries_subs (subs_seq ev sa) d) (entries_subs (subs_seq ev sa) q) F' /\
    ff_subs ev F sa = Ok F1 /\ ff_get_keys F1 = ff_get_keys F' /\ ff_M F1 = ff_M F' /\
    forall inp out, exists r1 r', ff_get_pc F1 (key inp out) = Ok r1 /\ ff_get_pc F' (key inp out) = Ok r' /\ length r1 = 33 /\
      forall rho, respects rho -> map (eval rho) r1 = map (eval rho) r'.
Proof.
  intros ev expand srepr parse aoi prefix fs d q sa EV P D G. destruct (num_for ev EV aoi sa prefix fs) as (fs' & E & T). exists fs'.
  destruct (fformgen_subs ev EV expand srepr parse prefix fs' d q sa P D G (T D)) as (F & F' & F1 & H). exists F, F', F1. split; [exact E|exact H].
Qed.
Print Assumptions C102_fformgen_number.

(** Exchanging the roles of a and b of [skew] by a := c, c := b + 1 in turn: the
    substitution meets the hypotheses, replaces what it put in, and changes the
    tensor. *)
Definition sym_c : expr := ESym (mksym "c" (Some true)).
Definition in_turn : list (sym * expr) := [(mksym "a" (Some true), sym_c); (mksym "c" (Some true), EAdd [sym_b; num 1%Q])].
Lemma in_turn_declared : declared_subs in_turn.
Proof.
  intros s a [E|[E|[]]]; injection E as <- <-; split; try discriminate; (split; [intros I; cbn in I; intuition discriminate|]); split;
    try (intros u I; cbn in I; destruct I as [<-|[]]; reflexivity); intros _ rho R.
  - exact (R (mksym "c" (Some true)) eq_refl).
  - rewrite ExprProofs.eval_add. cbn [map fold_right]. unfold sym_b. cbn [eval num]. pose proof (R (mksym "b" (Some true)) eq_refl) as X.
    unfold Im in *. simpl. rewrite X. replace (Q2R 0) with 0%R by (unfold Q2R; cbn; field). ring.
Qed.
Example C102_case : exists F G, formgen (fun e => e) (fun e => e) theta_ (Some skew) None None = Ok F /\
  formgen (fun e => e) (fun e => e) theta_ (Some (entries_subs (subs_seq (fun e => e) in_turn) skew)) None None = Ok G /\
  at_ (entries_subs (subs_seq (fun e => e) in_turn) skew) [0; 1; 2] = EAdd [sym_b; num 1%Q] /\
  declared_subs in_turn /\ ~ In theta_sym (map fst in_turn).
Proof.
  destruct (proj1 (formgen_outcome (fun e => e) (fun e => e) same_sound theta_ (Some skew) None None eq_refl I I)) as (F & H).
  { split; [exact skew_real|]. split; [exact I|]. split; [exact I|]. intros (X & _); discriminate X. }
  destruct (C102_formgen (fun e => e) (fun e => e) theta_ (Some skew) None None in_turn F same_sound same_sound (conj eq_refl (conj I I)) in_turn_declared H)
    as (G & HG & _).
  exists F, G. split; [exact H|]. split; [exact HG|]. split; [reflexivity|]. split; [exact in_turn_declared|].
  intros I. cbn in I. intuition discriminate.
Qed.
