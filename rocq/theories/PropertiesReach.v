(** Property C144: what make_tensor_complex and make_tensor_real keep of the
    values a tensor can take.  Beside each theorem a concrete case. *)
From Coq Require Import String Ascii List Arith Bool ZArith Reals Lra.
Import ListNotations.
From Coquelicot Require Import Complex.
From Verif Require Import PyBase Expr ExprProofs TensorModel UtilModel SpecTensor SpecUtil SpecReach TensorProofs UtilProofs
  PropertiesUtil ReachProofs.
Local Open Scope nat_scope.

(** Without clashes of names the new tensor takes exactly the values of the old
    one: every complex value of every parameter is reached by real parameters,
    and nothing else is. *)
Theorem C144_complex : forall order prefix suffix t, iterates order ->
  (forall i, fits (shape t) i -> ordinary_params (at_ t i)) ->
  plain_text (fst prefix) -> plain_text (snd prefix) -> plain_text (fst suffix) -> plain_text (snd suffix) ->
  no_clash prefix suffix t ->
  exists u, make_tensor_complex order prefix suffix t = Ok u /\ shape u = shape t /\ forall v, takes u v <-> takes t v.
Proof. exact complex_all. Qed.
Print Assumptions C144_complex.

(** Whatever the prefixes and suffixes, no new values appear. *)
Theorem C144_no_more : forall order prefix suffix t u, iterates order ->
  (forall i, fits (shape t) i -> ordinary_params (at_ t i)) ->
  plain_text (fst prefix) -> plain_text (snd prefix) -> plain_text (fst suffix) -> plain_text (snd suffix) ->
  make_tensor_complex order prefix suffix t = Ok u -> forall v, takes u v -> takes t v.
Proof. intros order prefix suffix t u Ho O P1 P2 S1 S2 E. exact (proj1 (complex_takes order prefix suffix t u Ho O P1 P2 S1 S2 E)). Qed.
Print Assumptions C144_no_more.

(** Two choices of prefixes and suffixes without clashes give tensors that take
    the same values: the choice does not matter. *)
Theorem C144_choice : forall order order' prefix suffix prefix' suffix' t u u', iterates order -> iterates order' ->
  (forall i, fits (shape t) i -> ordinary_params (at_ t i)) ->
  plain_text (fst prefix) -> plain_text (snd prefix) -> plain_text (fst suffix) -> plain_text (snd suffix) ->
  plain_text (fst prefix') -> plain_text (snd prefix') -> plain_text (fst suffix') -> plain_text (snd suffix') ->
  no_clash prefix suffix t -> no_clash prefix' suffix' t ->
  make_tensor_complex order prefix suffix t = Ok u -> make_tensor_complex order' prefix' suffix' t = Ok u' ->
  forall v, takes u v <-> takes u' v.
Proof.
  intros order order' prefix suffix prefix' suffix' t u u' Ho Ho' O P1 P2 S1 S2 P1' P2' S1' S2' N N' E E' v.
  destruct (complex_takes order prefix suffix t u Ho O P1 P2 S1 S2 E) as [A B].
  destruct (complex_takes order' prefix' suffix' t u' Ho' O P1' P2' S1' S2' E') as [A' B'].
  split; intros T; [apply (B' N'), A, T|apply (B N), A', T].
Qed.
Print Assumptions C144_choice.

(** Real parameters: exactly the values for real values of the parameters. *)
Theorem C144_real : forall order t, iterates order ->
  (forall i, fits (shape t) i -> ordinary_params (at_ t i)) ->
  (forall n, ~ (occurs t (mksym n None) /\ occurs t (mksym n (Some true)))) ->
  exists u, make_tensor_real order t = Ok u /\ shape u = shape t /\ forall v, takes u v <-> takes_real t v.
Proof. exact real_all. Qed.
Print Assumptions C144_real.

(** A tensor with a parameter x and a real symbol called real_x. *)
Definition x_and_real : tensor expr :=
  mkT [2] (fun i => match i with [0] => ESym (mksym "x"%string None) | _ => ESym (mksym "real_x"%string (Some true)) end).
Definition just_x : tensor expr := mkT [1] (fun _ => ESym (mksym "x"%string None)).

Lemma x_and_real_ordinary i : fits (shape x_and_real) i -> ordinary_params (at_ x_and_real i).
Proof.
  intros _ s I N. apply one_name_ordinary. destruct i as [|[|k] [|j r]]; destruct I as [<-|[]]; try discriminate N; reflexivity.
Qed.
Lemma plain_of text : one_name text = true -> plain_text text.
Proof. intros H. apply one_name_ordinary in H. apply H. Qed.
Lemma plain_empty : plain_text ""%string.
Proof. intros c []. Qed.

(** The default prefixes with such a symbol: it is taken for the real part of x,
    and values are lost. *)
Theorem C144_clash_refuted : exists t u v,
  (forall i, fits (shape t) i -> ordinary_params (at_ t i)) /\
  make_tensor_complex (fun l => l) ("real_", "imag_")%string (""%string, ""%string) t = Ok u /\
  takes t v /\ ~ takes u v.
Proof.
  exists x_and_real. eexists. exists (fun i => match i with [0] => RtoC 0 | _ => RtoC 1 end).
  split; [exact x_and_real_ordinary|]. split; [apply (complex_made (fun l => l)); [exact x_and_real_ordinary| | | |];
    first [exact plain_empty|apply plain_of; reflexivity]|]. split.
  - exists (fun s => match sreal s with None => RtoC 0 | _ => RtoC 1 end). split.
    + intros s S. rewrite S. reflexivity.
    + intros i F. destruct i as [|[|k] [|j r]]; reflexivity.
  - intros (rho & H & W).
    assert (F0 : fits [2] [0]) by (repeat constructor). assert (F1 : fits [2] [1]) by (repeat constructor).
    pose proof (C34_complex (fun l => l) ("real_", "imag_")%string (""%string, ""%string) x_and_real
      (fun l => Permutation.Permutation_refl l) x_and_real_ordinary) as (u & E & _ & _ & V & _);
      try (first [exact plain_empty|apply plain_of; reflexivity]).
    rewrite complex_made in E; [|exact x_and_real_ordinary|..]; try (first [exact plain_empty|apply plain_of; reflexivity]).
    injection E as <-. generalize (W [0] F0) (W [1] F1). rewrite (V [0] rho F0), (V [1] rho F1).
    cbn [x_and_real at_ eval]. unfold with_complex. cbn [sreal sname fst snd append]. intros A B. rewrite B in A.
    apply (f_equal Re) in A. pose proof (H (mksym "imag_x" (Some true)) eq_refl) as Y.
    destruct (rho (mksym "imag_x" (Some true))) as [a b]. cbn in A, Y. subst b. lra.
Qed.
Print Assumptions C144_clash_refuted.

(** The same prefix for both parts: real and imaginary part are tied. *)
Theorem C144_same_refuted : exists t u v,
  (forall i, fits (shape t) i -> ordinary_params (at_ t i)) /\
  make_tensor_complex (fun l => l) ("p_", "p_")%string (""%string, ""%string) t = Ok u /\
  takes t v /\ ~ takes u v.
Proof.
  assert (O : forall i, fits (shape just_x) i -> ordinary_params (at_ just_x i)).
  { intros i _ s [<-|[]] _. apply one_name_ordinary. reflexivity. }
  exists just_x. eexists. exists (fun _ => RtoC 1).
  split; [exact O|]. split; [apply (complex_made (fun l => l)); [exact O| | | |];
    first [exact plain_empty|apply plain_of; reflexivity]|]. split.
  - exists (fun s => RtoC 1). split; [intros s S; reflexivity|reflexivity].
  - intros (rho & H & W). assert (F0 : fits [1] [0]) by (repeat constructor).
    pose proof (C34_complex (fun l => l) ("p_", "p_")%string (""%string, ""%string) just_x
      (fun l => Permutation.Permutation_refl l) O) as (u & E & _ & _ & V & _);
      try (first [exact plain_empty|apply plain_of; reflexivity]).
    rewrite complex_made in E; [|exact O|..]; try (first [exact plain_empty|apply plain_of; reflexivity]).
    injection E as <-. generalize (W [0] F0). rewrite (V [0] rho F0).
    cbn [just_x at_ eval]. unfold with_complex. cbn [sreal sname fst snd append]. intros A.
    pose proof (H (mksym "p_x" (Some true)) eq_refl) as Y.
    destruct (rho (mksym "p_x" (Some true))) as [a b]. cbn in Y. subst b.
    pose proof (f_equal Re A) as A1. pose proof (f_equal Im A) as A2. cbn in A1, A2. lra.
Qed.
Print Assumptions C144_same_refuted.

(** The default prefixes and a parameter x: no clash, and a value that is not
    real is taken. *)
Example C144_case : no_clash ("real_", "imag_")%string (""%string, ""%string) just_x /\ takes just_x (fun _ => Ci) /\
  ~ takes_real just_x (fun _ => Ci).
Proof.
  split; [split|split].
  - intros n m _ _ E. discriminate E.
  - intros n m _ (i & _ & [E|[]]). discriminate E.
  - exists (fun s => match sreal s with None => Ci | _ => RtoC 0 end). split; [intros s S; rewrite S; reflexivity|reflexivity].
  - intros (rho & _ & R & W). specialize (W [0]). cbn [just_x shape at_ eval] in W.
    specialize (R (mksym "x" None) eq_refl). rewrite W in R by (repeat constructor). cbn in R. lra.
Qed.
