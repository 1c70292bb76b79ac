(** The tables of tensor_definitions.py, made real or complex, as input of
    [formgen]. *)
From Coq Require Import String Ascii List Arith ZArith Bool Lia Reals Permutation.
From Coquelicot Require Import Complex.
Import ListNotations.
From Verif Require Import PyBase CBase FourierBase Expr ExprProofs SpecForm TensorModel SpecTensor TensorInst TensorProofs
  TensorNat UtilModel SpecUtil UtilProofs FormModel SpecGroups GroupProofs TensorDefs SpecFormgen TrigPoly PropertiesUtil.
Local Open Scope nat_scope.

Lemma replace_from order new e s : iterates order -> In s (syms (replace_params order new e)) ->
  In s (syms e) \/ exists x, In x (syms e) /\ sreal x = None /\ In s (syms (new (sname x))).
Proof.
  intros Ho. unfold replace_params.
  assert (L : forall x, In x (order (free_symbols e)) -> In x (syms e)).
  { intros x I. apply in_free_symbols. eapply Permutation_in; [apply Ho|exact I]. }
  assert (G : forall l e', (forall x, In x l -> In x (syms e)) ->
    (forall z, In z (syms e') -> In z (syms e) \/ exists x, In x (syms e) /\ sreal x = None /\ In z (syms (new (sname x)))) ->
    In s (syms (fold_left (fun e fs => match sreal fs with
      | None => subst (mksym (sname fs) None) (new (sname fs)) e
      | Some _ => e end) l e')) -> In s (syms e) \/ exists x, In x (syms e) /\ sreal x = None /\ In s (syms (new (sname x)))).
  { induction l as [|y l IH]; intros e' Hl He I; cbn [fold_left] in I; [auto|].
    apply IH in I; auto; [intros; apply Hl; simpl; auto|].
    intros z Iz. destruct (sreal y) eqn:Ry; [auto|].
    apply syms_subst in Iz. destruct Iz as [[Iz _]|[_ Iz]]; [auto|]. right. exists y. split; [apply Hl; simpl; auto|auto]. }
  apply G; auto.
Qed.

(** Every symbol of the tables has no assumption and an ordinary name, not phi. *)
Definition plain_sym (s : sym) : bool :=
  match sreal s with None => one_name (sname s) && negb (String.eqb (sname s) "phi") | Some _ => false end.
Definition plain_table (table : list (string * list expr)) : bool :=
  forallb (fun kv => forallb (fun e => forallb plain_sym (syms e)) (snd kv)) table.
Lemma plain_tables : plain_table dipole_table = true /\ plain_table surface_table = true /\ plain_table quadrupole_table = true.
Proof. vm_compute. auto. Qed.

Definition plain (t : tensor expr) : Prop := forall i s, In s (syms (at_ t i)) ->
  sreal s = None /\ ordinary (sname s) /\ sname s <> "phi"%string.

Lemma plain_lookup table rank name t : plain_table table = true -> lookup table rank name = Ok t ->
  plain t /\ shape t = repeat 3 rank.
Proof.
  unfold lookup. intros P. destruct (dget name table) as [l|] eqn:D; [|discriminate]. intros E.
  assert (Q : forall e, In e l -> forallb plain_sym (syms e) = true).
  { unfold plain_table in P. rewrite forallb_forall in P. apply dget_In in D. specialize (P _ D). cbn [snd] in P.
    rewrite forallb_forall in P. exact P. }
  injection E as <-. split; [|reflexivity]. intros i s. cbn [table_tensor at_].
  destruct (nth_in_or_default (position i) l nul) as [I| ->]; [|intros []].
  specialize (Q _ I). rewrite forallb_forall in Q. intros Is. specialize (Q s Is). unfold plain_sym in Q.
  destruct (sreal s); [discriminate|]. apply andb_true_iff in Q as [Q1 Q2]. split; [reflexivity|]. split; [apply one_name_ordinary; exact Q1|].
  apply negb_true_iff in Q2. apply String.eqb_neq in Q2. exact Q2.
Qed.

Lemma plain_not_nonreal t : plain t -> ~ declared_nonreal t.
Proof. intros P (i & s & _ & I & R). destruct (P i s I) as (N & _). congruence. Qed.
Lemma plain_ordinary t : plain t -> forall i, fits (shape t) i -> ordinary_params (at_ t i).
Proof. intros P i _ s I _. apply (P i s I). Qed.

(** The results of make_tensor_real and make_tensor_complex (default names). *)
Definition dprefix : string * string := ("real_", "imag_")%string.
Definition dsuffix : string * string := (EmptyString, EmptyString).
Definition real_tensor order (t : tensor expr) : tensor expr := tmap (replace_params order real_param) t.
Definition complex_tensor order (t : tensor expr) : tensor expr := tmap (replace_params order (complex_param dprefix dsuffix)) t.

Lemma text_of n : one_name n = true -> plain_text n.
Proof. intros H. apply one_name_ordinary in H. apply H. Qed.
Lemma real_is order t : plain t -> make_tensor_real order t = Ok (real_tensor order t).
Proof. intros P. apply real_made. apply plain_ordinary. exact P. Qed.
Lemma complex_is order t : plain t -> make_tensor_complex order dprefix dsuffix t = Ok (complex_tensor order t).
Proof.
  intros P. apply complex_made; [apply plain_ordinary; exact P|apply text_of; reflexivity|apply text_of; reflexivity| |]; intros c [].
Qed.
Lemma real_inv order t u : plain t -> make_tensor_real order t = Ok u -> u = real_tensor order t.
Proof. intros P. rewrite real_is by exact P. congruence. Qed.
Lemma complex_inv order t u : plain t -> make_tensor_complex order dprefix dsuffix t = Ok u -> u = complex_tensor order t.
Proof. intros P. rewrite complex_is by exact P. congruence. Qed.

Lemma real_phi_free order t : iterates order -> plain t -> phi_free (Some (real_tensor order t)).
Proof.
  intros Ho P i _ I. cbn [real_tensor tmap at_] in I. apply (replace_from order real_param _ phi Ho) in I.
  destruct I as [I|(x & Ix & _ & [E|[]])].
  - destruct (P i phi I) as (N & _). discriminate N.
  - apply (P i x Ix). injection E as E. exact E.
Qed.

Lemma real_params_real order t : iterates order -> plain t -> assert_real_params (real_tensor order t) = Ok tt.
Proof.
  intros Ho P. destruct (C34_real order t Ho (plain_ordinary t P)) as (u & E & _ & _ & _ & _ & A & _).
  apply (real_inv order t u P) in E. subst u. apply A. apply plain_not_nonreal. exact P.
Qed.
Lemma real_instance order t rho : iterates order -> plain t ->
  teq (instance rho (real_tensor order t)) (instance (with_real rho) t).
Proof.
  intros Ho P. destruct (C34_real order t Ho (plain_ordinary t P)) as (u & E & Sh & _ & V & _).
  apply (real_inv order t u P) in E. subst u. split; [exact Sh|].
  intros i I. apply in_indices in I. cbn [instance tmap at_ shape real_tensor] in *. apply V. exact I.
Qed.

(** The same for complex parameters, with the default names. *)
Lemma complex_result order t : iterates order -> plain t ->
  (assert_real_params (complex_tensor order t) = Ok tt) /\
  (forall i rho, fits (shape t) i -> eval rho (at_ (complex_tensor order t) i) = eval (with_complex dprefix dsuffix rho) (at_ t i)).
Proof.
  intros Ho P. destruct (C34_complex order dprefix dsuffix t Ho (plain_ordinary t P)) as (u & E & _ & _ & V & _ & A & _);
    [apply text_of; reflexivity|apply text_of; reflexivity|intros c []|intros c []|].
  apply (complex_inv order t u P) in E. subst u. split; [|exact V]. apply A. apply plain_not_nonreal. exact P.
Qed.
Lemma complex_phi_free order t : iterates order -> plain t -> phi_free (Some (complex_tensor order t)).
Proof.
  intros Ho P i _ I. cbn [complex_tensor tmap at_] in I. apply (replace_from order _ _ phi Ho) in I.
  destruct I as [I|(x & Ix & _ & I)].
  - destruct (P i phi I) as (N & _). discriminate N.
  - cbn in I. destruct I as [E|[E|[]]]; discriminate E.
Qed.
Lemma complex_params_real order t : iterates order -> plain t -> assert_real_params (complex_tensor order t) = Ok tt.
Proof. intros Ho P. apply (complex_result order t Ho P). Qed.
Lemma complex_instance order t rho : iterates order -> plain t ->
  teq (instance rho (complex_tensor order t)) (instance (with_complex dprefix dsuffix rho) t).
Proof.
  intros Ho P. split; [reflexivity|]. intros i I. apply in_indices in I. cbn [instance tmap at_ shape].
  apply (complex_result order t Ho P). exact I.
Qed.

Lemma teq_sym {A} (t u : tensor A) : teq t u -> teq u t.
Proof. intros [S H]. split; [congruence|]. intros i I. symmetry. apply H. rewrite S. exact I. Qed.
Lemma teq_trans {A} (t u v : tensor A) : teq t u -> teq u v -> teq t v.
Proof. intros [S H] [S' H']. split; [congruence|]. intros i I. rewrite H by auto. apply H'. rewrite <- S. exact I. Qed.

Lemma invariant_same (t u R : tensor C) n : shape t = repeat 3 (S n) -> shape R = [3; 3] -> teq t u -> invariant u R -> invariant t R.
Proof.
  intros St SR [S H]. assert (Su : shape u = repeat 3 (Datatypes.S n)) by congruence.
  rewrite !(invariant_iff _ _ n) by auto. intros HR i F.
  rewrite (H i) by (apply in_indices; exact F). rewrite <- HR by (rewrite <- S; exact F).
  unfold rotated. rewrite <- S. f_equal. apply map_ext_in. intros j J. rewrite H by exact J. reflexivity.
Qed.
