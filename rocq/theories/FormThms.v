(** Outcome of the transform of formulas, and of sampling them. *)
From Coq Require Import String List ZArith QArith Qreals Reals Lra Lia Bool.
From Coquelicot Require Import Complex.
From Verif Require Import PyBase CBase DataModel FDataModel FDataProofs Expr ExprProofs LookupTable FormModel SpecForm SpecForm2
  FourierBase TableProofs FormProofs FormProofs2 FormProofs3 FormProofs4 FormProofs6.
Import ListNotations.
Local Open Scope nat_scope.

Lemma outcome_ok ev f M rd : sound_ev ev -> (exists it, form_construct it = Ok f) -> M <= 16 ->
  (forall k e, form_get_pc f k = Ok e -> exists e', rd k = Some e' /\ reading e (Some e')) ->
  exists F, form_to_fform ev f M = Ok F /\ ff_get_keys F = dkeys f /\ ff_M F = M /\
    forall k e, form_get_pc f k = Ok e -> exists e' cells, rd k = Some e' /\ ff_get_pc F k = Ok cells /\
      length cells = 2 * M + 1 /\ (forall c, In c cells -> ~ In phi (syms c)) /\
      forall rho, respects rho ->
        map (eval rho) cells = map (fourier_coefficient (fun x => eval (at_phi rho x) e')) (freqs M).
Proof.
  intros EV [it C] L H. apply form_construct_inv in C.
  assert (G : forall k e, form_get_pc f k = Ok e <-> In (k, e) f).
  { intros k e. unfold form_get_pc, dgetr. split.
    - destruct (dget k f) eqn:D; [|discriminate]. intros X; injection X as <-. apply dget_In; auto.
    - intros I. rewrite (In_dget _ _ _ C I). reflexivity. }
  destruct (form_reading ev EV f rd M C L) as (F & E & K & EM & V).
  { intros k e I. apply H, G, I. }
  exists F. split; auto. split; auto. split; auto. intros k e X. apply (V k e), G, X.
Qed.

Lemma outcome_fails ev f M rd : sound_ev ev -> (exists it, form_construct it = Ok f) -> M <= 16 ->
  (forall k e, form_get_pc f k = Ok e -> reading e (rd k)) -> (exists k e, form_get_pc f k = Ok e /\ rd k = None) ->
  form_to_fform ev f M = Raise KeyError.
Proof.
  intros EV [it C] L H (k & e & X & N). apply form_construct_inv in C.
  assert (G : forall k e, form_get_pc f k = Ok e <-> In (k, e) f).
  { clear - C. intros k e. unfold form_get_pc, dgetr. split.
    - destruct (dget k f) eqn:D; [|discriminate]. intros X; injection X as <-. apply dget_In; auto.
    - intros I. rewrite (In_dget _ _ _ C I). reflexivity. }
  apply (form_reading_fails ev EV f rd M L).
  - intros k0 e0 I. apply H, G, I.
  - exists k, e. split; auto. apply G; auto.
Qed.

(** The transform never raises anything else on trigonometric polynomials. *)
Lemma outcome_total ev f M : sound_ev ev -> (exists it, form_construct it = Ok f) -> M <= 16 ->
  (forall k e, form_get_pc f k = Ok e -> trig_polynomial e) ->
  (exists F, form_to_fform ev f M = Ok F) \/ form_to_fform ev f M = Raise KeyError.
Proof.
  intros EV C L H.
  assert (P : exists rd : string -> option expr, forall k e, form_get_pc f k = Ok e -> reading e (rd k)).
  { assert (W : wf_dict f) by (destruct C as [it C]; apply form_construct_inv in C; exact C).
    assert (H' : forall k e, In (k, e) f -> exists o, reading e o).
    { intros k e I. apply reading_total, (H k). unfold form_get_pc, dgetr. rewrite (In_dget _ _ _ W I). reflexivity. }
    clear H C. enough (exists rd : string -> option expr, forall k e, dget k f = Some e -> reading e (rd k)) as [rd R].
    { exists rd. intros k e. unfold form_get_pc, dgetr. destruct (dget k f) eqn:D; [|discriminate].
      intros X; injection X as <-. auto. }
    clear W. induction f as [|[k0 e0] f IH]; [exists (fun _ => None); discriminate|].
    destruct IH as [rd R]; [intros k e I; apply (H' k); right; auto|].
    destruct (H' k0 e0) as [o Ro]; [left; auto|].
    exists (fun k => if eqb k k0 then o else rd k). intros k e. cbn [dget].
    destruct (eqb k k0); [intros X; injection X as <-; auto|apply R]. }
  destruct P as [rd R].
  assert (D : (forall k e, form_get_pc f k = Ok e -> exists e', rd k = Some e') \/ exists k e, form_get_pc f k = Ok e /\ rd k = None).
  { assert (W : wf_dict f) by (destruct C as [it C]; apply form_construct_inv in C; exact C).
    enough ((forall k e, In (k, e) f -> exists e', rd k = Some e') \/ exists k e, In (k, e) f /\ rd k = None) as [X|(k & e & I & N)].
    - left. intros k e Y. apply (X k e). unfold form_get_pc, dgetr in Y. destruct (dget k f) eqn:D; [|discriminate].
      injection Y as <-. apply dget_In; auto.
    - right. exists k, e. split; auto. unfold form_get_pc, dgetr. rewrite (In_dget _ _ _ W I). reflexivity.
    - clear - rd. induction f as [|[k0 e0] f IH]; [left; intros k e []|].
      destruct IH as [X|(k & e & I & N)]; [|right; exists k, e; split; [right|]; auto].
      destruct (rd k0) eqn:E0; [|right; exists k0, e0; split; [left|]; auto].
      left. intros k1 e1 [Y|I]; [injection Y as <- <-; eauto|eauto]. }
  destruct D as [D|D].
  - left. destruct (outcome_ok ev f M rd EV C L) as (F & E & _); [|eauto].
    intros k e X. destruct (D k e X) as [e' E']. exists e'. split; auto. rewrite <- E'. auto.
  - right. apply (outcome_fails ev f M rd); auto.
Qed.

Lemma sampled_iff ev f d n : (exists it, form_construct it = Ok f) -> 0 < n ->
  (form_free_symbols (form_subs ev f (dmap number d)) = [phi] /\ exists dt, form_to_dat ev f d n = Ok dt) \/
  (form_free_symbols (form_subs ev f (dmap number d)) <> [phi] /\ form_to_dat ev f d n = Raise ValueError).
Proof.
  intros [it C] P. apply form_construct_inv in C. unfold form_free_symbols.
  destruct (list_eq_dec sym_eq_dec (symbol_list (dvals (form_subs ev f (dmap number d)))) [phi]) as [E|N].
  - left. split; auto. rewrite form_to_dat_ok; eauto.
  - right. split; auto. unfold form_to_dat. rewrite form_construct_items by auto. cbn [bind]. unfold form_free_symbols.
    destruct (symbol_list _) as [|x [|y l]]; auto. destruct (sym_eqb_spec x phi) as [->|]; auto. congruence.
Qed.
