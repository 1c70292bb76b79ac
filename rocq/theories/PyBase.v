(** Python basics used by every model file: exceptions as values, insertion
    ordered dictionaries, python sequence indexing, ASCII case mapping.
    Nothing here is specific to shgpy. *)
From Coq Require Import String Ascii List ZArith Lia Bool Permutation.
Import ListNotations.

(** Python exception classes that occur in the modelled code.  [NonFinite] is
    not an exception: it marks results that python represents by inf or nan,
    which the model does not follow any further. *)
Inductive exn : Set :=
| ValueError | KeyError | IndexError | TypeError | AttributeError
| ZeroDivisionError | NotImplementedError | AssertionError | UnboundLocalError
| FileNotFoundError | OSError | CodeGenArgumentListError | NonFinite.

Inductive res (A : Type) : Type :=
| Ok (a : A)
| Raise (e : exn).
Arguments Ok {A} a.
Arguments Raise {A} e.

Definition bind {A B} (r : res A) (f : A -> res B) : res B :=
  match r with Ok a => f a | Raise e => Raise e end.

Declare Scope res_scope.
Delimit Scope res_scope with res.
Notation "'do' x <- r ; k" := (bind r (fun x => k))
  (at level 200, x pattern, r at level 100, k at level 200) : res_scope.
Open Scope res_scope.

Definition is_ok {A} (r : res A) : Prop := exists a, r = Ok a.

(** [map] with exceptions, left to right (python list comprehension whose body
    may raise). *)
Fixpoint mapM {A B} (f : A -> res B) (l : list A) : res (list B) :=
  match l with
  | [] => Ok []
  | a :: l' => do b <- f a; do bs <- mapM f l'; Ok (b :: bs)
  end.

(** Decidable equality used by [==] and [in]. *)
Class Eqb (K : Type) := {
  eqb : K -> K -> bool;
  eqb_spec : forall a b, reflect (a = b) (eqb a b)
}.

Lemma eqb_refl {K} `{Eqb K} (a : K) : eqb a a = true.
Proof. destruct (eqb_spec a a); congruence. Qed.

Lemma eqb_neq {K} `{Eqb K} (a b : K) : a <> b -> eqb a b = false.
Proof. intros; destruct (eqb_spec a b); congruence. Qed.

#[global] Instance Eqb_string : Eqb string :=
  {| eqb := String.eqb; eqb_spec := String.eqb_spec |}.
#[global] Instance Eqb_Z : Eqb Z := {| eqb := Z.eqb; eqb_spec := Z.eqb_spec |}.
#[global] Instance Eqb_nat : Eqb nat := {| eqb := Nat.eqb; eqb_spec := Nat.eqb_spec |}.

(** Python [dict]: key/value pairs in insertion order, each key once. *)
Notation dict K V := (list (prod K V)) (only parsing).

Section Dict.
  Context {K V : Type} `{Eqb K}.

  (** [d[k]]; [None] stands for KeyError. *)
  Fixpoint dget (k : K) (d : dict K V) : option V :=
    match d with
    | [] => None
    | (k', v) :: d' => if eqb k k' then Some v else dget k d'
    end.

  (** [d[k] = v]: keeps the position of an existing key, appends a new one. *)
  Fixpoint dset (k : K) (v : V) (d : dict K V) : dict K V :=
    match d with
    | [] => [(k, v)]
    | (k', v') :: d' => if eqb k k' then (k', v) :: d' else (k', v') :: dset k v d'
    end.

  Definition dkeys (d : dict K V) : list K := map fst d.
  Definition dvals (d : dict K V) : list V := map snd d.

  (** [dict(iterable_of_pairs)] *)
  Definition dict_of (l : list (K * V)) : dict K V :=
    fold_left (fun d kv => dset (fst kv) (snd kv) d) l [].

  Definition dmem (k : K) (d : dict K V) : bool :=
    match dget k d with Some _ => true | None => false end.

  (** [d.pop(k)] on the remaining dictionary *)
  Fixpoint dremove (k : K) (d : dict K V) : dict K V :=
    match d with
    | [] => []
    | (k', v) :: d' => if eqb k k' then d' else (k', v) :: dremove k d'
    end.

  Definition dgetr (k : K) (d : dict K V) : res V :=
    match dget k d with Some v => Ok v | None => Raise KeyError end.

  Definition wf_dict (d : dict K V) : Prop := NoDup (dkeys d).

  Lemma dget_In k v d : dget k d = Some v -> In (k, v) d.
  Proof.
    induction d as [|[k' v'] d IH]; simpl; [discriminate|].
    destruct (eqb_spec k k') as [->|]; intros E.
    - left; congruence.
    - right; auto.
  Qed.

  Lemma dget_keys k d : dget k d <> None <-> In k (dkeys d).
  Proof.
    induction d as [|[k' v'] d IH]; simpl.
    - split; [congruence|tauto].
    - destruct (eqb_spec k k') as [->|N].
      + split; [auto|congruence].
      + rewrite IH. split; [auto|]. intros [E|E]; [congruence|auto].
  Qed.

  Lemma dget_None k d : dget k d = None <-> ~ In k (dkeys d).
  Proof.
    rewrite <- dget_keys. destruct (dget k d); split; try congruence.
    intros N; exfalso; apply N; congruence.
  Qed.

  Lemma In_dget k v d : wf_dict d -> In (k, v) d -> dget k d = Some v.
  Proof.
    induction d as [|[k' v'] d IH]; simpl; [tauto|].
    intros W [E|I]; inversion W as [|? ? N W']; subst.
    - injection E as -> ->. rewrite eqb_refl; auto.
    - destruct (eqb_spec k k') as [->|]; auto.
      exfalso; apply N. apply in_map_iff. exists (k', v); auto.
  Qed.

  Lemma dget_dset_eq k v d : dget k (dset k v d) = Some v.
  Proof.
    induction d as [|[k' v'] d IH]; simpl; [rewrite eqb_refl; auto|].
    destruct (eqb_spec k k') as [->|N]; simpl.
    - rewrite eqb_refl; auto.
    - rewrite eqb_neq; auto.
  Qed.

  Lemma dget_dset_neq k k0 v d : k <> k0 -> dget k (dset k0 v d) = dget k d.
  Proof.
    intros N; induction d as [|[k' v'] d IH]; simpl; [rewrite eqb_neq; auto|].
    destruct (eqb_spec k0 k') as [->|N']; simpl.
    - rewrite eqb_neq; auto.
    - rewrite IH; auto.
  Qed.

  Lemma dkeys_dset k v d :
    dkeys (dset k v d) = if dmem k d then dkeys d else dkeys d ++ [k].
  Proof.
    unfold dmem; induction d as [|[k' v'] d IH]; simpl; auto.
    destruct (eqb_spec k k') as [->|N]; simpl; auto.
    rewrite IH. destruct (dget k d); auto.
  Qed.

  Lemma In_dkeys_dset k k0 v d : In k (dkeys (dset k0 v d)) <-> k = k0 \/ In k (dkeys d).
  Proof.
    rewrite dkeys_dset. unfold dmem. destruct (dget k0 d) eqn:E.
    - split; auto. intros [->|]; auto. apply dget_keys; congruence.
    - rewrite in_app_iff; simpl. intuition.
  Qed.

  Lemma wf_dset k v d : wf_dict d -> wf_dict (dset k v d).
  Proof.
    unfold wf_dict; rewrite dkeys_dset. unfold dmem; destruct (dget k d) eqn:E; auto.
    intros W. apply dget_None in E.
    apply Permutation_NoDup with (l := k :: dkeys d).
    - apply Permutation_cons_append.
    - constructor; auto.
  Qed.

  Lemma wf_dict_of_aux l d : wf_dict d ->
    wf_dict (fold_left (fun d kv => dset (fst kv) (snd kv) d) l d).
  Proof.
    revert d; induction l as [|[k v] l IH]; simpl; intros; auto. apply IH, wf_dset; auto.
  Qed.

  Lemma wf_dict_of l : wf_dict (dict_of l).
  Proof. apply wf_dict_of_aux. constructor. Qed.

  Lemma dset_new k v d : ~ In k (dkeys d) -> dset k v d = d ++ [(k, v)].
  Proof.
    induction d as [|[k' v'] d IH]; simpl; intros N; auto.
    rewrite eqb_neq by (intros ->; auto). rewrite IH; auto.
  Qed.

  Lemma dict_of_wf_aux l d : NoDup (dkeys d ++ dkeys l) ->
    fold_left (fun d kv => dset (fst kv) (snd kv) d) l d = d ++ l.
  Proof.
    revert d; induction l as [|[k v] l IH]; simpl; intros d N; [now rewrite app_nil_r|].
    rewrite dset_new.
    - rewrite IH; [now rewrite <- app_assoc|].
      unfold dkeys; rewrite map_app; simpl. rewrite <- app_assoc; simpl. exact N.
    - apply NoDup_remove_2 in N. intros I; apply N, in_app_iff; auto.
  Qed.

  Lemma dict_of_wf l : wf_dict l -> dict_of l = l.
  Proof. intros W. unfold dict_of. rewrite dict_of_wf_aux; auto. Qed.

  Lemma In_dkeys_fold l d k :
    In k (dkeys (fold_left (fun d kv => dset (fst kv) (snd kv) d) l d))
    <-> In k (dkeys d) \/ In k (map fst l).
  Proof.
    revert d; induction l as [|[k' v'] l IH]; simpl; intros; [tauto|].
    rewrite IH, In_dkeys_dset. simpl. intuition.
  Qed.

  Lemma In_dkeys_dict_of l k : In k (dkeys (dict_of l)) <-> In k (map fst l).
  Proof. unfold dict_of. rewrite In_dkeys_fold. simpl. tauto. Qed.

  (** The value of a key is the last one given for it. *)
  Lemma dget_fold l d k :
    dget k (fold_left (fun d kv => dset (fst kv) (snd kv) d) l d) =
    match dget k (rev l) with Some v => Some v | None => dget k d end.
  Proof.
    revert d; induction l as [|[k' v'] l IH]; simpl; intros; auto.
    rewrite IH. clear IH.
    assert (A : forall a b, dget k (a ++ b) = match dget k a with Some v => Some v | None => dget k b end).
    { intros a b; induction a as [|[ka va] a IHa]; simpl; auto. destruct (eqb_spec k ka); auto. }
    rewrite A. destruct (dget k (rev l)); auto. simpl.
    destruct (eqb_spec k k') as [->|N].
    - now rewrite dget_dset_eq.
    - now rewrite dget_dset_neq.
  Qed.

  Lemma dget_dict_of l k : dget k (dict_of l) = dget k (rev l).
  Proof. unfold dict_of. rewrite dget_fold. destruct (dget k (rev l)); auto. Qed.

  Lemma dget_app k (a b : dict K V) :
    dget k (a ++ b) = match dget k a with Some v => Some v | None => dget k b end.
  Proof. induction a as [|[ka va] a IHa]; simpl; auto. destruct (eqb_spec k ka); auto. Qed.
End Dict.

(** Apply a function to every value, keys and order kept
    ([{k: f(v) for k, v in d.items()}]). *)
Definition dmap {K V W} (f : V -> W) (d : dict K V) : dict K W :=
  map (fun kv => (fst kv, f (snd kv))) d.

Lemma dkeys_dmap {K V W} (f : V -> W) (d : dict K V) : dkeys (dmap f d) = dkeys d.
Proof. unfold dkeys, dmap. rewrite map_map. reflexivity. Qed.

Lemma dget_dmap {K V W} `{Eqb K} (f : V -> W) (d : dict K V) k :
  dget k (dmap f d) = option_map f (dget k d).
Proof.
  induction d as [|[k' v] d IH]; simpl; auto. destruct (eqb k k'); auto.
Qed.

Lemma wf_dmap {K V W} `{Eqb K} (f : V -> W) (d : dict K V) : wf_dict d -> wf_dict (dmap f d).
Proof. unfold wf_dict. now rewrite dkeys_dmap. Qed.

Lemma dmap_dmap {K V W X} (g : W -> X) (f : V -> W) (d : dict K V) :
  dmap g (dmap f d) = dmap (fun v => g (f v)) d.
Proof. unfold dmap. rewrite map_map. reflexivity. Qed.

Lemma dmap_ext {K V W} (f g : V -> W) (d : dict K V) :
  (forall k v, In (k, v) d -> f v = g v) -> dmap f d = dmap g d.
Proof.
  intros E. apply map_ext_in. intros [k v] I; simpl. rewrite (E k v); auto.
Qed.

Lemma dmap_id {K V} (f : V -> V) (d : dict K V) :
  (forall k v, In (k, v) d -> f v = v) -> dmap f d = d.
Proof.
  intros E. unfold dmap. rewrite <- (map_id d) at 2. apply map_ext_in.
  intros [k v] I; simpl. rewrite (E k v); auto.
Qed.

(** Values mapped with a function that may raise, in order. *)
Fixpoint dmapM {K V W} (f : V -> res W) (d : dict K V) : res (dict K W) :=
  match d with
  | [] => Ok []
  | (k, v) :: d' => do w <- f v; do d'' <- dmapM f d'; Ok ((k, w) :: d'')
  end.

Lemma dmapM_Ok {K V W} (f : V -> res W) (d : dict K V) d' :
  dmapM f d = Ok d' <->
  Forall2 (fun kv kw => fst kv = fst kw /\ f (snd kv) = Ok (snd kw)) d d'.
Proof.
  revert d'; induction d as [|[k v] d IH]; simpl; intros d'.
  - split; [intros E; injection E as <-; constructor | intros F; inversion F; auto].
  - split.
    + destruct (f v) as [w|] eqn:E; simpl; [|discriminate].
      destruct (dmapM f d) as [d''|] eqn:E'; simpl; [|discriminate].
      intros X; injection X as <-. constructor; [auto|]. apply IH; auto.
    + intros F; inversion F as [|? [k' w] ? d'' [E1 E2] F']; subst; simpl in *; subst.
      apply IH in F'. rewrite E2; simpl. rewrite F'; reflexivity.
Qed.

Lemma dmapM_keys {K V W} (f : V -> res W) (d : dict K V) d' :
  dmapM f d = Ok d' -> dkeys d' = dkeys d.
Proof.
  revert d'; induction d as [|[k v] d IH]; simpl; intros d'.
  - intros E; injection E as <-; auto.
  - destruct (f v); simpl; [|discriminate].
    destruct (dmapM f d) as [d''|]; simpl; [|discriminate].
    intros X; injection X as <-. simpl. f_equal. apply IH; auto.
Qed.

Lemma dmapM_pure {K V W} (f : V -> W) (d : dict K V) :
  dmapM (fun v => Ok (f v)) d = Ok (dmap f d).
Proof. induction d as [|[k v] d IH]; simpl; auto. rewrite IH; auto. Qed.

Lemma mapM_Ok {A B} (f : A -> res B) (l : list A) l' :
  mapM f l = Ok l' <-> Forall2 (fun a b => f a = Ok b) l l'.
Proof.
  revert l'; induction l as [|a l IH]; simpl; intros l'.
  - split; [intros E; injection E as <-; constructor | intros F; inversion F; auto].
  - split.
    + destruct (f a) as [b|] eqn:E; simpl; [|discriminate].
      destruct (mapM f l) as [bs|] eqn:E'; simpl; [|discriminate].
      intros X; injection X as <-. constructor; [auto|]. apply IH; auto.
    + intros F; inversion F as [|? b ? bs E F']; subst. apply IH in F'.
      rewrite E; simpl. rewrite F'; auto.
Qed.

(** Python sequence indexing: [l[i]] with a possibly negative index. *)
Definition py_nth {A} (l : list A) (i : Z) : res A :=
  let j := if (i <? 0)%Z then (i + Z.of_nat (length l))%Z else i in
  if (j <? 0)%Z then Raise IndexError
  else match nth_error l (Z.to_nat j) with
       | Some a => Ok a
       | None => Raise IndexError
       end.

Lemma py_nth_nonneg {A} (l : list A) i : (0 <= i)%Z ->
  py_nth l i = match nth_error l (Z.to_nat i) with Some a => Ok a | None => Raise IndexError end.
Proof.
  intros P. unfold py_nth.
  replace (i <? 0)%Z with false by (symmetry; apply Z.ltb_ge; auto).
  replace (i <? 0)%Z with false by (symmetry; apply Z.ltb_ge; auto). reflexivity.
Qed.

Lemma py_nth_neg {A} (l : list A) i : (- Z.of_nat (length l) <= i < 0)%Z ->
  py_nth l i = match nth_error l (Z.to_nat (i + Z.of_nat (length l))) with
               | Some a => Ok a | None => Raise IndexError end.
Proof.
  intros P. unfold py_nth.
  replace (i <? 0)%Z with true by (symmetry; apply Z.ltb_lt; lia).
  replace (i + Z.of_nat (length l) <? 0)%Z with false by (symmetry; apply Z.ltb_ge; lia).
  reflexivity.
Qed.

Lemma py_nth_err {A} (l : list A) i : (Z.of_nat (length l) <= i)%Z ->
  py_nth l i = Raise IndexError.
Proof.
  intros P. rewrite py_nth_nonneg by lia.
  replace (nth_error l (Z.to_nat i)) with (@None A); auto.
  symmetry; apply nth_error_None. lia.
Qed.

(** [range(a, b)] over the integers, and [np.arange(-M, M+1)]. *)
Definition zrange (a b : Z) : list Z :=
  map (fun i => (a + Z.of_nat i)%Z) (seq 0 (Z.to_nat (b - a))).

Definition freqs (M : nat) : list Z := zrange (- Z.of_nat M) (Z.of_nat M + 1).

Lemma In_zrange a b x : In x (zrange a b) <-> (a <= x < b)%Z.
Proof.
  unfold zrange. rewrite in_map_iff. split.
  - intros [i [<- I]]. apply in_seq in I. lia.
  - intros P. exists (Z.to_nat (x - a)). split; [lia|]. apply in_seq. lia.
Qed.

Lemma length_zrange a b : length (zrange a b) = Z.to_nat (b - a).
Proof. unfold zrange. now rewrite map_length, seq_length. Qed.

Lemma In_freqs M m : In m (freqs M) <-> (- Z.of_nat M <= m <= Z.of_nat M)%Z.
Proof. unfold freqs. rewrite In_zrange. lia. Qed.

Lemma length_freqs M : length (freqs M) = (2 * M + 1)%nat.
Proof. unfold freqs. rewrite length_zrange. lia. Qed.

Lemma NoDup_zrange a b : NoDup (zrange a b).
Proof.
  unfold zrange. apply FinFun.Injective_map_NoDup; [|apply seq_NoDup].
  intros x y; lia.
Qed.

(** ASCII case mapping ([str.upper], [str.lower]). *)
Definition upper_ascii (c : ascii) : ascii :=
  let n := nat_of_ascii c in
  if (97 <=? n)%nat && (n <=? 122)%nat then ascii_of_nat (n - 32) else c.
Definition lower_ascii (c : ascii) : ascii :=
  let n := nat_of_ascii c in
  if (65 <=? n)%nat && (n <=? 90)%nat then ascii_of_nat (n + 32) else c.

Fixpoint smap (f : ascii -> ascii) (s : string) : string :=
  match s with EmptyString => EmptyString | String c s' => String (f c) (smap f s') end.
Definition upper := smap upper_ascii.
Definition lower := smap lower_ascii.

(** Membership test with [==] ([x in list]). *)
Definition mem {A} (beq : A -> A -> bool) (x : A) (l : list A) : bool := existsb (beq x) l.

Lemma mem_In {K} `{Eqb K} (x : K) l : mem eqb x l = true <-> In x l.
Proof.
  unfold mem. rewrite existsb_exists. split.
  - intros [y [I E]]. destruct (eqb_spec x y); congruence.
  - intros I. exists x; split; auto. apply eqb_refl.
Qed.
