(** What the tensor helpers should compute, written without their bookkeeping. *)
From Coq Require Import List Arith Bool Permutation.
Import ListNotations.
From Verif Require Import PyBase TensorModel.

(** Commutative semirings: every type of entries a user works with, up to
    algebraic identity. *)
Class CSR (A : Type) `{Sig A} := {
  add_0 : forall a : A, add zero a = a;
  add_C : forall a b : A, add a b = add b a;
  add_A : forall a b c : A, add a (add b c) = add (add a b) c;
  mul_1 : forall a : A, mul one a = a;
  mul_0 : forall a : A, mul zero a = zero;
  mul_C : forall a b : A, mul a b = mul b a;
  mul_A : forall a b c : A, mul a (mul b c) = mul (mul a b) c;
  mul_D : forall a b c : A, mul a (add b c) = add (mul a b) (mul a c)
}.

(** Equality of arrays: same shape, same entries inside the shape. *)
Definition teq {A} (t u : tensor A) : Prop :=
  shape t = shape u /\ forall i, In i (indices (shape t)) -> at_ t i = at_ u i.

Definition fits (sh i : list nat) : Prop := Forall2 (fun x d => x < d) i sh.

(** Axes that occur in no pair, in increasing order. *)
Definition free_axes (r : nat) (pairs : list (nat * nat)) : list nat :=
  filter (fun a => negb (existsb (fun p => (a =? fst p) || (a =? snd p)) pairs)) (seq 0 r).

(** The entries of a full index tuple at the given axes. *)
Definition pick (axes J : list nat) : list nat := map (fun a => nth a J 0) axes.

Definition lists_eqb (a b : list nat) : bool := if list_eq_dec Nat.eq_dec a b then true else false.

(** A full index tuple that contributes to entry [o] of the contraction: paired
    axes carry equal indices and the remaining axes read [o]. *)
Definition contributes (pairs : list (nat * nat)) (o J : list nat) : bool :=
  forallb (fun p => nth (fst p) J 0 =? nth (snd p) J 0) pairs
  && lists_eqb (pick (free_axes (length J) pairs) J) o.

Definition contraction {A} `{Sig A} (t : tensor A) (pairs : list (nat * nat)) (o : list nat) : A :=
  sumv (map (at_ t) (filter (contributes pairs o) (indices (shape t)))).

(** Pairs of distinct existing axes, no axis twice. *)
Definition axes_of (pairs : list (nat * nat)) : list nat := flat_map (fun p => [fst p; snd p]) pairs.
Definition disjoint_pairs (r : nat) (pairs : list (nat * nat)) : Prop :=
  NoDup (axes_of pairs) /\ Forall (fun a => a < r) (axes_of pairs).

Definition to_lists (pairs : list (nat * nat)) : list (list nat) :=
  map (fun p => [fst p; snd p]) pairs.

(** The same pairs in another order and with the two members of each pair
    possibly exchanged. *)
Definition same_pairs (p q : list (nat * nat)) : Prop :=
  exists q', Permutation q' q /\ Forall2 (fun a b => a = b \/ a = (snd b, fst b)) p q'.

(** Product of the entries R[i_1,a_1] ... R[i_r,a_r]. *)
Fixpoint prod_entries {A} `{Sig A} (R : tensor A) (i a : list nat) : A :=
  match i, a with
  | x :: i', y :: a' => mul (at_ R [x; y]) (prod_entries R i' a')
  | _, _ => one
  end.

(** Components of a tensor in the transformed frame. *)
Definition rotated {A} `{Sig A} (t R : tensor A) (i : list nat) : A :=
  sumv (map (fun a => mul (prod_entries R i a) (at_ t a)) (indices (shape t))).

Definition is_matrix {A} (d : nat) (R : tensor A) : Prop := shape R = [d; d].
Definition is_cube {A} (d : nat) (t : tensor A) : Prop := shape t = repeat d (rank t).

Definition identity {A} `{Sig A} (d : nat) : tensor A :=
  mkT [d; d] (fun i => match i with [x; y] => if x =? y then one else zero | _ => zero end).

Definition matmul {A} `{Sig A} (d : nat) (R S : tensor A) : tensor A :=
  mkT [d; d] (fun i => match i with
    | [x; y] => sumv (map (fun k => mul (at_ R [x; k]) (at_ S [k; y])) (seq 0 d))
    | _ => zero end).

Definition tadd {A} `{Sig A} (t u : tensor A) : tensor A := mkT (shape t) (fun i => add (at_ t i) (at_ u i)).
Definition tscale {A} `{Sig A} (c : A) (t : tensor A) : tensor A := mkT (shape t) (fun i => mul c (at_ t i)).

(** Position of the first occurrence. *)
Fixpoint first_at {K} `{Eqb K} (x : K) (l : list K) : nat :=
  match l with [] => 0 | y :: l' => if eqb x y then 0 else S (first_at x l') end.
