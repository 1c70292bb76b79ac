(** Specification vocabulary for the input of the containers of Fourier data and
    of formulas. *)
From Coq Require Import String List.
From Coquelicot Require Import Complex.
From Verif Require Import PyBase DataModel FDataModel Expr FormModel.
Import ListNotations.
Local Open Scope nat_scope.

(** The last value given for a key. *)
Definition last_given {V} (it : list (pykey * V)) (k : pykey) (v : V) : Prop :=
  exists before after, it = before ++ (k, v) :: after /\ ~ In k (map fst after).

(** Text keys with one-dimensional complex arrays of 2M+1 entries. *)
Definition fourier_input (it : list (pykey * fval)) (M : nat) : Prop :=
  forall pk, In pk (map fst it) -> exists k l, pk = KStr k /\ last_given it pk (FArr true 1 l) /\ length l = 2 * M + 1.
(** Text keys with one-dimensional object arrays of 2M+1 numbers and expressions. *)
Definition formula_input (it : list (pykey * oval)) (M : nat) : Prop :=
  forall pk, In pk (map fst it) -> exists k l, pk = KStr k /\ last_given it pk (OArr true 1 l) /\ length l = 2 * M + 1 /\ ~ In Junk l.
(** Text keys with expressions. *)
Definition form_input (it : list (pykey * option expr)) : Prop :=
  forall pk, In pk (map fst it) -> exists k e, pk = KStr k /\ last_given it pk (Some e).

(** An entry and the expression it stands for. *)
Definition entry_is (x : entry) (e : expr) : Prop :=
  match x with PyNum a b => e = ENum a b | SymE e' => e = e' | Junk => False end.
