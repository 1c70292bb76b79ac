(** Specification for property C144: the tensors of values a tensor of
    expressions can take. *)
From Coq Require Import String List Reals.
Import ListNotations.
From Coquelicot Require Import Complex.
From Verif Require Import Expr TensorModel SpecTensor.

(** The values the entries take together, for some values of the symbols, real
    for those declared real. *)
Definition takes (t : tensor expr) (v : list nat -> C) : Prop :=
  exists rho, respects rho /\ forall i, fits (shape t) i -> eval rho (at_ t i) = v i.

(** The same with real values for the symbols without a reality assumption too. *)
Definition takes_real (t : tensor expr) (v : list nat -> C) : Prop :=
  exists rho, respects rho /\ (forall s, sreal s = None -> Im (rho s) = 0%R) /\
    forall i, fits (shape t) i -> eval rho (at_ t i) = v i.

Definition occurs (t : tensor expr) (s : sym) : Prop := exists i, fits (shape t) i /\ In s (syms (at_ t i)).

(** No name given to a real part is also given to an imaginary part, and none of
    either kind is the name of a real symbol the tensor already has. *)
Definition no_clash (prefix suffix : string * string) (t : tensor expr) : Prop :=
  (forall n m, occurs t (mksym n None) -> occurs t (mksym m None) ->
     (fst prefix ++ n ++ fst suffix <> snd prefix ++ m ++ snd suffix)%string) /\
  (forall n m, occurs t (mksym n None) -> occurs t (mksym m (Some true)) ->
     (m <> fst prefix ++ n ++ fst suffix /\ m <> snd prefix ++ n ++ snd suffix)%string).
