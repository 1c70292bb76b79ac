(** Which parameters a formula may have. *)
From Coq Require Import String List.
Import ListNotations.
From Verif Require Import PyBase Expr TensorModel SpecTensor.

(** The symbol occurs in the array. *)
Definition mentions (t : tensor expr) (s : sym) : Prop := exists i, fits (shape t) i /\ In s (syms (at_ t i)).
Definition mentions_opt (t : option (tensor expr)) (s : sym) : Prop :=
  match t with Some t => mentions t s | None => False end.
