(** Crystals that are turned, multiplied by a constant, or have a mirror plane. *)
From Coq Require Import String List Arith Reals.
Import ListNotations.
From Coquelicot Require Import Complex.
From Verif Require Import PyBase CBase Expr TensorModel TensorInst SpecTensor UtilModel SpecUtil SpecGroups.
Local Open Scope nat_scope.

(** A tensor that may be missing, and the same after [transform(t, R)]. *)
Definition opt_transformed (ev : expr -> expr) (R : tensor expr) (t t' : option (tensor expr)) : Prop :=
  match t, t' with
  | None, None => True
  | Some t, Some t' => @transform expr (Sig_ev ev) t R = Ok t'
  | _, _ => False
  end.

(** The array [c*t]. *)
Definition times (ev : expr -> expr) (c : expr) (t : tensor expr) : tensor expr :=
  mkT (shape t) (fun i => ev (EMul [c; at_ t i])).

(** Reflection in the plane that contains z and makes the angle a with the x axis. *)
Definition mirror_z (a : R) : tensor C :=
  mkT [3; 3] (fun ix => match ix with
    | [0; 0] => RtoC (cos (2 * a))
    | [0; 1] | [1; 0] => RtoC (sin (2 * a))
    | [1; 1] => RtoC (- cos (2 * a))
    | [2; 2] => RtoC 1
    | _ => RtoC 0
    end).

(** An axial tensor is invariant under a reflection when [transform] reverses its
    sign. *)
Definition opt_axial_mirror (rho : sym -> C) (t : option (tensor expr)) (R : tensor C) : Prop :=
  match t with
  | None => True
  | Some t => exists v, transform (instance rho t) R = Ok v /\ forall i, fits (shape t) i -> at_ v i = Copp (eval rho (at_ t i))
  end.

Definition has_mirror (a : R) (gens : list smat) : Prop := exists R, generated gens R /\ teq R (mirror_z a).
Definition has_inversion (gens : list smat) : Prop := exists R, generated gens R /\ teq R (mat inv).

(** What a user passes on: the table entry after [make_tensor_real] or
    [make_tensor_complex]. *)
Definition prepared (order : list sym -> list sym) (t u : tensor expr) : Prop :=
  make_tensor_real order t = Ok u \/ make_tensor_complex order ("real_", "imag_")%string ("", "")%string t = Ok u.
