(** A real matrix written as rows of complex numbers. *)
From Coq Require Import List Reals.
From Coquelicot Require Import Complex.
Import ListNotations.
From Verif Require Import UtilModel.

Definition real_rows (m : mat) : list (list C) :=
  let '((a, b, c), (d, e, f), (g, h, i)) := m in
  [[RtoC a; RtoC b; RtoC c]; [RtoC d; RtoC e; RtoC f]; [RtoC g; RtoC h; RtoC i]].
