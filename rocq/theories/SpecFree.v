(** Vocabulary for fits in stages: first with some parameters held, then with all. *)
From Coq Require Import String List QArith Qreals Reals.
From Coquelicot Require Import Complex.
From Verif Require Import PyBase Expr.
Import ListNotations.

(** [{**xdict, **fixed}] *)
Definition with_fixed (xd : list (sym * R)) (fixed : list (sym * Q)) : list (sym * R) :=
  fold_left (fun d kv => dset (fst kv) (Q2R (snd kv)) d) fixed xd.
(** The numbers as they are given to [subs]. *)
Definition held (fixed : list (sym * Q)) : list (sym * (Q * Q)) := map (fun kv => (fst kv, (snd kv, 0%Q))) fixed.
