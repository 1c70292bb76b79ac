(** Specification for angles held in double precision. *)
From Coq Require Import Reals ZArith List Permutation Sorted.
Import ListNotations.
Local Open Scope R_scope.

(** Representable numbers (without an upper limit on the exponent). *)
Definition double (x : R) : Prop :=
  exists m e : Z, x = IZR m * powerRZ 2 e /\ (Z.abs m < 2 ^ 53)%Z /\ (-1074 <= e)%Z.

(** [y] is the direction [x], in radians or degrees, up to an error [b]. *)
Definition direction (turn b x y : R) : Prop := exists k : Z, Rabs (y - (x - turn * IZR k)) <= b.

(** The points [l'] are the points [l] turned by [s], in some order, with the same
    values, each up to an error [b]. *)
Definition turned_by (s b : R) (l l' : list (R * R)) : Prop :=
  exists l'', Permutation l' l'' /\
    Forall2 (fun p q => snd q = snd p /\ direction (2 * PI) b (fst p + s) (fst q)) l l''.

(** Two directions in degrees at least [b] apart. *)
Definition apart (b x y : R) : Prop := forall k : Z, b <= Rabs (x - y - 360 * IZR k).

(** The point [p] is the first of [l] at its angle. *)
Definition first_at (l : list (R * R)) (p : R * R) : Prop :=
  exists l1 l2, l = l1 ++ p :: l2 /\ ~ In (fst p) (map fst l1).

(** Angles in increasing order, each a double from 0 to [top], both included. *)
Definition angles_ok (top : R) (l : list (R * R)) : Prop :=
  StronglySorted Rle (map fst l) /\ Forall (fun x => double x /\ 0 <= x <= top) (map fst l).

(** Directions in degrees of ordinary size, any two of them at least [1e-10] apart. *)
Definition separated (l : list (R * R)) : Prop :=
  Forall (fun p => Rabs (fst p) <= 100000) l /\
  ForallOrdPairs (fun p q => apart (/ 10 ^ 10) (fst q) (fst p)) l.

(** The sum of some turns, and the error allowed for them. *)
Definition drift (turns : list R) : R := fold_right (fun a b => (Rabs a + 10) * (2 / 10 ^ 16) + b) 0 turns.
Definition total (turns : list R) : R := fold_right Rplus 0 turns.
