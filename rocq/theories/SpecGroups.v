(** Crystallographic point groups, for comparison with the tables of
    tensor_definitions.py.  Nothing here is taken from the code. *)
From Coq Require Import String List Arith ZArith Reals.
Import ListNotations.
From Coquelicot Require Import Complex.
From Verif Require Import PyBase Expr TensorModel SpecTensor TensorInst.
Local Open Scope string_scope.
Local Open Scope nat_scope.

(** Numbers a + b sqrt 3 with integer a, b. *)
Definition surd : Type := (Z * Z)%type.
Definition sval (x : surd) : R := (IZR (fst x) + IZR (snd x) * sqrt 3)%R.

(** 3x3 matrices are given by twice their entries. *)
Definition smat : Type := list (list surd).
Definition sentry (g : smat) (i j : nat) : surd := nth j (nth i g []) (0%Z, 0%Z).
Definition mat (g : smat) : tensor C :=
  mkT [3; 3] (fun ix => match ix with
    | [i; j] => RtoC (sval (sentry g i j) / 2)
    | _ => RtoC 0
    end).

Definition whole (a : Z) : surd := ((2 * a)%Z, 0%Z).
Definition diag (a b c : Z) : smat :=
  [[whole a; whole 0; whole 0]; [whole 0; whole b; whole 0]; [whole 0; whole 0; whole c]].
Definition r (b : Z) : surd := (0%Z, b).   (* b sqrt 3 *)
Definition u (a : Z) : surd := (a, 0%Z).

Definition E := diag 1 1 1.
Definition inv := diag (-1) (-1) (-1).
Definition C2x := diag 1 (-1) (-1).
Definition C2y := diag (-1) 1 (-1).
Definition C2z := diag (-1) (-1) 1.
Definition mx := diag (-1) 1 1.
Definition my := diag 1 (-1) 1.
Definition mz := diag 1 1 (-1).
(** Rotations about z by a quarter, a third and a sixth of a turn, the quarter
    turn followed by inversion, and the third of a turn about (1,1,1). *)
Definition C4z : smat := [[u 0; u (-2); u 0]; [u 2; u 0; u 0]; [u 0; u 0; u 2]].
Definition S4z : smat := [[u 0; u 2; u 0]; [u (-2); u 0; u 0]; [u 0; u 0; u (-2)]].
Definition C3z : smat := [[u (-1); r (-1); u 0]; [r 1; u (-1); u 0]; [u 0; u 0; u 2]].
Definition C6z : smat := [[u 1; r (-1); u 0]; [r 1; u 1; u 0]; [u 0; u 0; u 2]].
Definition C3d : smat := [[u 0; u 0; u 2]; [u 2; u 0; u 0]; [u 0; u 2; u 0]].

(** A set of generators for each point group, with the order of the group.  The
    principal axis is z, except for the monoclinic groups C_2, C_1h and C_2h,
    whose axis is y. *)
Definition point_groups : list (string * (list smat * nat)) := [
  ("C_1", ([], 1)); ("S_2", ([inv], 2));
  ("C_2", ([C2y], 2)); ("C_1h", ([my], 2)); ("C_2h", ([C2y; inv], 4));
  ("D_2", ([C2x; C2y], 4)); ("C_2v", ([C2z; mx], 4)); ("D_2h", ([C2x; C2y; inv], 8));
  ("C_4", ([C4z], 4)); ("S_4", ([S4z], 4)); ("C_4h", ([C4z; inv], 8)); ("D_4", ([C4z; C2x], 8));
  ("C_4v", ([C4z; mx], 8)); ("D_2d", ([S4z; C2x], 8)); ("D_4h", ([C4z; C2x; inv], 16));
  ("C_3", ([C3z], 3)); ("S_6", ([C3z; inv], 6));
  ("D_3", ([C3z; C2x], 6)); ("C_3v", ([C3z; mx], 6)); ("D_3d", ([C3z; C2y; inv], 12));
  ("C_6", ([C6z], 6)); ("C_3h", ([C3z; mz], 6)); ("C_6h", ([C6z; inv], 12)); ("D_6", ([C6z; C2x], 12));
  ("C_6v", ([C6z; mx], 12)); ("D_3h", ([C3z; mz; mx], 12)); ("D_6h", ([C6z; C2x; inv], 24));
  ("T", ([C2z; C3d], 12)); ("T_h", ([C2z; C3d; inv], 24)); ("O", ([C4z; C3d], 24));
  ("T_d", ([S4z; C3d], 24)); ("O_h", ([C4z; C3d; inv], 48))].

(** The other usual setting of the two trigonal groups with one set of twofold
    axes or mirrors: turned by 90 degrees about z. *)
Definition other_setting : list (string * (list smat * nat)) := [
  ("D_3", ([C3z; C2y], 6)); ("C_3v", ([C3z; my], 6))].

(** The tables are checked in these settings. *)
Definition dipole_groups : list (string * (list smat * nat)) := point_groups.
Definition quadrupole_groups : list (string * (list smat * nat)) := (other_setting ++ point_groups)%list.

(** All products of generators.  (The groups are finite, so inverses are
    products too.) *)
Inductive generated (gens : list smat) : tensor C -> Prop :=
| gen_1 : generated gens (identity 3)
| gen_step R g : generated gens R -> In g gens -> generated gens (matmul 3 R (mat g)).

(** [transform] leaves the tensor as it is. *)
Definition invariant (t R : tensor C) : Prop := exists v, transform t R = Ok v /\ teq v t.

(** The tensor a user gets for given values of the parameters. *)
Definition instance (rho : env) (t : tensor expr) : tensor C := tmap (eval rho) t.

(** The parameters of a table entry. *)
Definition params_of (t : tensor expr) : list sym := flat_map syms (flatten t).

(** Invariance for all parameter values under the whole group. *)
Definition invariant_table (t : tensor expr) (gens : list smat) : Prop :=
  forall rho R, generated gens R -> invariant (instance rho t) R.

(** Every tensor invariant under the generators comes from one choice of
    parameters. *)
Definition complete_table (t : tensor expr) (gens : list smat) : Prop :=
  forall X : tensor C, shape X = shape t -> (forall g, In g gens -> invariant X (mat g)) ->
  exists rho, teq X (instance rho t) /\
    forall rho', teq X (instance rho' t) -> forall s, In s (params_of t) -> rho' s = rho s.

(** Real orthogonal matrices: orthonormal rows and columns. *)
Definition delta (i j : nat) : C := if i =? j then RtoC 1 else RtoC 0.
Definition orthogonal (R : tensor C) : Prop :=
  shape R = [3; 3] /\
  (forall i j, i < 3 -> j < 3 -> Im (at_ R [i; j]) = 0%R) /\
  (forall i j, i < 3 -> j < 3 -> sumv (map (fun k => mul (at_ R [i; k]) (at_ R [j; k])) (seq 0 3)) = delta i j) /\
  (forall i j, i < 3 -> j < 3 -> sumv (map (fun k => mul (at_ R [k; i]) (at_ R [k; j])) (seq 0 3)) = delta i j).

Definition transpose (R : tensor C) : tensor C :=
  mkT [3; 3] (fun ix => match ix with [i; j] => at_ R [j; i] | _ => RtoC 0 end).

(** Some orientation of the group leaves both tensors invariant for all
    parameter values. *)
Definition common_orientation (t1 t2 : tensor expr) (gens : list smat) : Prop :=
  exists Q, orthogonal Q /\ forall R, generated gens R ->
    let R' := matmul 3 Q (matmul 3 R (transpose Q)) in
    forall rho, invariant (instance rho t1) R' /\ invariant (instance rho t2) R'.

(** Rotation about z. *)
Definition rot_z (a : R) : tensor C :=
  mkT [3; 3] (fun ix => match ix with
    | [0; 0] | [1; 1] => RtoC (cos a)
    | [0; 1] => RtoC (- sin a)
    | [1; 0] => RtoC (sin a)
    | [2; 2] => RtoC 1
    | _ => RtoC 0
    end).
