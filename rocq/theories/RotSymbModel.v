(** [rotation_matrix3symb] of utilities.py: the rotation matrix as formulas of the
    angle.  The axis holds real numbers, which are constants of the formulas. *)
From Coq Require Import List Reals.
From Coquelicot Require Import Complex.
Import ListNotations.
From Verif Require Import PyBase Expr UtilModel FitModel.
Local Open Scope R_scope.

Section Symb.
Variable kev : code -> code.

(** Arithmetic of sympy: every operation is evaluated automatically. *)
Definition kadd (a b : code) : code := kev (KAdd [a; b]).
Definition kmul (a b : code) : code := kev (KMul [a; b]).
Definition ksub (a b : code) : code := kev (KAdd [a; KMul [KNum (RtoC (-1)); b]]).
Definition knum (x : R) : code := KNum (RtoC x).

(** utilities.py 201-204.  Products of two numbers of the axis are numbers. *)
Definition symb_rows (n : vec) (c s : code) : list (list code) :=
  let '(nx, ny, nz) := n in
  let r := ksub (knum 1) c in
  [[kadd c (kmul (knum (nx ^ 2)) r); ksub (kmul (knum (nx * ny)) r) (kmul (knum nz) s); kadd (kmul (knum (nx * nz)) r) (kmul (knum ny) s)];
   [kadd (kmul (knum (ny * nx)) r) (kmul (knum nz) s); kadd c (kmul (knum (ny ^ 2)) r); ksub (kmul (knum (ny * nz)) r) (kmul (knum nx) s)];
   [ksub (kmul (knum (nz * nx)) r) (kmul (knum ny) s); kadd (kmul (knum (nz * ny)) r) (kmul (knum nx) s); kadd c (kmul (knum (nz ^ 2)) r)]].

(** utilities.py 181-205 ([rotation_matrix3symb]): the axis as it is left behind and
    the matrix.  [ndigits] is not used by the code.  A zero axis gives nan in every
    entry. *)
Definition rotation_matrix3symb (dt : vdtype) (n : vec) (t : code) : res (vec * list (list code)) :=
  let m := vnorm n in
  if Req_EM_T m 0 then Raise NonFinite else
    let n' := vmap (fun x => vcast dt (x / m)) n in
    Ok (n', symb_rows n' (kev (KCos t)) (kev (KSin t))).
End Symb.
