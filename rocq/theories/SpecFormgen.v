(** What a rotational-anisotropy SHG experiment measures, in components.

    The crystal is turned by phi about z.  The beam comes in along
    (sin theta, 0, cos theta) with field p = (-cos theta, 0, sin theta) or
    s = (0, 1, 0), and leaves along (sin theta, 0, -cos theta).  The source is
    P + k x M + i Q.k with P, M, Q quadratic in the field; what leaves is its
    part orthogonal to the outgoing direction. *)
From Coq Require Import String List Arith ZArith Reals.
Import ListNotations.
From Coquelicot Require Import Complex.
From Verif Require Import PyBase CBase Expr TensorModel TensorInst SpecTensor UtilModel FormModel SpecForm SpecGroups.
Local Open Scope C_scope.

Notation vec3 := (nat -> C) (only parsing).
Notation tens3 := (nat -> nat -> nat -> C) (only parsing).
Notation tens4 := (nat -> nat -> nat -> nat -> C) (only parsing).

Definition sum3 (f : nat -> C) : C := f 0%nat + f 1%nat + f 2%nat.

Definition triple (a b c : C) : vec3 := fun i => match i with 0%nat => a | 1%nat => b | 2%nat => c | _ => RtoC 0 end.

Definition Rz (a : R) (i j : nat) : C :=
  match i, j with
  | 0%nat, 0%nat => cos a | 0%nat, 1%nat => - sin a
  | 1%nat, 0%nat => sin a | 1%nat, 1%nat => cos a
  | 2%nat, 2%nat => RtoC 1
  | _, _ => RtoC 0
  end.

Definition turned3 (a : R) (X : tens3) : tens3 := fun i j k =>
  sum3 (fun l => sum3 (fun m => sum3 (fun n => Rz a i l * Rz a j m * Rz a k n * X l m n))).
Definition turned4 (a : R) (X : tens4) : tens4 := fun i j k h =>
  sum3 (fun l => sum3 (fun m => sum3 (fun n => sum3 (fun o => Rz a i l * Rz a j m * Rz a k n * Rz a h o * X l m n o)))).

Definition dot3 (u v : vec3) : C := sum3 (fun i => u i * v i).
Definition cross (u v : vec3) : vec3 :=
  triple (u 1%nat * v 2%nat - u 2%nat * v 1%nat) (u 2%nat * v 0%nat - u 0%nat * v 2%nat) (u 0%nat * v 1%nat - u 1%nat * v 0%nat).

Inductive pol := Pin | Sin.

Definition field (theta : R) (p : pol) : vec3 :=
  match p with Pin => triple (- cos theta) (RtoC 0) (sin theta) | Sin => triple (RtoC 0) (RtoC 1) (RtoC 0) end.
Definition k_incident (theta : R) : vec3 := triple (sin theta) (RtoC 0) (cos theta).
Definition k_reflected (theta : R) : vec3 := triple (sin theta) (RtoC 0) (- cos theta).

(** Induced dipole, magnetic dipole and (contracted with k) quadrupole moment *)
Definition moment3 (X : tens3) (F : vec3) : vec3 := fun i => sum3 (fun j => sum3 (fun k => X i j k * F j * F k)).
Definition moment4 (X : tens4) (k F : vec3) : vec3 :=
  fun i => sum3 (fun j => sum3 (fun l => sum3 (fun m => X i j l m * k j * F l * F m))).

Definition source (theta : R) (E M : tens3) (Q : tens4) (p : pol) (phi : R) : vec3 := fun i =>
  let F := field theta p in
  moment3 (turned3 phi E) F i +
  cross (k_incident theta) (moment3 (turned3 phi M) F) i +
  Ci * moment4 (turned4 phi Q) (k_incident theta) F i.

Definition transverse (theta : R) (S : vec3) : vec3 := fun i =>
  S i - dot3 (k_reflected theta) S * k_reflected theta i.

(** What is detected behind an analyser passing p or s light *)
Definition detected (S : vec3) (out : pol) : R :=
  match out with
  | Pin => (Cmod (S 0%nat) ^ 2 + Cmod (S 2%nat) ^ 2)%R
  | Sin => (Cmod (S 1%nat) ^ 2)%R
  end.

Definition intensity (theta : R) (E M : tens3) (Q : tens4) (inp out : pol) (phi : R) : R :=
  detected (transverse theta (source theta E M Q inp phi)) out.

(** The polarization of the outgoing p light *)
Definition p_out (theta : R) : vec3 := triple (cos theta) (RtoC 0) (sin theta).

Local Open Scope nat_scope.
(** Components of an optional tensor; a tensor that is not given counts as 0 *)
Definition val3 (rho : sym -> C) (t : option (tensor expr)) : nat -> nat -> nat -> C := fun i j k =>
  match t with None => RtoC 0 | Some t => eval rho (at_ t [i; j; k]) end.
Definition val4 (rho : sym -> C) (t : option (tensor expr)) : nat -> nat -> nat -> nat -> C := fun i j k l =>
  match t with None => RtoC 0 | Some t => eval rho (at_ t [i; j; k; l]) end.

Definition has_shape (sh : list nat) (t : option (tensor expr)) : Prop :=
  match t with None => True | Some t => shape t = sh end.

(** Every symbol of the array is declared real *)
Definition real_params (t : option (tensor expr)) : Prop :=
  match t with
  | None => True
  | Some t => forall i s, In i (indices (shape t)) -> In s (syms (at_ t i)) -> sreal s = Some true
  end.

(** Input polarization first, as in the keys of the package *)
Definition key (inp out : pol) : string :=
  match inp, out with Pin, Pin => "PP"%string | Pin, Sin => "PS"%string | Sin, Pin => "SP"%string | Sin, Sin => "SS"%string end.

(** The four formulas of a container denote the intensities at this angle of
    incidence, for these values of the parameters and of phi. *)
Definition denotes (rho : sym -> C) (th : R) (F : list (string * expr)) (e m q : option (tensor expr)) : Prop :=
  dkeys F = ["PP"%string; "PS"%string; "SP"%string; "SS"%string] /\
  forall inp out, exists x, dget (key inp out) F = Some x /\
    eval rho x = RtoC (intensity th (val3 rho e) (val3 rho m) (val4 rho q) inp out (Re (rho phi))).

(** Symmetries of optional tensors *)
Definition opt_invariant (rho : sym -> C) (t : option (tensor expr)) (R : tensor C) : Prop :=
  match t with None => True | Some t => invariant (instance rho t) R end.
Definition phi_free (t : option (tensor expr)) : Prop :=
  match t with None => True | Some t => forall i, fits (shape t) i -> ~ In phi (syms (at_ t i)) end.

(** The group contains the rotation about z by an n-th of a turn. *)
Definition has_axis (n : Z) (gens : list smat) : Prop := exists R, generated gens R /\ teq R (rot_z (2 * PI / IZR n)).

(** The angle of incidence is real for some values of its symbols. *)
Definition real_angle (theta : expr) : Prop := exists rho th, respects rho /\ eval rho theta = RtoC th.

(** Two containers with the same keys and, wherever theta is real, the same values. *)
Definition same_values (theta : expr) (F G : list (string * expr)) : Prop :=
  dkeys F = dkeys G /\ forall k x y, dget k F = Some x -> dget k G = Some y ->
    forall rho th, respects rho -> eval rho theta = RtoC th -> eval rho x = eval rho y.

(** An angle of incidence made of real parameters. *)
Definition angle_ok (theta : expr) : Prop := forall s, In s (syms theta) -> sreal s = Some true.

(** Response tensors of the right ranks. *)
Definition shapes (e m q : option (tensor expr)) : Prop :=
  has_shape [3; 3; 3]%nat e /\ has_shape [3; 3; 3]%nat m /\ has_shape [3; 3; 3; 3]%nat q.

(** Nothing given to the generator mentions the azimuth. *)
Definition all_phi_free (theta : expr) (e m q : option (tensor expr)) : Prop :=
  ~ In phi (syms theta) /\ phi_free e /\ phi_free m /\ phi_free q.

(** A dipole and a quadrupole tensor with real parameters. *)
Definition good_tensors (d q : tensor expr) : Prop :=
  shape d = [3; 3; 3]%nat /\ shape q = [3; 3; 3; 3]%nat /\ real_params (Some d) /\ real_params (Some q).
