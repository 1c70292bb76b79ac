(** [dat_to_fdat] (data_handler.py:1539-1581) with the numbers of IEEE 754: data with
    missing values (nan).  FDataModel.v follows the same lines with real numbers.
    Angles and values are doubles; the coefficients are kept in single precision.  All
    nans are alike; numpy's warnings are not represented.  Definitions only. *)
From Coq Require Import String ZArith List Bool.
From Flocq Require Import Core IEEE754.BinarySingleNaN.
From Verif Require Import PyBase NanModel.
Import ListNotations.

Notation b32 := (binary_float 24 128) (only parsing).
#[global] Instance prec24 : Prec_gt_0 24 := eq_refl.
#[global] Instance emax128 : Prec_lt_emax 24 128 := eq_refl.
Definition plus (x y : b64) : b64 := Bplus mode_NE x y.
(** numpy's sum and product of complex numbers, the product for a real first factor,
    which numpy turns into a complex number first *)
Definition cplus (z w : b64 * b64) : b64 * b64 := (plus (fst z) (fst w), plus (snd z) (snd w)).
Definition rmult (r : b64) (z : b64 * b64) : b64 * b64 :=
  (minus (mult r (fst z)) (mult zero (snd z)), plus (mult r (snd z)) (mult zero (fst z))).
(** A double stored in single precision, data_handler.py:1572 *)
Definition single (x : b64) : b32 :=
  match x with
  | B754_zero s => B754_zero s
  | B754_infinity s => B754_infinity s
  | B754_nan => B754_nan
  | B754_finite s m e _ => binary_normalize 24 128 _ _ mode_NE (cond_Zopp s (Zpos m)) e s
  end.

Section Transform.
(** scipy's [interp1d(xdata, ydata, kind=interp_kind, fill_value='extrapolate')] (1576) *)
Variable interp : list (b64 * b64) -> res (b64 -> b64).
(** [np.linspace(0, 2*np.pi, n, endpoint=False)] (1577) *)
Variable grid : nat -> list b64.
(** [np.exp(-1j*m*x)] and [1/2/np.pi] (1580) *)
Variable wave : Z -> b64 -> b64 * b64.
Variable per_turn : b64.

(** One summand, one coefficient: data_handler.py:1575-1580 *)
Definition summand (m : Z) (dx y x : b64) : b64 * b64 := rmult (mult (mult per_turn dx) y) (wave m x).
Definition entry (p : list (b64 * b64)) (m : Z) : res (b32 * b32) :=
  do f <- interp p;
  match grid (length p) with
  | x0 :: x1 :: _ =>
      let s := fold_left cplus (map (fun x => summand m (minus x1 x0) (f x) x) (grid (length p))) (zero, zero) in
      Ok (single (fst s), single (snd s))
  | _ => Raise IndexError
  end.

(** [dat_to_fdat], data_handler.py:1572-1581.  The container made at the end accepts
    these arrays (C112). *)
Definition transform64 (d : list (string * list (b64 * b64))) (M : nat) : res (list (string * list (b32 * b32))) :=
  dmapM (fun p => mapM (entry p) (freqs M)) d.
End Transform.

(** interp1d of scipy, kind='linear' (see InterpModel.v): searchsorted gives the first
    index i with x <= xdata[i], clip brings it into 1..n-1; [slot] is i-1.  The data of a
    container are in the order of their angles (C01, C12), so that sorting them once more
    does nothing. *)
Fixpoint slot (xs : list b64) (x : b64) : nat :=
  match xs with
  | _ :: ((x2 :: rest) as xs') => match rest with [] => 0 | _ => if Bltb x2 x then S (slot xs' x) else 0 end
  | _ => 0
  end.
Definition between (a b : b64 * b64) (x : b64) : b64 :=
  plus (mult (divide (minus (snd b) (snd a)) (minus (fst b) (fst a))) (minus x (fst a))) (snd a).
Definition segment (p : list (b64 * b64)) (x : b64) : b64 :=
  match nth_error p (slot (map fst p) x), nth_error p (S (slot (map fst p) x)) with
  | Some a, Some b => between a b x
  | _, _ => B754_nan
  end.
Definition linear (p : list (b64 * b64)) : res (b64 -> b64) :=
  match p with [] => Raise ValueError | _ => Ok (segment p) end.

(** interp1d of scipy, kind='cubic' (the default) and 'quadratic': with a nan among the
    values the spline is made for ones instead of the values, and every result is
    replaced by nan.  [fit] is the spline through data without nan. *)
Definition one : b64 := Bone.
Definition spline (fit : list (b64 * b64) -> res (b64 -> b64)) (p : list (b64 * b64)) : res (b64 -> b64) :=
  if existsb (fun a => is_nan (snd a)) p then do g <- fit (map (fun a => (fst a, one)) p); Ok (fun _ => B754_nan)
  else fit p.
