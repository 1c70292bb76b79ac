(** The values of a [DataContainer] with double-precision numbers, and the storage of
    Fourier coefficients in single precision: parts of shgpy/core/data_handler.py that
    DataModel.v and FDataModel.v follow with real numbers, here with every operation on
    values rounded to the nearest number, ties to even.  Angles are real numbers (they
    are not touched, see FloatModel.v for them); overflow of doubles, nan and signed
    zeros are not represented. *)
From Coq Require Import Reals ZArith List String.
From Flocq Require Import Core.
From Coquelicot Require Import Complex.
From Verif Require Import PyBase RMod CBase DataModel FDataModel FloatModel.
Import ListNotations.
Local Open Scope R_scope.

(** [scale_data], data_handler.py:161-166 *)
Definition scale_data64 (d : dat) (f : R) : out :=
  if Rltb f 0 then (d, Raise ValueError)
  else (mkdat (dmap (map_y (fun y => rnd (f * y))) (dc_data d)) (rnd (dc_scale d * f))
          (dc_phase d) (dc_offset d) (dc_units d) (dc_coerced d), Ok tt).

(** [subtract_min], data_handler.py:168-173 *)
Definition subtract_min64 (d : dat) : out :=
  match get_minval d with
  | Raise e => (d, Raise e)
  | Ok None => (d, Raise NonFinite)
  | Ok (Some (_, m)) =>
      (mkdat (dmap (map_y (fun y => rnd (y - m))) (dc_data d)) (dc_scale d) (dc_phase d)
         (rnd (dc_offset d - m)) (dc_units d) (dc_coerced d), Ok tt)
  end.

(** [normalize_data], data_handler.py:243-246 *)
Definition normalize_data64 (d : dat) (desired : R) : out :=
  match get_maxval d with
  | Raise e => (d, Raise e)
  | Ok None => scale_data64 d 0
  | Ok (Some (_, m)) =>
      if Reqb m 0 then
        if Rltb desired 0 then (d, Raise ValueError) else (d, Raise NonFinite)
      else scale_data64 d (rnd (desired / m))
  end.

(** A number of calls of [scale_data]; a refused one changes nothing. *)
Fixpoint scalings64 (d : dat) (fs : list R) : dat :=
  match fs with [] => d | f :: fs' => scalings64 (fst (scale_data64 d f)) fs' end.

(** [dat_add], [dat_subtract], data_handler.py:1427-1490 *)
Definition dat_add64 : dat -> dat -> res dat := dat_arith (fun a b => rnd (a + b)).
Definition dat_subtract64 : dat -> dat -> res dat := dat_arith (fun a b => rnd (a - b)).

(** Single-precision numbers: 24 binary digits, exponents from -149.  Storing a
    [complex128] in a [complex64] array rounds both parts; a part rounded to 2^128 or
    more becomes inf, which is not followed. *)
Definition exp32 : Z -> Z := FLT_exp (-149) 24.
Definition rnd32 (x : R) : R := round radix2 exp32 ZnearestE x.
Definition part32 (x : R) : res R :=
  if Rltb (Rabs (rnd32 x)) (2 ^ 128) then Ok (rnd32 x) else Raise NonFinite.
Definition store32 (z : C) : res C :=
  do x <- part32 (Re z); do y <- part32 (Im z); Ok (x, y).

(** [dat_to_fdat], data_handler.py:1539-1581: the array [ans[k]] has the type
    [np.complex64] (1572).  [comp p m z] is what the double-precision sum gives where
    the exact sum is [z]. *)
Definition entry32 (interp : list (R * R) -> res (R -> R)) (comp : pts -> Z -> C -> C) (p : pts) (m : Z) : res C :=
  do z <- fourier_entry interp p m; store32 (comp p m z).
Definition dat_to_fdat32 (interp : list (R * R) -> res (R -> R)) (comp : pts -> Z -> C -> C) (d : dat) (M : nat) : res fdat :=
  do rows <- dmapM (fun p => mapM (entry32 interp comp p) (freqs M)) (dc_data d);
  fconstruct (fitems rows) M.
