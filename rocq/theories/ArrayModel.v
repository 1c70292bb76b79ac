(** Numpy arrays handed to compiled functions (shgpy/fformfit.py).  Definitions only.

    FitModel gives the compiled code a list of numbers.  Here an array is what numpy
    has: a buffer of 64-bit words, the type the words are read as, where the first element
    lies, the distance from one element to the next, and the number of elements.  The
    code gets a pointer to the first element and reads doubles one after the other.
    Simplifications: one axis; elements of 8 bytes; a pointer into another object is not
    represented: reading beyond the buffer, and reading a nan or an infinity, is [None]. *)
From Coq Require Import String List ZArith Bool Reals.
From Coquelicot Require Import Complex.
From Flocq Require Import Core IEEE754.Binary IEEE754.Bits.
Import ListNotations.
From Verif Require Import PyBase FitModel.

Inductive dtype := Float64 | Int64.
Record array := mkarray { buffer : list Z; kind : dtype; start : nat; stride : Z; count : nat }.

(** A word as a double, if finite, and as an integer *)
Definition double (w : Z) : option R := if is_finite 53 1024 (b64_of_bits w) then Some (B2R 53 1024 (b64_of_bits w)) else None.
Definition signed (w : Z) : Z := if (w <? 2 ^ 63)%Z then w else (w - 2 ^ 64)%Z.
(** The word of element [i] *)
Definition word (a : array) (i : nat) : Z := nth (Z.to_nat (Z.of_nat (start a) + Z.of_nat i * stride a)) (buffer a) 0%Z.

(** [x.ctypes.data_as(ctypes.POINTER(ctypes.c_double))]: what the code finds behind the pointer *)
Fixpoint doubles (ws : list Z) : list R :=
  match ws with
  | [] => []
  | w :: ws' => match double w with Some r => r :: doubles ws' | None => [] end
  end.
Definition pointed (a : array) : list R := doubles (skipn (start a) (buffer a)).
(** fformfit.py 498-500, 482-484 ([cost_func(x)]) *)
Definition cost_func (lib : list code) (a : array) : option R := call lib (pointed a).

(** [xs.astype(float)]: a new array; integers are rounded to nearest *)
Definition prec_pos : Prec_gt_0 53 := eq_refl.
Definition prec_lt : BinarySingleNaN.Prec_lt_emax 53 1024 := eq_refl.
Definition to_float (k : dtype) (w : Z) : Z :=
  match k with
  | Float64 => w
  | Int64 => bits_of_b64 (binary_normalize 53 1024 prec_pos prec_lt BinarySingleNaN.mode_NE (signed w) 0 false)
  end.
Definition astype_float (a : array) : array :=
  mkarray (map (fun i => to_float (kind a) (word a i)) (seq 0 (count a))) Float64 0 1 (count a).
(** fformfit.py 267-276, 299-308 ([model_func(xs, pc, m)]) *)
Definition model_func (fd : list (string * list (Z * (list (list code) * list (list code))))) (a : array) (pc : string) (m : Z) : res (option C) :=
  model_value fd (pointed (astype_float a)) pc m.
