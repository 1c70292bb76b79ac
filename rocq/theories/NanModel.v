(** The values of a [DataContainer] as the numbers of IEEE 754 in double precision,
    with nan, infinities and signed zeros: parts of shgpy/core/data_handler.py that
    DataModel.v follows with real numbers, where the cases in which the program goes on
    with inf or nan are reported as [NonFinite].  A nan enters with the data: python
    reads the text "nan" in a file as a number (read_csv, data_handler.py:1420-1423).
    Angles are real numbers here and are not touched.  All nans are alike; numpy's
    warnings are not represented.  Definitions only. *)
From Coq Require Import Reals ZArith List String Bool.
From Flocq Require Import Core IEEE754.BinarySingleNaN.
From Verif Require Import PyBase.
Import ListNotations.

Notation b64 := (binary_float 53 1024) (only parsing).
#[global] Instance prec53 : Prec_gt_0 53 := eq_refl.
#[global] Instance emax1024 : Prec_lt_emax 53 1024 := eq_refl.
Definition mult (x y : b64) : b64 := Bmult mode_NE x y.
Definition minus (x y : b64) : b64 := Bminus mode_NE x y.
Definition divide (x y : b64) : b64 := Bdiv mode_NE x y.
Definition zero : b64 := B754_zero false.
Definition inf (negative : bool) : b64 := B754_infinity negative.

(** Data with the scale and the offset recorded *)
Record ndat := mkndat { nd_data : list (string * list (R * b64)); nd_scale : b64; nd_offset : b64 }.
Definition map_y (f : b64 -> b64) (d : list (string * list (R * b64))) : list (string * list (R * b64)) :=
  map (fun kv => (fst kv, map (fun ay => (fst ay, f (snd ay))) (snd kv))) d.

(** python's [max] and [min]: the first value, replaced by a later one that is
    greater (smaller) *)
Definition pymax (l : list b64) : res b64 :=
  match l with [] => Raise ValueError | x :: l' => Ok (fold_left (fun m y => if Bltb m y then y else m) l' x) end.
Definition pymin (l : list b64) : res b64 :=
  match l with [] => Raise ValueError | x :: l' => Ok (fold_left (fun m y => if Bltb y m then y else m) l' x) end.

(** [get_maxval], data_handler.py:185-191; [get_minval], 217-223 *)
Fixpoint max_loop (d : list (string * list (R * b64))) (pc : option string) (best : b64) : res (option string * b64) :=
  match d with
  | [] => Ok (pc, best)
  | (k, v) :: d' => do m <- pymax (map snd v); if Bltb best m then max_loop d' (Some k) m else max_loop d' pc best
  end.
Fixpoint min_loop (d : list (string * list (R * b64))) (pc : option string) (best : b64) : res (option string * b64) :=
  match d with
  | [] => Ok (pc, best)
  | (k, v) :: d' => do m <- pymin (map snd v); if Bltb m best then min_loop d' (Some k) m else min_loop d' pc best
  end.
Definition get_maxval (d : ndat) : res (option string * b64) := max_loop (nd_data d) None (inf true).
Definition get_minval (d : ndat) : res (option string * b64) := min_loop (nd_data d) None (inf false).

(** [scale_data], data_handler.py:161-166 *)
Definition scale_data (d : ndat) (f : b64) : ndat * res unit :=
  if Bltb f zero then (d, Raise ValueError)
  else (mkndat (map_y (fun y => mult f y) (nd_data d)) (mult (nd_scale d) f) (nd_offset d), Ok tt).

(** [subtract_min], data_handler.py:168-173 *)
Definition subtract_min (d : ndat) : ndat * res unit :=
  match get_minval d with
  | Raise e => (d, Raise e)
  | Ok (_, m) => (mkndat (map_y (fun y => minus y m) (nd_data d)) (nd_scale d) (minus (nd_offset d) m), Ok tt)
  end.

(** [normalize_data], data_handler.py:243-246.  The maximum is a numpy number, or the
    infinity the search starts from: dividing by it never raises. *)
Definition normalize_data (d : ndat) (desired : b64) : ndat * res unit :=
  match get_maxval d with
  | Raise e => (d, Raise e)
  | Ok (_, m) => scale_data d (divide desired m)
  end.
