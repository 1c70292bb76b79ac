(** Compiling cost functions (shgpy/fformfit.py 330-453): FitModel takes every
    expression for one that can be compiled.  Here a library is refused when sympy left
    a real or imaginary part in it ([compiles]), as for model functions.
    [strict] compilers refuse a call of an undeclared function: there is no library
    to copy.  The others make a library that is copied and cannot be loaded.
    Either way the old file is removed before (373-376, 444-447).  Definitions only. *)
From Coq Require Import String List Bool.
Import ListNotations.
From Verif Require Import PyBase Expr FDataModel FormModel FitModel.

Section Compile.
Variable kev : code -> code.
Variable strict : bool.

(** fformfit.py 537-568, with 365-382 and 436-453 *)
Definition gen_cost_compiled (F : fform) (D : fdat) (free : option (list sym)) (chunk : bool) (save : option string) (fs : list (string * list code))
    : list (string * list code) * res (list code) :=
  match gen_cost_func kev F D free chunk save fs with
  | (fs', Ok lib) =>
      if forallb compiles lib then (fs', Ok lib)
      else if strict then match save with
                          | Some f => (dremove f fs, Raise FileNotFoundError)
                          | None => (fs, Raise OSError)
                          end
      else (fs', Raise OSError)
  | (fs', Raise e) => (fs', Raise e)
  end.

(** fformfit.py 489-501 *)
Definition load_compiled (name : string) (fs : list (string * list code)) : res (list code) :=
  do lib <- load_func name fs; if forallb compiles lib then Ok lib else Raise OSError.
End Compile.
