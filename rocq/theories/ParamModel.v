(** Model of [map_to_real] of shgpy/core/utilities.py. *)
From Verif Require Import Expr.

(** utilities.py 364-366 ([map_to_real]): [sp.symbols(str(sym), real=True)],
    for a name that is one word *)
Definition map_to_real (s : sym) : sym := mksym (sname s) (Some true).
