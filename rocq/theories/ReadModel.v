(** Reading the data files: shgpy/core/data_handler.py, read_csv.

    A file is given by what csv.reader yields: its rows, each a list of fields.
    [float_of] is Python's [float(text)], [None] where it raises ValueError; only
    finite values are considered ("nan" and "inf" are left out). *)
From Coq Require Import String List ZArith Reals.
From Verif Require Import PyBase DataModel.
Import ListNotations.

Section ReadCsv.
  Variable float_of : string -> option R.

  Definition to_float (s : string) : res R :=
    match float_of s with Some x => Ok x | None => Raise ValueError end.

  (** read_csv, data_handler.py:1417-1423; a row that is too short raises
      IndexError *)
  Fixpoint csv_loop (rows : list (list string)) (xdata ydata : list R) : res (list R * list R) :=
    match rows with
    | [] => Ok (xdata, ydata)
    | row :: rows' =>
        do s <- py_nth row 0;
        do x <- to_float s;
        do t <- py_nth row 1;
        do y <- to_float t;
        csv_loop rows' (xdata ++ [x]) (ydata ++ [y])
    end.

  (** The array [[xdata, ydata]] that read_csv returns (line 1424), column by
      column as in [FDataModel.read_all]. *)
  Definition read_csv (rows : list (list string)) : res (list (R * R)) :=
    do c <- csv_loop rows [] []; Ok (combine (fst c) (snd c)).

  (** read_csv of a file name; [opened] is the effect of opening it (rows, or the
      exception raised, such as FileNotFoundError). *)
  Definition csv_file (opened : string -> res (list (list string))) (name : string) : res (list (R * R)) :=
    do rows <- opened name; read_csv rows.
End ReadCsv.
