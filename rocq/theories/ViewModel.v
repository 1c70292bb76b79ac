(** Model of the tabular views of formulas (data_handler.py 787-836, 996-1038).
    Definitions only.  A pandas frame is the list of its rows, as in MiscModel. *)
From Coq Require Import String List ZArith Bool.
From Verif Require Import PyBase Expr DataModel FDataModel FormModel MiscModel.
Import ListNotations.
Local Open Scope string_scope.

(** fFormContainer.as_pandas, data_handler.py:790-836 ([__repr__], 787-788, prints
    the default one).  Rows are ((polarization, n), expression).  An unknown
    [index] leaves [df] unbound. *)
Definition ff_as_pandas (F : fform) (index : string) : res (list (string * Z * expr)) :=
  let M := ff_M F in
  if String.eqb index "multi" then
    do cols <- mapM (ff_get_pc F) (ff_get_keys F);
    do raw <- np_stack cols;
    frame (from_product (ff_get_keys F) (freqs M)) raw
  else if String.eqb index "none" then
    do blocks <- mapM (fun k => do v <- ff_get_pc F k;
                                do rows <- frame (freqs M) v;
                                Ok (map (fun q => (k, fst q, snd q)) rows)) (ff_get_keys F);
    Ok (concat blocks)
  else Raise UnboundLocalError.

(** FormContainer.as_pandas, data_handler.py:999-1038 ([__repr__], 996-997). *)
Definition form_as_pandas (f : form) (index : string) : res (list (string * expr)) :=
  if String.eqb index "multi" then
    do raw <- mapM (form_get_pc f) (dkeys f);
    frame (dkeys f) raw
  else if String.eqb index "none" then
    do blocks <- mapM (fun k => do e <- form_get_pc f k; Ok [(k, e)]) (dkeys f);
    Ok (concat blocks)
  else Raise UnboundLocalError.

(** FormContainer.simplify and expand, data_handler.py:986-994: [ex] is
    sp.simplify or sp.expand. *)
Definition form_rewrite (ex : expr -> expr) (f : form) : form := dmap ex f.
