(** Model of the tabular views (data_handler.py 325-371, 471-520) and of the
    plotting helpers (shgpy/plotter.py).  Definitions only.

    A pandas frame is the list of its rows; a figure is the grid of its axes with
    the curves drawn on each.  Cosmetic calls (labels, legends, saving, showing) are
    not modelled. *)
From Coq Require Import String List ZArith Reals Bool.
From Coquelicot Require Import Complex.
From Verif Require Import PyBase RMod DataModel CBase FDataModel.
Import ListNotations.
Local Open Scope string_scope.
Open Scope R_scope.

(** pd.MultiIndex.from_product((a1, a2)) *)
Definition from_product {A B} (a : list A) (b : list B) : list (A * B) :=
  flat_map (fun x => map (fun y => (x, y)) b) a.

(** np.array of a list of one-dimensional arrays, flattened: refused if ragged. *)
Definition np_stack {A} (rows : list (list A)) : res (list A) :=
  match rows with
  | [] => Ok []
  | r :: rest => if forallb (fun s => Nat.eqb (length s) (length r)) rest then Ok (concat rows) else Raise ValueError
  end.

(** pd.DataFrame(values, index=index): lengths must agree. *)
Definition frame {I A} (index : list I) (values : list A) : res (list (I * A)) :=
  if Nat.eqb (length index) (length values) then Ok (combine index values) else Raise ValueError.

(** DataContainer.as_pandas, data_handler.py:325-371.  Rows are
    ((polarization, angle), value).  An unknown [index] leaves [df] unbound. *)
Definition as_pandas (d : dat) (u index : string) : res (list (string * R * R)) :=
  let a1 := get_keys d in
  do vs <- get_values d u;
  do v0 <- py_nth vs 0;
  let a2 := map fst v0 in
  if String.eqb index "multi" then
    do cols <- mapM (fun k => do p <- get_pc d k u; Ok (map snd p)) (get_keys d);
    do raw <- np_stack cols;
    frame (from_product a1 a2) raw
  else if String.eqb index "none" then
    do blocks <- mapM (fun k => do p <- get_pc d k u; Ok (map (fun q => (k, fst q, snd q)) p)) (get_keys d);
    Ok (concat blocks)
  else Raise UnboundLocalError.

(** fDataContainer.as_pandas, data_handler.py:471-520 *)
Definition fas_pandas (f : fdat) (index : string) : res (list (string * Z * C)) :=
  let M := fget_M f in
  if String.eqb index "multi" then
    do cols <- mapM (fget_pc f) (fget_keys f);
    do raw <- np_stack cols;
    frame (from_product (fget_keys f) (freqs M)) raw
  else if String.eqb index "none" then
    do blocks <- mapM (fun k => do v <- fget_pc f k;
                                do rows <- frame (freqs M) v;
                                Ok (map (fun q => (k, fst q, snd q)) rows)) (fget_keys f);
    Ok (concat blocks)
  else Raise UnboundLocalError.

(** One axis: its title and the curves drawn on it with their parameters. *)
Definition axis (P : Type) := (string * list (list (R * R) * P))%type.
Record figure (P : Type) := mkfig { rows : nat; cols : nat; axes : list (option (axis P)) }.
Arguments mkfig {P}. Arguments rows {P}. Arguments cols {P}. Arguments axes {P}.

(** The loop common to both routines: [for dat, kwparams in zip(dats, params)] *)
Definition draw {P} (dats : list dat) (params : list P) (pc : string) : res (axis P) :=
  do curves <- mapM (fun dp => do p <- get_pc (fst dp) pc "radians"; Ok (p, snd dp)) (combine dats params);
  Ok (pc, curves).
(** [zip(pcs, axs.flatten())] on a grid with [slots] axes *)
Definition draw_all {P} (dats : list dat) (params : list P) (pcs : list string) (slots : nat)
  : res (list (option (axis P))) :=
  do done <- mapM (draw dats params) (firstn slots pcs);
  Ok (map Some done ++ repeat None (slots - length done))%list.

(** easy_plot, plotter.py:5-56.  [n-1] may be -1. *)
Definition easy_plot {P} (dats : list dat) (params : list P) (pcs : list string) : res (figure P) :=
  let n := Z.of_nat (length pcs) in
  if (4 <? n)%Z then Raise ValueError
  else
    do nrows <- py_nth [1; 1; 1; 2]%nat (n - 1);
    do ncols <- py_nth [1; 2; 3; 2]%nat (n - 1);
    do ax <- draw_all dats params pcs (nrows * ncols);
    Ok (mkfig nrows ncols ax).

(** easy_polar_plot, plotter.py:59-106.  plt.subplots(1, 0) is refused;
    plt.subplots(1, 1) returns a bare axis, which has no [flatten]; the radial
    ticks take [max] over the data sets. *)
Definition easy_polar_plot {P} (dats : list dat) (params : list P) (pcs : list string) : res (figure P) :=
  match pcs with
  | [] => Raise ValueError
  | [_] => Raise AttributeError
  | _ =>
      do ax <- draw_all dats params pcs (length pcs);
      do ms <- mapM get_maxval dats;
      do _ <- match ms with [] => Raise ValueError | _ => Ok tt end;
      do _ <- (if forallb (fun m => match m with None => false | Some _ => true end) ms then Ok tt else Raise NonFinite);
      Ok (mkfig 1 (length pcs) ax)
  end.
