(** Model of loading saved models in a running process (shgpy/fformfit.py 280-327,
    with dlopen below it, see LibModel).  Definitions only.

    The paths come from glob and are Path objects, so _load_func makes them absolute
    (490-491): they always contain a slash.  [order] is the order in which a folder is
    listed.  Simplifications as in LibModel, and: [multiprocessing=False]; folders are
    given by their absolute names; the libraries opened while a model is generated
    (227-229) lie in temporary folders whose names do not occur again. *)
From Coq Require Import String List Bool ZArith.
Import ListNotations.
From Verif Require Import PyBase Expr FDataModel FormModel FitModel DiskModel.
Local Open Scope string_scope.

(** Folders on the disk, and libraries by the path they were opened with *)
Record shelf := mkshelf { folders : list (string * list (string * list code)); handles : list (string * list code) }.
Definition file_path (folder name : string) : string := folder ++ "/" ++ name.

(** ctypes.PyDLL of a file that exists *)
Definition open_file (folder : string) (nl : string * list code) (p : shelf) : shelf * list code :=
  match dget (file_path folder (fst nl)) (handles p) with
  | Some lib => (p, lib)
  | None => (mkshelf (folders p) (dset (file_path folder (fst nl)) (snd nl) (handles p)), snd nl)
  end.
(** A loop that changes the process *)
Fixpoint each {A B} (f : A -> shelf -> shelf * B) (l : list A) (p : shelf) : shelf * list B :=
  match l with
  | [] => (p, [])
  | a :: l' => let (p1, b) := f a p in let (p2, bs) := each f l' p1 in (p2, b :: bs)
  end.

Section Shelf.
Variable kev : code -> code.
Variable order : list (string * list code) -> list (string * list code).

(** Path.glob of a folder that does not exist gives nothing *)
Definition listing (folder : string) (p : shelf) : list (string * list code) :=
  order (match dget folder (folders p) with Some fs => fs | None => [] end).

(** fformfit.py 321-326 *)
Definition load_component (folder k : string) (m : Z) (imag : bool) (p : shelf) : shelf * list (list code) :=
  each (open_file folder) (filter (fun nl => glob_so (stem k m imag) (fst nl)) (listing folder p)) p.
(** fformfit.py 312-327 *)
Definition load_model_now (F : fform) (folder : string) (p : shelf) : shelf * list (string * list (Z * (list (list code) * list (list code)))) :=
  each (fun k p => let (p', row) := each (fun m p => let (p1, r) := load_component folder k m false p in
                                                     let (p2, i) := load_component folder k m true p1 in (p2, (m, (r, i)))) (freqs (ff_M F)) p in
                   (p', (k, row))) (ff_get_keys F) p.

(** What happens in the course of a session; [Afresh]: the process ends and a new one starts *)
Inductive act := GenModel (F : fform) (num_per : Z) (folder : option string) | LoadModel (F : fform) (folder : string) | Afresh.
Definition acts (p : shelf) (a : act) : shelf :=
  match a with
  | GenModel F n folder => mkshelf (fst (gen_model_disk kev F n folder (folders p))) (handles p)
  | LoadModel F folder => fst (load_model_now F folder p)
  | Afresh => mkshelf (folders p) []
  end.
Definition course (p : shelf) (h : list act) : shelf := fold_left acts h p.
End Shelf.
