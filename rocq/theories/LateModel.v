(** Model of models loaded for several processes (shgpy/fformfit.py 280-327 and
    474-487, [multiprocessing=True], with dlopen below them, see LibModel and
    LibModel2).  Definitions only.

    The folder is searched when the model is loaded; the files are opened, one after
    the other, every time the model function is called, by the paths found then.  These
    are not made absolute.  Simplifications as in LibModel and LibModel2. *)
From Coq Require Import String List Bool ZArith Reals.
From Coquelicot Require Import Complex.
Import ListNotations.
From Verif Require Import PyBase Expr FDataModel FormModel FitModel DiskModel LibModel LibModel2.
Local Open Scope string_scope.

(** Path(dir) / name, as a string *)
Definition below (dir name : string) : string := if String.eqb dir "." then name else file_path dir name.
(** The absolute name of the folder *)
Definition located (cwd dir : string) : string := if String.eqb dir "." then cwd else absolute cwd dir.

Section Late.
Variable kev : code -> code.
Variable order : list (string * list code) -> list (string * list code).
Variable cwd : string.

(** fformfit.py 321-326: the paths that functions are made of *)
Definition found_names (dir k : string) (m : Z) (imag : bool) (p : shelf) : list string :=
  map fst (filter (fun nl => glob_so (stem k m imag) (fst nl)) (listing order (located cwd dir) p)).
(** fformfit.py 312-327; nothing is opened *)
Definition load_late (F : fform) (dir : string) (p : shelf) : list (string * list (Z * (list string * list string))) :=
  map (fun k => (k, map (fun m => (m, (found_names dir k m false p, found_names dir k m true p))) (freqs (ff_M F)))) (ff_get_keys F).

(** fformfit.py 476-479: ctypes.PyDLL of the path *)
Definition open_late (dir name : string) (p : shelf) : shelf * res (list code) :=
  match dget (below dir name) (handles p) with
  | Some lib => (p, Ok lib)
  | None =>
      if has_slash (below dir name) then
        match dget (located cwd dir) (folders p) with
        | Some fs => match dget name fs with
                     | Some lib => (mkshelf (folders p) (dset (below dir name) lib (handles p)), Ok lib)
                     | None => (p, Raise OSError)
                     end
        | None => (p, Raise OSError)
        end
      else (p, Raise OSError)
  end.
Fixpoint open_all (dir : string) (ns : list string) (p : shelf) : shelf * res (list (list code)) :=
  match ns with
  | [] => (p, Ok [])
  | n :: ns' => match open_late dir n p with
                | (p1, Raise e) => (p1, Raise e)
                | (p1, Ok lib) => let (p2, r) := open_all dir ns' p1 in (p2, do libs <- r; Ok (lib :: libs))
                end
  end.
(** fformfit.py 299-309 ([model_func(xs, pc, m)]) *)
Definition late_value (fd : list (string * list (Z * (list string * list string)))) (dir : string) (xs : list R) (pc : string) (m : Z) (p : shelf) : shelf * res (option C) :=
  match (do row <- dgetr pc fd; dgetr m row) with
  | Raise e => (p, Raise e)
  | Ok ri =>
      match open_all dir (fst ri) p with
      | (p1, Raise e) => (p1, Raise e)
      | (p1, Ok rs) =>
          match open_all dir (snd ri) p1 with
          | (p2, Raise e) => (p2, Raise e)
          | (p2, Ok is) => (p2, Ok (match sum_calls rs xs, sum_calls is xs with Some a, Some b => Some (a, b) | _, _ => None end))
          end
      end
  end.

(** What happens in a session; models are kept with the folder they were loaded from *)
Inductive deed :=
| Do (a : act)
| CallModel (fd : list (string * list (Z * (list string * list string)))) (dir : string) (xs : list R) (pc : string) (m : Z).
Definition does (p : shelf) (e : deed) : shelf :=
  match e with
  | Do a => acts kev order p a
  | CallModel fd dir xs pc m => fst (late_value fd dir xs pc m p)
  end.
Definition deeds (p : shelf) (h : list deed) : shelf := fold_left does h p.
End Late.
