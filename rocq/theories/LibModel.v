(** Model of loading saved cost functions in a running process
    (shgpy/fformfit.py 467-501, with ctypes.PyDLL, that is dlopen of glibc, below it).
    Definitions only.

    FitModel.load_func reads the file.  Here the loader is in between:
    - a string that was handed to dlopen before, in the same process, gives the
      library opened then, without looking at the file (ctypes never closes);
    - a string with a slash is the name of a file, relative to the working directory;
    - a string without one is looked for among the system's libraries, not in the
      working directory, and is not found there.
    Saving removes the old file before it copies (fformfit.py 373-376, 444-447), so a
    name saved again is a new file to the loader: only the string decides.
    Simplifications: the working directory does not change; names are normalised
    (no symbolic links, no dots), so two names are the same file when their
    absolute forms are equal; the temporary names under which freshly compiled
    libraries are loaded (fformfit.py 353, 424) do not recur; names are not empty. *)
From Coq Require Import String Ascii List Bool Reals.
Import ListNotations.
From Verif Require Import PyBase Expr FDataModel FormModel FitModel.
Local Open Scope string_scope.

(** A name given as a str or as a pathlib.Path *)
Inductive path := PStr (s : string) | PPath (s : string).
Definition text (a : path) : string := match a with PStr s | PPath s => s end.

Fixpoint has_slash (s : string) : bool :=
  match s with EmptyString => false | String c s' => Ascii.eqb c "/" || has_slash s' end.
(** Path.absolute *)
Definition absolute (cwd s : string) : string :=
  match s with String "/" _ => s | _ => cwd ++ "/" ++ s end.

(** Files by absolute name; libraries by the string they were opened with. *)
Record process := mkproc { on_disk : list (string * list code); opened : list (string * list code) }.

(** ctypes.PyDLL *)
Definition dlopen (cwd s : string) (p : process) : process * res (list code) :=
  match dget s (opened p) with
  | Some lib => (p, Ok lib)
  | None =>
      if has_slash s then
        match dget (absolute cwd s) (on_disk p) with
        | Some lib => (mkproc (on_disk p) (dset s lib (opened p)), Ok lib)
        | None => (p, Raise OSError)
        end
      else (p, Raise OSError)
  end.

(** fformfit.py 489-501: the string handed on, and the library of the function
    that is returned *)
Definition handed (cwd : string) (a : path) : string := match a with PStr s => s | PPath s => absolute cwd s end.
Definition load_now (cwd : string) (a : path) (p : process) : process * res (list code) := dlopen cwd (handed cwd a) p.

(** fformfit.py 474-487 ([multiprocessing=True]): nothing is opened until the
    function is called, and then the name is taken as it was given *)
Definition call_later (cwd : string) (a : path) (xs : list R) (p : process) : process * res (option R) :=
  let (p', r) := dlopen cwd (text a) p in (p', do lib <- r; Ok (call lib xs)).

Section Lib.
Variable kev : code -> code.
Variable cwd : string.

(** fformfit.py 537-568, the file in the working directory *)
Definition generate (F : fform) (D : fdat) (free : option (list sym)) (chunk : bool) (save : option path) (p : process) : process * res (list code) :=
  let (fs, r) := gen_cost_func kev F D free chunk (option_map (fun a => absolute cwd (text a)) save) (on_disk p) in
  (mkproc fs (opened p), r).

(** What happens in the course of a session *)
Inductive event :=
| Generate (F : fform) (D : fdat) (free : option (list sym)) (chunk : bool) (save : option path)
| Open (a : path)
| CallLater (a : path) (xs : list R)
| NewProcess.
Definition happen (p : process) (e : event) : process :=
  match e with
  | Generate F D free chunk save => fst (generate F D free chunk save p)
  | Open a => fst (load_now cwd a p)
  | CallLater a xs => fst (call_later cwd a xs p)
  | NewProcess => mkproc (on_disk p) []
  end.
Definition session (p : process) (h : list event) : process := fold_left happen h p.

(** fformfit.py 632-700 with load_cost_func_filename, in a process: the file the
    fit finds under the name *)
Definition found (a : path) (p : process) : list (string * list code) :=
  match snd (load_now cwd a p) with Ok lib => [(text a, lib)] | Raise _ => [] end.
Definition fit_loaded (optimiser : objective -> list R -> option (list (R * R)) -> list (string * val) -> list (string * val) -> res (list R))
    (F : fform) (D : fdat) (guess : list (sym * R)) (a : path) (kw : list (string * val)) (p : process) : res outcome :=
  snd (least_squares_fit kev optimiser F D guess None false None (Some (text a)) kw (found a p)).
End Lib.
