(** gen_model_func as it acts on the disk, step by step (fformfit.py 153-277). *)
From Coq Require Import String List ZArith.
From Verif Require Import PyBase Expr FormModel FitModel.
Import ListNotations.
Local Open Scope nat_scope.

(** A disk: folders by name, each a dictionary of library files.  Simplified:
    the parent of the folder exists. *)
Notation disk := (list (string * list (string * list code))) (only parsing).

Section Disk.
Variable kev : code -> code.

(** fformfit.py 224-225 (shutil.copy), one file after the other *)
Definition put (fs ws : list (string * list code)) : list (string * list code) :=
  fold_left (fun d kv => dset (fst kv) (snd kv) d) ws fs.

(** The chunks before the first that does not compile. *)
Fixpoint compiled (cs : list code) : list code :=
  match cs with
  | [] => []
  | c :: cs' => if compiles c then c :: compiled cs' else []
  end.
(** fformfit.py 176-230, the innermost loops: one component of one frequency.  Of
    a source that does not compile nothing is copied; with a compiler that accepts
    calls of undeclared functions a library that cannot be loaded is. *)
Definition entry_step (F : fform) (num_per : Z) (k : string) (m : Z) (imag : bool) (fs : list (string * list code))
    : list (string * list code) * res (list code) :=
  match model_chunks kev F num_per k m imag with
  | Raise e => (fs, Raise e)
  | Ok cs => (put fs (entry_files k m imag (compiled cs)), if forallb compiles cs then Ok cs else Raise OSError)
  end.

(** fformfit.py 174-175: the frequencies of one polarization *)
Fixpoint row_step (F : fform) (num_per : Z) (k : string) (ms : list Z) (fs : list (string * list code))
    : list (string * list code) * res (list (Z * (list code * list code))) :=
  match ms with
  | [] => (fs, Ok [])
  | m :: ms' =>
      match entry_step F num_per k m false fs with
      | (fs1, Raise e) => (fs1, Raise e)
      | (fs1, Ok r) =>
          match entry_step F num_per k m true fs1 with
          | (fs2, Raise e) => (fs2, Raise e)
          | (fs2, Ok i) => let (fs3, l) := row_step F num_per k ms' fs2 in (fs3, do l <- l; Ok ((m, (r, i)) :: l))
          end
      end
  end.

(** fformfit.py 172-173: the polarizations *)
Fixpoint rows_step (F : fform) (num_per : Z) (ks : list string) (fs : list (string * list code))
    : list (string * list code) * res (list (string * list (Z * (list code * list code)))) :=
  match ks with
  | [] => (fs, Ok [])
  | k :: ks' =>
      match row_step F num_per k (freqs (ff_M F)) fs with
      | (fs1, Raise e) => (fs1, Raise e)
      | (fs1, Ok r) => let (fs2, l) := rows_step F num_per ks' fs1 in (fs2, do l <- l; Ok ((k, r) :: l))
      end
  end.

(** fformfit.py 164-167: an existing folder is removed with all it holds, then
    made again; without a folder nothing is saved (line 224) *)
Definition gen_model_disk (F : fform) (num_per : Z) (folder : option string) (d : disk)
    : disk * res (list (string * list (Z * (list (list code) * list (list code))))) :=
  let (fs, r) := rows_step F num_per (ff_get_keys F) [] in
  (match folder with Some p => dset p fs d | None => d end, do rows <- r; Ok (model_funcs rows)).
End Disk.
