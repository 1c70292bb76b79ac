(** Vocabulary for sessions that save and load functions. *)
From Coq Require Import String List Bool Reals.
Import ListNotations.
From Verif Require Import PyBase LibModel.

(** The event opens a library under this string. *)
Definition opens (cwd : string) (e : event) (s : string) : Prop :=
  match e with Open b => handed cwd b = s | CallLater b _ => text b = s | _ => False end.
(** A name the loader takes for the name of a file. *)
Definition names_file (a : path) : Prop := match a with PPath _ => True | PStr s => has_slash s = true end.
Definition new_process (fs : list (string * list FitModel.code)) : process := mkproc fs [].
