(** Specification for C61: value semantics.  Every array the caller holds and
    every container is an independent value; nothing is shared. *)
From Coq Require Import String List Bool.
From Verif Require Import PyBase HeapModel.
Import ListNotations.

Section Values.
  Context {A Op : Type}.
  Variable mk : list (string * A) -> res (dict string A).
  Variable method : Op -> dict string A -> dict string A.
  Variable deg : A -> A.

  Record values := mkvalues { mine : list A; theirs : list (dict string A) }.

  Definition get_theirs (s : values) (c : nat) : res (dict string A) :=
    match nth_error (theirs s) c with Some d => Ok d | None => Raise IndexError end.
  Fixpoint vmerged (s : values) (cs : list nat) (i : nat) (mapping : string -> nat -> string) : res (list (string * A)) :=
    match cs with
    | [] => Ok []
    | c :: cs' =>
        do d <- get_theirs s c;
        do rest <- vmerged s cs' (S i) mapping;
        Ok (map (fun kv => (mapping (fst kv) i, snd kv)) d ++ rest)
    end.
  Definition give (s : values) (l : list A) := mkvalues (mine s ++ l) (theirs s).
  Definition add (s : values) (d : dict string A) := mkvalues (mine s) (theirs s ++ [d]).
  Definition value_step (s : values) (a : act A Op) : values :=
    match a with
    | ANew _ _ x => give s [x]
    | AWrite _ _ i x => mkvalues (set_nth (mine s) i x) (theirs s)
    | AConstruct _ _ items =>
        match mapM (fun kl => match nth_error (mine s) (snd kl) with Some x => Ok (fst kl, x) | None => Raise IndexError end) items with
        | Ok it => match mk it with Ok d => add s d | Raise _ => s end
        | Raise _ => s
        end
    | AMethod _ _ c o =>
        match get_theirs s c with Ok d => mkvalues (mine s) (set_nth (theirs s) c (method o d)) | Raise _ => s end
    | AMerge _ _ cs mapping =>
        match vmerged s cs 0 mapping with
        | Ok it => match mk it with Ok d => add s d | Raise _ => s end
        | Raise _ => s
        end
    | AGetPc _ _ c k =>
        match get_theirs s c with
        | Ok d => match dget k d with Some x => give s [x] | None => s end
        | Raise _ => s
        end
    | AValuesDeg _ _ c => match get_theirs s c with Ok d => give s (map deg (dvals d)) | Raise _ => s end
    | AValuesRad _ _ c => match get_theirs s c with Ok d => give s (dvals d) | Raise _ => s end
    | AFilter _ _ c o =>
        match get_theirs s c with Ok d => mkvalues (mine s ++ dvals d) (set_nth (theirs s) c (method o d)) | Raise _ => s end
    | AFilterRaise _ _ _ _ _ => s     (* a failing call changes nothing *)
    end.
  Definition value_run (s : values) (l : list (act A Op)) : values := fold_left value_step l s.

  (** Calls that do not hand out internal arrays. *)
  Definition safe (a : act A Op) : bool :=
    match a with AValuesRad _ _ _ | AFilterRaise _ _ _ _ _ => false | _ => true end.
End Values.
Arguments values : clear implicits.
