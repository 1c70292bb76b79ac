(** Model of numpy array identity for the data containers: which arrays a call
    copies and which it hands out (data_handler.py 48-66, 88-160, 265-396, 442-447,
    522-606, 1341-1399).  Definitions only.

    An array lives at a location of the heap; containers are dictionaries from
    keys to locations; the caller holds some locations and can write to them.
    The contents of arrays and what constructors and methods compute are
    parameters: only who shares what with whom is modelled here.  Simplification:
    every constructor allocates one array per key (true for DataContainer; deepcopy in
    fDataContainer keeps one array for two keys that were given the same array). *)
From Coq Require Import String List ZArith Bool Arith.
From Verif Require Import PyBase.
Import ListNotations.

Section Heap.
  (** contents of an array *)
  Variable A : Type.
  (** what a constructor computes from the items it is given *)
  Variable mk : list (string * A) -> res (dict string A).
  (** named methods that replace every array of a container *)
  Variable Op : Type.
  Variable method : Op -> dict string A -> dict string A.
  (** conversion of an array to degrees *)
  Variable deg : A -> A.

  Record world := mkworld {
    heap : list A;
    known : list nat;                         (* arrays the caller holds *)
    conts : list (dict string nat)            (* the containers *)
  }.
  Definition empty_world := mkworld [] [] [].

  (** Allocate one fresh array per entry. *)
  Fixpoint alloc (base : nat) (d : dict string A) : dict string nat :=
    match d with [] => [] | (k, _) :: d' => (k, base) :: alloc (S base) d' end.
  Definition read (h : list A) (d : dict string nat) : res (dict string A) :=
    mapM (fun kl => match nth_error h (snd kl) with
                    | Some a => Ok (fst kl, a)
                    | None => Raise IndexError
                    end) d.
  Fixpoint set_nth {B} (l : list B) (i : nat) (b : B) : list B :=
    match l, i with
    | [], _ => []
    | _ :: l', O => b :: l'
    | x :: l', S i' => x :: set_nth l' i' b
    end.

  (** What a program can do.  Caller arrays are named by their position in
      [known], containers by their position in [conts]. *)
  Inductive act :=
  | ANew (a : A)                                     (* np.array(...) *)
  | AWrite (i : nat) (a : A)                         (* known[i][...] = a *)
  | AConstruct (items : list (string * nat))         (* DataContainer(...), fDataContainer(...) *)
  | AMethod (c : nat) (o : Op)                       (* scale_data, phase_shift_fdata, ... *)
  | AMerge (cs : list nat) (mapping : string -> nat -> string)
  | AGetPc (c : nat) (k : string)                    (* get_pc: np.copy *)
  | AValuesDeg (c : nat)                             (* get_values/get_items('degrees') *)
  | AValuesRad (c : nat)                             (* get_values/get_items('radians'), fDataContainer.get_values *)
  | AFilter (c : nat) (o : Op)                       (* filter(f): f receives a view of every array *)
  | AFilterRaise (c : nat) (k : string) (a : A).     (* f writes to the view of key k, then raises *)

  (** Create a container holding fresh arrays with contents [d]. *)
  Definition add_container (w : world) (d : dict string A) : world :=
    mkworld (heap w ++ dvals d) (known w) (conts w ++ [alloc (length (heap w)) d]).
  (** Hand fresh arrays to the caller. *)
  Definition give_fresh (w : world) (l : list A) : world :=
    mkworld (heap w ++ l) (known w ++ seq (length (heap w)) (length l)) (conts w).
  Definition replace_container (w : world) (c : nat) (d : dict string A) : world :=
    mkworld (heap w ++ dvals d) (known w) (set_nth (conts w) c (alloc (length (heap w)) d)).

  Definition deref (w : world) (c : nat) : res (dict string A) :=
    match nth_error (conts w) c with Some d => read (heap w) d | None => Raise IndexError end.

  (** merge_containers copies every array (np.copy) before constructing. *)
  Fixpoint merged (w : world) (cs : list nat) (i : nat) (mapping : string -> nat -> string)
    : res (list (string * A)) :=
    match cs with
    | [] => Ok []
    | c :: cs' =>
        do d <- deref w c;
        do rest <- merged w cs' (S i) mapping;
        Ok (map (fun kv => (mapping (fst kv) i, snd kv)) d ++ rest)
    end.

  (** One step; a failing call leaves the world unchanged. *)
  Definition act_step (w : world) (a : act) : world :=
    match a with
    | ANew x => give_fresh w [x]
    | AWrite i x =>
        match nth_error (known w) i with
        | Some l => mkworld (set_nth (heap w) l x) (known w) (conts w)
        | None => w
        end
    | AConstruct items =>
        match mapM (fun kl => match nth_error (known w) (snd kl) with
                              | Some l => match nth_error (heap w) l with
                                          | Some x => Ok (fst kl, x)
                                          | None => Raise IndexError
                                          end
                              | None => Raise IndexError
                              end) items with
        | Ok it => match mk it with Ok d => add_container w d | Raise _ => w end
        | Raise _ => w
        end
    | AMethod c o =>
        match deref w c with Ok d => replace_container w c (method o d) | Raise _ => w end
    | AMerge cs mapping =>
        match merged w cs 0 mapping with
        | Ok it => match mk it with Ok d => add_container w d | Raise _ => w end
        | Raise _ => w
        end
    | AGetPc c k =>
        match deref w c with
        | Ok d => match dget k d with Some x => give_fresh w [x] | None => w end
        | Raise _ => w
        end
    | AValuesDeg c =>
        match deref w c with Ok d => give_fresh w (map deg (dvals d)) | Raise _ => w end
    | AValuesRad c =>
        match nth_error (conts w) c with
        | Some d => mkworld (heap w) (known w ++ dvals d) (conts w)
        | None => w
        end
    | AFilter c o =>
        (* the user function may keep the views; the arrays are then replaced *)
        match nth_error (conts w) c, deref w c with
        | Some ls, Ok d =>
            let w' := mkworld (heap w) (known w ++ dvals ls) (conts w) in
            replace_container w' c (method o d)
        | _, _ => w
        end
    | AFilterRaise c k x =>
        match nth_error (conts w) c with
        | Some ls => match dget k ls with
                     | Some l => mkworld (set_nth (heap w) l x) (known w) (conts w)
                     | None => w
                     end
        | None => w
        end
    end.
  Definition act_run (w : world) (l : list act) : world := fold_left act_step l w.

  (** What get_pc shows. *)
  Definition observe (w : world) (c : nat) (k : string) : res A :=
    do d <- deref w c; dgetr k d.
End Heap.
