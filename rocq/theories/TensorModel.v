(** Model of the array helpers of shgpy/core/utilities.py: products, traces,
    contractions and transformations of tensors of any rank.

    A numpy array is a shape together with a function from index tuples to
    entries; only the values on index tuples inside the shape matter.  Entries
    live in any type with the four operations of [Sig]: the same code runs on
    numbers and on symbolic expressions. *)
From Coq Require Import List Arith Bool Lia.
Import ListNotations.
From Verif Require Import PyBase.

Class Sig (A : Type) := { zero : A; one : A; add : A -> A -> A; mul : A -> A -> A }.

Record tensor (A : Type) := mkT { shape : list nat; at_ : list nat -> A }.
Arguments mkT {A} _ _.
Arguments shape {A} _.
Arguments at_ {A} _ _.

Definition rank {A} (t : tensor A) : nat := length (shape t).

(** All index tuples of a shape, in row-major order
    (the order of [itertools.product] over the ranges). *)
Fixpoint indices (sh : list nat) : list (list nat) :=
  match sh with
  | [] => [[]]
  | d :: sh' => flat_map (fun i => map (cons i) (indices sh')) (seq 0 d)
  end.

(** [arr.flatten()] *)
Definition flatten {A} (t : tensor A) : list A := map (at_ t) (indices (shape t)).

(** [np.array([f(x) for x in t.flatten()]).reshape(t.shape)] *)
Definition tmap {A B} (f : A -> B) (t : tensor A) : tensor B :=
  mkT (shape t) (fun i => f (at_ t i)).

(** Insert [v] so that it ends up at position [p]; delete position [p]. *)
Definition ins {A} (p : nat) (v : A) (l : list A) : list A := firstn p l ++ v :: skipn p l.
Definition del {A} (p : nat) (l : list A) : list A := firstn p l ++ skipn (S p) l.

(** [list.index], [list.remove]; [None] stands for ValueError. *)
Fixpoint index_of (x : nat) (l : list nat) : option nat :=
  match l with
  | [] => None
  | y :: l' => if x =? y then Some 0 else option_map S (index_of x l')
  end.

Definition list_index (x : nat) (l : list nat) : res nat :=
  match index_of x l with Some p => Ok p | None => Raise ValueError end.

Definition list_remove (x : nat) (l : list nat) : res (list nat) :=
  match index_of x l with Some p => Ok (del p l) | None => Raise ValueError end.

Section Ops.
  Context {A : Type} `{Sig A}.

  Definition sumv (l : list A) : A := fold_right add zero l.

  (** [np.trace(t, axis1=p, axis2=q)]: the sum of the diagonal, whose length is
      the smaller of the two dimensions; equal or missing axes are refused. *)
  Definition trace (t : tensor A) (p q : nat) : res (tensor A) :=
    if (p <? rank t) && (q <? rank t) && negb (p =? q) then
      let lo := min p q in
      let hi := max p q in
      Ok (mkT (del lo (del hi (shape t)))
              (fun o => sumv (map (fun v => at_ t (ins hi v (ins lo v o)))
                                  (seq 0 (min (nth p (shape t) 0) (nth q (shape t) 0))))))
    else Raise ValueError.

  (** [np.tensordot(t1, t2, axes=0)] *)
  Definition outer (t1 t2 : tensor A) : tensor A :=
    mkT (shape t1 ++ shape t2)
        (fun i => mul (at_ t1 (firstn (rank t1) i)) (at_ t2 (skipn (rank t1) i))).

  (** utilities.py 302-307 ([tensor_product]): with one argument the recursion
      reaches [tensors[0]] of an empty tuple. *)
  Fixpoint tensor_product (ts : list (tensor A)) : res (tensor A) :=
    match ts with
    | [] => Raise IndexError
    | t1 :: rest =>
        match rest with
        | [t2] => Ok (outer t1 t2)
        | _ => do r <- tensor_product rest; Ok (outer t1 r)
        end
    end.

  (** utilities.py 319-328, the loop of [tensor_contract]: [idx] is
      [index_idx], the original axis numbers still present. *)
  Fixpoint contract_loop (ans : tensor A) (idx : list nat) (pairs : list (list nat)) : res (tensor A) :=
    match pairs with
    | [] => Ok ans
    | pr :: pairs' =>
        do new <- mapM (fun x => list_index x idx) pr;
        match new with
        | p :: q :: _ =>
            do ans' <- trace ans p q;
            do idx' <- fold_left (fun acc x => do l <- acc; list_remove x l) pr (Ok idx);
            contract_loop ans' idx' pairs'
        | _ => Raise IndexError
        end
    end.

  (** utilities.py 310-328 ([tensor_contract]) *)
  Definition tensor_contract (t : tensor A) (pairs : list (list nat)) : res (tensor A) :=
    contract_loop t (seq 0 (rank t)) pairs.

  (** utilities.py 331-347 ([transform]) *)
  Definition transform (t operation : tensor A) : res (tensor A) :=
    let r := rank t in
    do p <- tensor_product (repeat operation r ++ [t]);
    tensor_contract p (map (fun i => [2 * i + 1; 2 * r + i]) (seq 0 r)).
End Ops.
