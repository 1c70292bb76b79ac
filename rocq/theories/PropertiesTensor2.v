(** More on C31: contraction over groups of axes that are not pairs. *)
From Coq Require Import List Arith Bool Lia.
Import ListNotations.
From Verif Require Import PyBase TensorModel SpecTensor TensorProofs3 PropertiesUtil.
Local Open Scope nat_scope.

(** A group with a missing axis, or with a repeated one, raises ValueError, a group
    of fewer than two axes IndexError; of a longer group only the first two axes are
    contracted. *)
Theorem C31_groups : forall (A : Type) (S : Sig A) (t : tensor A) g,
  (~ Forall (fun x => x < rank t) g -> tensor_contract t [g] = Raise ValueError) /\
  (Forall (fun x => x < rank t) g -> length g < 2 -> tensor_contract t [g] = Raise IndexError) /\
  (Forall (fun x => x < rank t) g -> 2 <= length g -> ~ NoDup g -> tensor_contract t [g] = Raise ValueError) /\
  (Forall (fun x => x < rank t) g -> NoDup g -> forall p q g', g = p :: q :: g' -> tensor_contract t [g] = tensor_contract t [[p; q]]).
Proof. intros A S. exact contract_group. Qed.
Print Assumptions C31_groups.

Example C31_groups_case : let t := mkT [2; 2; 2] (fun i => match i with [a; b; c] => a + 2 * b + 4 * c | _ => 0 end) in
  tensor_contract t [[0; 1; 1]] = Raise ValueError /\ tensor_contract t [[0; 3]] = Raise ValueError /\
  tensor_contract t [[1]] = Raise IndexError /\
  exists u, tensor_contract t [[0; 1; 2]] = Ok u /\ flatten u = [3; 11].
Proof. repeat split; try reflexivity. eexists. split; reflexivity. Qed.
