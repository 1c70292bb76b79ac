(** Property C34: prefixes and suffixes that make no single name.  Beside the
    theorem a concrete case. *)
From Coq Require Import String Ascii List Arith Bool ZArith.
Import ListNotations.
From Verif Require Import PyBase Expr ExprProofs TensorModel UtilModel SpecTensor SpecUtil SpecNames TensorProofs UtilProofs NamesProofs.
Local Open Scope nat_scope.

(** If the name of either part of some parameter, with its prefix and suffix, is
    two names separated by a comma, make_tensor_complex raises; it returns no
    tensor in which that parameter means something else. *)
Theorem C34_refused : forall order prefix suffix t i s,
  fits (shape t) i -> In s (syms (at_ t i)) -> sreal s = None ->
  two_names (fst prefix ++ sname s ++ fst suffix)%string \/ two_names (snd prefix ++ sname s ++ snd suffix)%string ->
  exists e, make_tensor_complex order prefix suffix t = Raise e.
Proof. exact refused. Qed.
Print Assumptions C34_refused.

(** A tensor with one parameter and a comma in the second prefix; with the
    comma taken away the call succeeds. *)
Definition one_entry : tensor expr := mkT [1] (fun _ => ESym (mksym "x"%string None)).
Example C34_case_refused : fits (shape one_entry) [0] /\ In (mksym "x"%string None) (syms (at_ one_entry [0])) /\
  two_names ("im,ag_" ++ "x" ++ "")%string /\
  (exists u, make_tensor_complex (fun l => l) ("real_"%string, "imag_"%string) (""%string, ""%string) one_entry = Ok u).
Proof.
  split; [repeat constructor|]. split; [left; reflexivity|]. split.
  - exists "im"%string, "ag_x"%string. split; [apply one_name_ordinary; reflexivity|]. split; [apply one_name_ordinary; reflexivity|reflexivity].
  - eexists. reflexivity.
Qed.
