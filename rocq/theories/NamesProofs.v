(** Proofs for property C34: names that [sympy.symbols] reads as two. *)
From Coq Require Import String Ascii List Arith Bool ZArith.
Import ListNotations.
From Verif Require Import PyBase Expr ExprProofs TensorModel UtilModel SpecTensor SpecUtil SpecNames TensorProofs UtilProofs.
Local Open Scope nat_scope.

Lemma comma_in a b : In ","%char (list_ascii_of_string (a ++ "," ++ b)%string).
Proof. induction a as [|c a IH]; [left; reflexivity|right; exact IH]. Qed.
Lemma two_names_not_one text : two_names text -> one_name text = false.
Proof.
  intros (a & b & _ & _ & ->). destruct (one_name (a ++ "," ++ b)%string) eqn:E; [|reflexivity].
  apply one_name_ordinary in E as [_ P]. destruct (P _ (comma_in a b)) as [N _]. congruence.
Qed.
Lemma names_fail texts t i s n : fits (shape t) i -> In s (syms (at_ t i)) -> sreal s = None ->
  In n (texts (sname s)) -> one_name n = false -> names_ok texts t = false.
Proof.
  intros F I N J O. destruct (names_ok texts t) eqn:E; [|reflexivity]. unfold names_ok in E.
  rewrite forallb_forall in E. specialize (E s). rewrite N in E.
  assert (X : In s (flat_map free_symbols (flatten t))).
  { apply in_flat_map. exists (at_ t i). split; [unfold flatten; apply in_map, in_indices, F|apply in_free_symbols, I]. }
  specialize (E X). rewrite forallb_forall in E. rewrite (E n J) in O. discriminate.
Qed.
Lemma refused order prefix suffix t i s : fits (shape t) i -> In s (syms (at_ t i)) -> sreal s = None ->
  two_names (fst prefix ++ sname s ++ fst suffix)%string \/ two_names (snd prefix ++ sname s ++ snd suffix)%string ->
  exists e, make_tensor_complex order prefix suffix t = Raise e.
Proof.
  intros F I N W. exists TypeError. unfold make_tensor_complex.
  destruct W as [W|W]; apply two_names_not_one in W;
    (rewrite (names_fail _ t i s _ F I N) with (2 := W); [reflexivity|]); [left|right; left]; reflexivity.
Qed.
