(** A text form of expressions that can be read back: sympy's [srepr] and the
    evaluation of its output are assumed to be such a pair (C50, C59, C87); this
    file shows that the assumption can be met. *)
From stdpp Require Import countable strings.
From Coq Require Import Ascii QArith.
From Verif Require Import PyBase Expr.

#[local] Instance Q_eq_dec : EqDecision Q.
Proof. intros [a b] [c d]. destruct (decide (a = c)), (decide (b = d)); subst; [left; reflexivity|right; congruence..]. Defined.
#[local] Instance Q_countable : Countable Q.
Proof. apply (inj_countable' (fun q => (Qnum q, Qden q)) (fun p => Qmake p.1 p.2)). intros []; reflexivity. Defined.
#[local] Instance sym_eq_dec : EqDecision sym.
Proof. intros a b. destruct (sym_eqb_spec a b); [left|right]; assumption. Defined.
#[local] Instance sym_countable : Countable sym.
Proof. apply (inj_countable' (fun s => (sname s, sreal s)) (fun p => mksym p.1 p.2)). intros []; reflexivity. Defined.

Fixpoint tree (e : expr) : gen_tree (Q * Q + sym) :=
  match e with
  | ENum a b => GenLeaf (inl (a, b))
  | ESym s => GenLeaf (inr s)
  | EAdd l => GenNode 0 (map tree l)
  | EMul l => GenNode 1 (map tree l)
  | ECos e => GenNode 2 [tree e]
  | ESin e => GenNode 3 [tree e]
  | EConj e => GenNode 4 [tree e]
  | ERe e => GenNode 5 [tree e]
  | EIm e => GenNode 6 [tree e]
  | EPow e n => GenNode (7 + n) [tree e]
  end.
Fixpoint untree (t : gen_tree (Q * Q + sym)) : expr :=
  match t with
  | GenLeaf (inl p) => ENum p.1 p.2
  | GenLeaf (inr s) => ESym s
  | GenNode 0 l => EAdd (map untree l)
  | GenNode 1 l => EMul (map untree l)
  | GenNode 2 (t :: _) => ECos (untree t)
  | GenNode 3 (t :: _) => ESin (untree t)
  | GenNode 4 (t :: _) => EConj (untree t)
  | GenNode 5 (t :: _) => ERe (untree t)
  | GenNode 6 (t :: _) => EIm (untree t)
  | GenNode (S (S (S (S (S (S (S n))))))) (t :: _) => EPow (untree t) n
  | _ => EAdd []
  end.
Lemma untree_tree e : untree (tree e) = e.
Proof.
  induction e as [a b|y|l IH|l IH|b n IH|e IH|e IH|e IH|e IH|e IH] using expr_ind'; simpl; f_equal; auto.
  - induction IH; simpl; f_equal; auto.
  - induction IH; simpl; f_equal; auto.
Qed.
#[local] Instance expr_eq_dec : EqDecision expr.
Proof.
  intros a b. destruct (decide (tree a = tree b)) as [E|N].
  - left. rewrite <- (untree_tree a), <- (untree_tree b), E. reflexivity.
  - right. intros ->. apply N. reflexivity.
Defined.
#[local] Instance expr_countable : Countable expr := inj_countable' tree untree untree_tree.

Fixpoint bits (p : positive) : string :=
  match p with xH => EmptyString | xO p => String "0"%char (bits p) | xI p => String "1"%char (bits p) end.
Fixpoint unbits (s : string) : positive :=
  match s with EmptyString => xH | String "0"%char s => xO (unbits s) | String _ s => xI (unbits s) end.
Lemma unbits_bits p : unbits (bits p) = p.
Proof. induction p; simpl; congruence. Qed.

Definition show (e : expr) : string := bits (encode e).
Definition read (s : string) : res expr := match decode (unbits s) with Some e => Ok e | None => Raise ValueError end.
Lemma read_show e : read (show e) = Ok e.
Proof. unfold read, show. rewrite unbits_bits, decode_encode. reflexivity. Qed.
