(** Symbolic expressions: the part of sympy's expression trees that shgpy builds.

    Sympy rearranges sums and products when it builds them; the model keeps a
    tree and gives it a value, and statements about results are statements about
    values unless the code inspects the tree itself. *)
From Coq Require Import String List Bool QArith Qreals Reals.
Import ListNotations.
From Coquelicot Require Import Complex.
From Verif Require Import PyBase CBase.

(** [sympy.Symbol(name)] or [sympy.Symbol(name, real=True/False)]: symbols with
    different assumptions are different symbols.  [is_real] is [None], [True] or
    [False] in sympy. *)
Record sym := mksym { sname : string; sreal : option bool }.

Definition optb_eqb (a b : option bool) : bool :=
  match a, b with
  | None, None => true
  | Some x, Some y => Bool.eqb x y
  | _, _ => false
  end.

Definition sym_eqb (a b : sym) : bool := String.eqb (sname a) (sname b) && optb_eqb (sreal a) (sreal b).

Lemma sym_eqb_spec a b : reflect (a = b) (sym_eqb a b).
Proof.
  destruct a as [n r], b as [n' r']; unfold sym_eqb; simpl.
  destruct (String.eqb_spec n n') as [->|N]; simpl.
  - destruct r as [[|]|], r' as [[|]|]; simpl; constructor; congruence.
  - constructor; congruence.
Qed.

#[global] Instance Eqb_sym : Eqb sym := {| eqb := sym_eqb; eqb_spec := sym_eqb_spec |}.

Inductive expr :=
| ENum (re im : Q)            (* numbers; floats are rational *)
| ESym (s : sym)
| EAdd (l : list expr)
| EMul (l : list expr)
| EPow (b : expr) (n : nat)   (* non-negative integer powers *)
| ECos (e : expr)
| ESin (e : expr)
| EConj (e : expr)
| ERe (e : expr)
| EIm (e : expr).

Section ExprInd.
  Variable P : expr -> Prop.
  Hypothesis HNum : forall a b, P (ENum a b).
  Hypothesis HSym : forall s, P (ESym s).
  Hypothesis HAdd : forall l, Forall P l -> P (EAdd l).
  Hypothesis HMul : forall l, Forall P l -> P (EMul l).
  Hypothesis HPow : forall b n, P b -> P (EPow b n).
  Hypothesis HCos : forall e, P e -> P (ECos e).
  Hypothesis HSin : forall e, P e -> P (ESin e).
  Hypothesis HConj : forall e, P e -> P (EConj e).
  Hypothesis HRe : forall e, P e -> P (ERe e).
  Hypothesis HIm : forall e, P e -> P (EIm e).
  Fixpoint expr_ind' (e : expr) : P e :=
    let go := fix go (l : list expr) : Forall P l :=
      match l with [] => Forall_nil _ | x :: l' => Forall_cons _ (expr_ind' x) (go l') end in
    match e with
    | ENum a b => HNum a b
    | ESym s => HSym s
    | EAdd l => HAdd l (go l)
    | EMul l => HMul l (go l)
    | EPow b n => HPow b n (expr_ind' b)
    | ECos e => HCos e (expr_ind' e)
    | ESin e => HSin e (expr_ind' e)
    | EConj e => HConj e (expr_ind' e)
    | ERe e => HRe e (expr_ind' e)
    | EIm e => HIm e (expr_ind' e)
    end.
End ExprInd.

(** Structural equality ([==] on expressions). *)
Fixpoint expr_eqb (a b : expr) : bool :=
  let go := fix go (l l' : list expr) : bool :=
    match l, l' with
    | [], [] => true
    | x :: l, y :: l' => expr_eqb x y && go l l'
    | _, _ => false
    end in
  match a, b with
  | ENum p q, ENum p' q' => Qeq_bool p p' && Qeq_bool q q'
  | ESym s, ESym s' => sym_eqb s s'
  | EAdd l, EAdd l' => go l l'
  | EMul l, EMul l' => go l l'
  | EPow x n, EPow x' n' => expr_eqb x x' && Nat.eqb n n'
  | ECos x, ECos x' => expr_eqb x x'
  | ESin x, ESin x' => expr_eqb x x'
  | EConj x, EConj x' => expr_eqb x x'
  | ERe x, ERe x' => expr_eqb x x'
  | EIm x, EIm x' => expr_eqb x x'
  | _, _ => false
  end.

(** Complex cosine and sine. *)
Definition Ccos (z : C) : C := ((cos (fst z) * cosh (snd z))%R, (- (sin (fst z) * sinh (snd z)))%R).
Definition Csin (z : C) : C := ((sin (fst z) * cosh (snd z))%R, (cos (fst z) * sinh (snd z))%R).

Notation env := (sym -> C) (only parsing).

Definition cprod (l : list C) : C := fold_right Cmult (RtoC 1) l.

(** Value of an expression under an assignment of its symbols. *)
Fixpoint eval (rho : env) (e : expr) : C :=
  match e with
  | ENum a b => (Q2R a, Q2R b)
  | ESym s => rho s
  | EAdd l => fold_right Cplus (RtoC 0) (map (eval rho) l)
  | EMul l => fold_right Cmult (RtoC 1) (map (eval rho) l)
  | EPow b n => Cpow (eval rho b) n
  | ECos e => Ccos (eval rho e)
  | ESin e => Csin (eval rho e)
  | EConj e => Cconj (eval rho e)
  | ERe e => RtoC (Re (eval rho e))
  | EIm e => RtoC (Im (eval rho e))
  end.

(** Assignments that respect [real=True]. *)
Definition respects (rho : env) : Prop := forall s, sreal s = Some true -> Im (rho s) = 0%R.

(** [expr.free_symbols], each occurrence listed once. *)
Fixpoint syms (e : expr) : list sym :=
  match e with
  | ENum _ _ => []
  | ESym s => [s]
  | EAdd l => flat_map syms l
  | EMul l => flat_map syms l
  | EPow b _ => syms b
  | ECos e | ESin e | EConj e | ERe e | EIm e => syms e
  end.

Definition sym_eq_dec (a b : sym) : {a = b} + {a <> b}.
Proof. decide equality; [decide equality; apply bool_dec|apply string_dec]. Defined.

Definition free_symbols (e : expr) : list sym := nodup sym_eq_dec (syms e).

(** [expr.subs(x, r)] *)
Fixpoint subst (x : sym) (r : expr) (e : expr) : expr :=
  match e with
  | ENum a b => ENum a b
  | ESym s => if sym_eqb s x then r else ESym s
  | EAdd l => EAdd (map (subst x r) l)
  | EMul l => EMul (map (subst x r) l)
  | EPow b n => EPow (subst x r b) n
  | ECos e => ECos (subst x r e)
  | ESin e => ESin (subst x r e)
  | EConj e => EConj (subst x r e)
  | ERe e => ERe (subst x r e)
  | EIm e => EIm (subst x r e)
  end.

(** [expr.subs({x: r, ...})]: one replacement after the other *)
Definition subs_dict (d : list (sym * expr)) (e : expr) : expr :=
  fold_left (fun e xr => subst (fst xr) (snd xr) e) d e.

Definition num (q : Q) : expr := ENum q 0.
Definition EI : expr := ENum 0 1.
Definition esub (a b : expr) : expr := EAdd [a; EMul [num (-1); b]].
