(** Vocabulary for formulas rounded to a number of decimal digits. *)
From Coq Require Import List ZArith QArith Qabs Reals.
From Coquelicot Require Import Complex.
From Verif Require Import Expr.
Import ListNotations.

(** Numbers with at most [nd] digits after the decimal point. *)
Definition short (nd : nat) (q : Q) : Prop := exists z : Z, (q * inject_Z (10 ^ Z.of_nat nd) == inject_Z z)%Q.

(** Every number written in the expression is short. *)
Inductive short_numbers (nd : nat) : expr -> Prop :=
| sn_num a b : short nd a -> short nd b -> short_numbers nd (ENum a b)
| sn_sym s : short_numbers nd (ESym s)
| sn_add l : (forall e, In e l -> short_numbers nd e) -> short_numbers nd (EAdd l)
| sn_mul l : (forall e, In e l -> short_numbers nd e) -> short_numbers nd (EMul l)
| sn_pow b n : short_numbers nd b -> short_numbers nd (EPow b n)
| sn_cos e : short_numbers nd e -> short_numbers nd (ECos e)
| sn_sin e : short_numbers nd e -> short_numbers nd (ESin e)
| sn_conj e : short_numbers nd e -> short_numbers nd (EConj e)
| sn_re e : short_numbers nd e -> short_numbers nd (ERe e)
| sn_im e : short_numbers nd e -> short_numbers nd (EIm e).

(** A number times a product. *)
Definition weighted (t : (Q * Q) * list expr) : expr := EMul (ENum (fst (fst t)) (snd (fst t)) :: snd t).

(** Expanded form: a sum of numbers times products of other factors. *)
Definition expanded_as (nd : nat) (e : expr) (ts : list ((Q * Q) * list expr)) : Prop :=
  e = EAdd (map weighted ts) /\ forall c fs f, In (c, fs) ts -> In f fs -> short_numbers nd f.

(** The sum of the absolute values of the products. *)
Definition spread (rho : sym -> C) (ts : list ((Q * Q) * list expr)) : R :=
  fold_right Rplus 0%R (map (fun t => Cmod (eval rho (EMul (snd t)))) ts).

(** Half a unit in the last digit kept. *)
Definition half_unit (nd : nat) : R := (/ 2 * / 10 ^ nd)%R.

(** [r] is the multiple of the last unit nearest to [q], the even one of two. *)
Definition nearest_even (nd : nat) (q r : Q) : Prop :=
  exists z : Z, (r * inject_Z (10 ^ Z.of_nat nd) == inject_Z z)%Q /\
    (Qabs.Qabs (inject_Z z - q * inject_Z (10 ^ Z.of_nat nd)) <= 1 # 2)%Q /\
    (Qabs.Qabs (inject_Z z - q * inject_Z (10 ^ Z.of_nat nd)) == 1 # 2 -> Z.Even z)%Q.

(** The same tree with other numbers. *)
Inductive renumbered (R : Q -> Q -> Prop) : expr -> expr -> Prop :=
| rn_num a b a' b' : R a a' -> R b b' -> renumbered R (ENum a b) (ENum a' b')
| rn_sym s : renumbered R (ESym s) (ESym s)
| rn_add l l' : Forall2 (renumbered R) l l' -> renumbered R (EAdd l) (EAdd l')
| rn_mul l l' : Forall2 (renumbered R) l l' -> renumbered R (EMul l) (EMul l')
| rn_pow b b' n : renumbered R b b' -> renumbered R (EPow b n) (EPow b' n)
| rn_cos e e' : renumbered R e e' -> renumbered R (ECos e) (ECos e')
| rn_sin e e' : renumbered R e e' -> renumbered R (ESin e) (ESin e')
| rn_conj e e' : renumbered R e e' -> renumbered R (EConj e) (EConj e')
| rn_re e e' : renumbered R e e' -> renumbered R (ERe e) (ERe e')
| rn_im e e' : renumbered R e e' -> renumbered R (EIm e) (EIm e').
