(** An evaluation that carries out real and imaginary parts, for formulas in real
    parameters.  It stands for what sympy does with [re] and [im]. *)
From Coq Require Import String List Arith ZArith Bool Reals QArith.
From Coquelicot Require Import Complex.
From Verif Require Import PyBase RMod CBase Expr FormModel FitModel.
Import ListNotations.
Local Open Scope nat_scope.

Definition declared_real (s : sym) : bool := match sreal s with Some true => true | _ => false end.

(** Expressions that are visibly real; of the elements of [xs] sympy does not know it. *)
Fixpoint visibly_real (e : code) : bool :=
  match e with
  | KNum z => Reqb (Im z) 0
  | KSym s => declared_real s
  | KVar _ => false
  | KAdd l | KMul l => forallb visibly_real l
  | KPow e _ | KCos e | KSin e => visibly_real e
  | KConj _ | KRe _ | KIm _ => false
  end.

(** Real and imaginary part. *)
Definition part_mul (p q : code * code) : code * code :=
  (KAdd [KMul [fst p; fst q]; KMul [KNum (RtoC (-1)); snd p; snd q]], KAdd [KMul [fst p; snd q]; KMul [snd p; fst q]]).
Definition part_one : code * code := (KNum (RtoC 1), KNum (RtoC 0)).
Fixpoint parts (e : code) : option (code * code) :=
  match e with
  | KNum z => Some (KNum (RtoC (Re z)), KNum (RtoC (Im z)))
  | KSym s => if declared_real s then Some (KSym s, KNum (RtoC 0)) else None
  | KVar _ => None
  | KAdd l => option_map (fun ps => (KAdd (map fst ps), KAdd (map snd ps))) (all_some (map parts l))
  | KMul l => option_map (fold_right part_mul part_one) (all_some (map parts l))
  | KPow e n => option_map (fun p => Nat.iter n (part_mul p) part_one) (parts e)
  | KCos e => if visibly_real e then Some (KCos e, KNum (RtoC 0)) else None
  | KSin e => if visibly_real e then Some (KSin e, KNum (RtoC 0)) else None
  | KConj e => option_map (fun p => (fst p, KMul [KNum (RtoC (-1)); snd p])) (parts e)
  | KRe e => option_map (fun p => (fst p, KNum (RtoC 0))) (parts e)
  | KIm e => option_map (fun p => (snd p, KNum (RtoC 0))) (parts e)
  end.
Definition take_parts (e : code) : code :=
  match e with
  | KRe x => match parts x with Some p => fst p | None => e end
  | KIm x => match parts x with Some p => snd p | None => e end
  | _ => e
  end.

(** Formulas made of numbers, real parameters, sums, products, powers, conjugates,
    and cosines and sines of real expressions of this kind. *)
Fixpoint real_expr (e : expr) : bool :=
  match e with
  | ENum _ b => Qeq_bool b 0
  | ESym s => declared_real s
  | EAdd l | EMul l => forallb real_expr l
  | EPow e _ | ECos e | ESin e => real_expr e
  | _ => false
  end.
Fixpoint real_coefficients (e : expr) : bool :=
  match e with
  | ENum _ _ => true
  | ESym s => declared_real s
  | EAdd l | EMul l => forallb real_coefficients l
  | EPow e _ | EConj e => real_coefficients e
  | ECos e | ESin e => real_expr e
  | ERe e | EIm e => real_coefficients e
  end.
Definition real_formula (F : fform) : Prop :=
  forall k r e, In (k, r) (ff_rows F) -> In e (r_cells r) -> real_coefficients e = true.
