(** Formulas whose cost can be compiled. *)
From Coq Require Import List.
From Verif Require Import PyBase Expr FormModel FitModel SpecFit.
Import ListNotations.

(** No real or imaginary part is left in the expression. *)
Fixpoint whole (e : expr) : Prop :=
  match e with
  | ENum _ _ | ESym _ => True
  | EAdd l | EMul l => fold_right (fun a P => whole a /\ P) True l
  | EPow e _ | ECos e | ESin e | EConj e => whole e
  | ERe _ | EIm _ => False
  end.
Definition whole_formula (F : fform) : Prop := forall k r e, In (k, r) (ff_rows F) -> In e (r_cells r) -> whole e.
(** An evaluation that does not bring in real or imaginary parts. *)
Definition brings_none (kev : code -> code) : Prop := forall e, no_parts e -> no_parts (kev e).
(** OSError and its subclass. *)
Definition os_error (e : exn) : Prop := e = OSError \/ e = FileNotFoundError.
