(** Vocabulary for substitutions carried out one after the other, as by
    [expr.subs([(s1, a1), (s2, a2), ...])]. *)
From Coq Require Import String List Reals.
Import ListNotations.
From Coquelicot Require Import Complex.
From Verif Require Import PyBase CBase Expr FormModel SpecForm SpecFormgen FformgenModel.
From Verif Require Import SpecTensor TensorModel.
Local Open Scope nat_scope.

(** The values the symbols take once the substitutions have been made: later
    substitutions act on what earlier ones have put in. *)
Fixpoint after_subs (sa : list (sym * expr)) (rho : sym -> C) : sym -> C :=
  match sa with
  | [] => rho
  | (s, a) :: sa => let r := after_subs sa rho in fun u => if sym_eqb u s then eval r a else r u
  end.

(** A substitution that keeps what was declared: what is put in consists of
    parameters declared real, is real wherever a real parameter is replaced, and
    the azimuth is left alone. *)
Definition declared_subs (sa : list (sym * expr)) : Prop := forall s a, In (s, a) sa ->
  s <> phi /\ ~ In phi (syms a) /\ (forall u, In u (syms a) -> sreal u = Some true) /\
  (sreal s = Some true -> forall rho, respects rho -> Im (eval rho a) = 0%R).

(** The same substitution in every entry of a tensor *)
Definition entries_subs (sub : expr -> expr) (t : tensor expr) : tensor expr := mkT (shape t) (fun i => sub (at_ t i)).

(** The formula saved for the tensors and read back *)
Definition saved_for (ev expand : expr -> expr) (srepr : expr -> string) (parse : string -> res expr) (prefix : string)
    (fs : list (string * list (list (tensor expr)))) (d q : tensor expr) (F : fform) : Prop :=
  exists file, generate_contracted_fourier_transforms ev expand srepr prefix fs d q 16 None = Ok file /\ load_fform parse file = Ok F.
