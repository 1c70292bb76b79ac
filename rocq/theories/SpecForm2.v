(** What the lookup-table transform makes of a trigonometric polynomial. *)
From Coq Require Import String List Arith QArith.
From Verif Require Import PyBase Expr FormModel SpecForm.
Import ListNotations.
Local Open Scope nat_scope.

(** cos(phi) and sin(phi) *)
Definition bare (e : expr) : Prop := e = ECos (ESym phi) \/ e = ESin (ESym phi).

(** A product of the arguments of an expression: for a product the expression
    itself, for a power base times exponent, for a symbol or a number 1. *)
Definition product_of_args (a : expr) : expr := EMul (args a).

(** [reading e (Some e')]: the transform of [e] gives the Fourier coefficients of
    [e']; [reading e None]: it fails. *)
Inductive reading : expr -> option expr -> Prop :=
| rd_free e : ~ In phi (syms e) -> reading e (Some e)
| rd_sum l : In phi (syms (EAdd l)) ->
    (forall a, In a l -> exists c s, monomial (args a) c s /\ c + s <= 8) ->
    reading (EAdd l) (Some (EAdd (map product_of_args l)))
| rd_sum_fails l : In phi (syms (EAdd l)) ->
    (forall a, In a l -> bare a \/ exists c s, monomial (args a) c s) ->
    (exists a, In a l /\ (bare a \/ exists c s, monomial (args a) c s /\ 8 < c + s)) ->
    reading (EAdd l) None
| rd_product fs c s : monomial fs c s -> 2 <= c + s <= 8 -> reading (EMul fs) (Some (EMul fs))
| rd_linear fs f fs' : bare f -> (forall a, In a (fs ++ fs') -> ~ In phi (syms a)) ->
    reading (EMul (fs ++ f :: fs')) (Some (EMul (fs ++ fs')))
| rd_product_fails fs c s : monomial fs c s -> 8 < c + s -> reading (EMul fs) None
| rd_power b n : bare b -> n <= 8 -> reading (EPow b n) (Some (EPow b n))
| rd_power_fails b n : bare b -> 8 < n -> reading (EPow b n) None
| rd_bare e : bare e -> reading e (Some (num 1%Q)).

(** Trigonometric polynomials as sympy keeps them after [expand]: exponents are at
    least 2 and no product is empty. *)
Definition proper (fs : list expr) : Prop := forall b n, In (EPow b n) fs -> 2 <= n.
Inductive trig_term : expr -> Prop :=
| tt_free e : ~ In phi (syms e) -> trig_term e
| tt_bare e : bare e -> trig_term e
| tt_power b n : bare b -> trig_term (EPow b n)
| tt_product fs c s : monomial fs c s -> proper fs -> trig_term (EMul fs).
Inductive trig_polynomial : expr -> Prop :=
| tp_term e : trig_term e -> trig_polynomial e
| tp_sum l : (forall a, In a l -> trig_term a) -> trig_polynomial (EAdd l).
