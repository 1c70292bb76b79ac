(** Specification vocabulary for formulas and Fourier formulas. *)
From Coq Require Import String List ZArith QArith Qreals Reals.
From Coquelicot Require Import Complex.
From Verif Require Import PyBase CBase DataModel FDataModel Expr FormModel.
Import ListNotations.
Local Open Scope nat_scope.

(** What is required of sympy's automatic evaluation: it keeps the value (for
    symbols whose values respect their assumptions) and introduces no symbol. *)
Definition sound_ev (ev : expr -> expr) : Prop :=
  (forall rho e, respects rho -> eval rho (ev e) = eval rho e) /\
  (forall e, incl (syms (ev e)) (syms e)).

(** Value of a python complex number. *)
Definition qval (q : Q * Q) : C := (Q2R (fst q), Q2R (snd q)).

(** An assignment of complex numbers to symbols that extends a dictionary. *)
Definition agrees (rho : sym -> C) (d : list (sym * (Q * Q))) : Prop :=
  forall s q, In (s, q) d -> rho s = qval q.

(** The assignment in which phi has the real value x. *)
Definition at_phi (rho : sym -> C) (x : R) : sym -> C := fun s => if sym_eqb s phi then RtoC x else rho s.

(** Formulas: powers of cos(phi) and sin(phi), products of such with factors
    that do not contain phi. *)
Inductive trig_factor : expr -> nat -> nat -> Prop :=
| tf_cos : trig_factor (ECos (ESym phi)) 1 0
| tf_sin : trig_factor (ESin (ESym phi)) 0 1
| tf_cosn n : trig_factor (EPow (ECos (ESym phi)) n) n 0
| tf_sinn n : trig_factor (EPow (ESin (ESym phi)) n) 0 n.

Inductive monomial : list expr -> nat -> nat -> Prop :=
| mono_nil : monomial [] 0 0
| mono_free f fs c s : ~ In phi (syms f) -> monomial fs c s -> monomial (f :: fs) c s
| mono_trig f fs c s c' s' : trig_factor f c' s' -> monomial fs c s -> monomial (f :: fs) (c' + c) (s' + s).

(** The formulas for which the lookup-table method is right: no phi at all; a sum
    each of whose summands is a product of degree at most 8; a single product, or
    a single power, of degree between 2 and 8. *)
Inductive covered : expr -> Prop :=
| cov_free e : ~ In phi (syms e) -> covered e
| cov_sum l : (forall a, In a l -> exists fs c s, a = EMul fs /\ monomial fs c s /\ c + s <= 8) -> covered (EAdd l)
| cov_mul fs c s : monomial fs c s -> 2 <= c + s <= 8 -> covered (EMul fs)
| cov_pow f c s n b : f = EPow b n -> trig_factor f c s -> 2 <= c + s <= 8 -> covered f.

(** Symbols of a container. *)
Definition ff_occurs (F : fform) (x : sym) : Prop :=
  exists k r e, In (k, r) (ff_rows F) /\ In e (r_cells r) /\ In x (syms e).
Definition form_occurs (f : list (string * expr)) (x : sym) : Prop :=
  exists k e, In (k, e) f /\ In x (syms e).

(** Any Fourier formula a program can hold. *)
Inductive ffop := FFSubs (sa : list (sym * expr)) | FFPhase (a : expr) | FFScale (s : expr).
Definition ff_step (ev : expr -> expr) (F : fform) (o : ffop) : fform :=
  match o with
  | FFSubs sa => match ff_subs ev F sa with Ok G => G | Raise _ => F end
  | FFPhase a => ff_phase_shift ev F a
  | FFScale s => ff_scale ev F s
  end.
Definition ff_reachable (ev : expr -> expr) (F : fform) : Prop :=
  exists it M F0 h, ff_construct it M = Ok F0 /\ F = fold_left (ff_step ev) h F0.

(** Every array holds sympy expressions (not only python numbers). *)
Definition symbolic (F : fform) : Prop := forall k r, In (k, r) (ff_rows F) -> r_obj r = true.

(** The synthesised value: sum of coefficient times exp(i m z), z complex. *)
Definition Cexpi (z : C) : C := Cmult (RtoC (exp (- Im z))) (cis (Re z)).
Definition fseries (M : nat) (cs : list C) (z : C) : C :=
  Csum (fun mc => Cmult (snd mc) (Cexpi (Cmult (RtoC (IZR (fst mc))) z))) (combine (freqs M) cs).

(** Sympy's printer and parser are inverse on the expressions of a container. *)
Definition inverse_printer (srepr : expr -> string) (parse : string -> res expr) (F : fform) : Prop :=
  forall k r e, In (k, r) (ff_rows F) -> In e (r_cells r) -> parse (srepr e) = Ok e.

(** The kind of a container. *)
Definition kind (c : container) : nat :=
  match c with CDat _ => 0 | CFDat _ => 1 | CForm _ => 2 | CFForm _ => 3 | COther => 4 end.

(** merge_containers: the j-th item of container number i is stored under key
    [k]; it is the last one stored there. *)
Definition stored {V} (items : container -> list (string * V)) (cs : list container)
    (mapping : string -> nat -> pykey) (i j : nat) (k : pykey) (v : V) : Prop :=
  exists c k0, nth_error cs i = Some c /\ nth_error (items c) j = Some (k0, v) /\ mapping k0 i = k.
Definition last_stored {V} (items : container -> list (string * V)) cs mapping k (v : V) : Prop :=
  exists i j, stored items cs mapping i j k v /\
    forall i' j' v', stored items cs mapping i' j' k v' -> i' < i \/ (i' = i /\ j' <= j).
(** Every mapped key is a string. *)
Definition maps_to_strings {V} (items : container -> list (string * V)) (cs : list container)
    (mapping : string -> nat -> pykey) : Prop :=
  forall i j k v, stored items cs mapping i j k v -> exists s, k = KStr s.

Definition dat_items (c : container) := match c with CDat d => dc_data d | _ => [] end.
Definition fdat_items (c : container) := match c with CFDat f => fd_data f | _ => [] end.
Definition form_items_of (c : container) := match c with CForm f => f | _ => [] end.
Definition fform_items (c : container) := match c with CFForm F => ff_rows F | _ => [] end.

(** A container with at least one polarization (anything that is not one of the
    containers counts). *)
Definition has_items (c : container) : Prop :=
  match c with CDat d => dc_data d <> [] | CFDat f => fd_data f <> [] | CForm f => f <> [] | CFForm F => ff_rows F <> [] | COther => True end.
