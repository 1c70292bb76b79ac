(** Vocabulary for the bookkeeping of containers, options and key names. *)
From Coq Require Import String Ascii List Reals.
Import ListNotations.
From Verif Require Import PyBase DataModel FDataModel.
Local Open Scope R_scope.

(** The angle of a call in radians, if its units are known. *)
Definition asked (a : R) (u : string) : R :=
  if String.eqb (lower u) "radians" then a else if String.eqb (lower u) "degrees" then a * PI / 180 else 0.

(** The sum of the shifts asked for. *)
Definition shifts (h : list op) : R :=
  fold_right (fun o s => match o with OPhase a u => asked a u + s | _ => s end) 0 h.
Definition fshifts (h : list fop) : R :=
  fold_right (fun o s => match o with FPhase a _ u => asked a u + s | _ => s end) 0 h.

(** The number inside a phase, whatever it is wrapped in. *)
Fixpoint number_in (p : pyphase) : R := match p with PNum x => x | PTup q => number_in q | PArr _ x => x end.

(** P or S, in either case *)
Definition letter (c : ascii) (p : ascii) : Prop :=
  (p = "P"%char /\ (c = "P"%char \/ c = "p"%char)) \/ (p = "S"%char /\ (c = "S"%char \/ c = "s"%char)).
(** A key that begins with the two letters of a polarization combination *)
Definition spells (k pc : string) : Prop :=
  exists a b rest p q, k = String a (String b rest) /\ letter a p /\ letter b q /\ pc = String p (String q EmptyString).
