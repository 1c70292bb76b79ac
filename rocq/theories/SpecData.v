(** Specification vocabulary for phi-space data.  Uses the shape of inputs
    (DataModel.pyval), plain lists, and histories of public calls, none of the
    internal helpers. *)
From Coq Require Import String List ZArith Reals Sorted Permutation.
From Verif Require Import PyBase DataModel.
Import ListNotations.
Open Scope R_scope.

(** Two angles (radians) denoting the same direction. *)
Definition same_angle (x y : R) : Prop := exists k : Z, x = y + IZR k * (2 * PI).

Definition in_turn (x : R) : Prop := 0 <= x < 2 * PI.

(** The same measurements with every angle turned by a and brought back into
    the turn, in some order. *)
Definition turned (a : R) (p p' : list (R * R)) : Prop :=
  exists q, Permutation p' q /\
    Forall2 (fun x y => in_turn (fst y) /\ same_angle (fst y) (fst x + a) /\ snd y = snd x) p q.

(** Normal form of the data of one polarization. *)
Definition normal_form (p : list (R * R)) : Prop :=
  p <> [] /\ Forall in_turn (map fst p) /\ StronglySorted Rle (map fst p).

(** No direction occurs twice. *)
Definition distinct_angles (p : list (R * R)) : Prop :=
  ForallOrdPairs (fun a b => ~ same_angle (fst a) (fst b)) p.

(** What the caller supplied for key [k]: the last pair with that key. *)
Definition given (it : list (pykey * pyval)) (k : string) (dt : dtype) (p : list (R * R)) : Prop :=
  exists it1 xs ys rest it2,
    it = it1 ++ (KStr k, NDArray 2 dt (xs :: ys :: rest)) :: it2 /\
    (forall v, ~ In (KStr k, v) it2) /\
    length xs = length ys /\ p = combine xs ys.

(** Keys in order of first occurrence. *)
Fixpoint first_occ {K} `{Eqb K} (l : list K) : list K :=
  match l with
  | [] => []
  | k :: l' => k :: filter (fun k' => negb (eqb k k')) (first_occ l')
  end.

(** A polarization array as a caller writes it, and an input made of such. *)
Definition arr (dt : dtype) (p : list (R * R)) : pyval := NDArray 2 dt [map fst p; map snd p].
Definition input (dt : dtype) (l : list (string * list (R * R))) : list (pykey * pyval) :=
  map (fun kv => (KStr (fst kv), arr dt (snd kv))) l.

(** The largest (smallest) value of a non-empty set of measurements. *)
Definition is_max (P : R -> Prop) (m : R) : Prop := P m /\ forall y, P y -> y <= m.
Definition is_min (P : R -> Prop) (m : R) : Prop := P m /\ forall y, P y -> m <= y.
Definition value_of (d : list (string * list (R * R))) (y : R) : Prop :=
  exists k p x, In (k, p) d /\ In (x, y) p.
Definition value_in (p : list (R * R)) (y : R) : Prop := exists x, In (x, y) p.

(** Whenever an angle of the input repeats an earlier direction, that direction
    was already given by an angle inside the first turn.  True for data inside
    one turn, for data from 0 to 2*pi inclusive, and for data without repeats. *)
Definition repeats_reduced (l : list (R * R)) : Prop :=
  forall l1 q l2, l = l1 ++ q :: l2 ->
    (exists p, In p l1 /\ same_angle (fst p) (fst q)) ->
    exists p, In p l1 /\ in_turn (fst p) /\ same_angle (fst p) (fst q).

(** The four polarization combinations and the partner obtained by a rotation
    of the crystal by 90 degrees at normal incidence. *)
Definition four_keys : list string := ["PP"; "PS"; "SP"; "SS"]%string.
Definition partner (k : string) : string :=
  if String.eqb k "PP" then "SS" else if String.eqb k "SS" then "PP"
  else if String.eqb k "PS" then "SP" else if String.eqb k "SP" then "PS" else k.

(** Upper-cased first two letters. *)
Definition prefix2 (k : string) : string := substring 0 2 (upper k).

(** Angles of the input expressed in radians. *)
Definition in_radians (u : string) (p : list (R * R)) : list (R * R) :=
  map (fun q => ((if String.eqb u "degrees" then fst q * (PI / 180) else fst q), snd q)) p.

(** Products of lists of factors. *)
Fixpoint product (l : list R) : R := match l with [] => 1 | x :: l' => x * product l' end.

(** Every key a string, every effective value a numeric 2-d array with points. *)
Definition well_formed (it : list (pykey * pyval)) : Prop :=
  forall pk, In pk (map fst it) -> exists k dt p, pk = KStr k /\ dt <> DObject /\ given it k dt p /\ p <> [].

(** [first_max d k m]: [m] is the largest value, attained in [k], and in no
    polarization before [k]. *)
Definition first_max (d : list (string * list (R * R))) (k : string) (m : R) : Prop :=
  (forall k' p y, In (k', p) d -> value_in p y -> y <= m) /\
  exists d1 p d2, d = d1 ++ (k, p) :: d2 /\ value_in p m /\
    forall k' p', In (k', p') d1 -> ~ value_in p' m.
Definition first_min (d : list (string * list (R * R))) (k : string) (m : R) : Prop :=
  (forall k' p y, In (k', p) d -> value_in p y -> m <= y) /\
  exists d1 p d2, d = d1 ++ (k, p) :: d2 /\ value_in p m /\
    forall k' p', In (k', p') d1 -> ~ value_in p' m.


(** The same measurements with the angles written in radians. *)
Definition val_rad (v : pyval) : pyval :=
  match v with
  | NDArray nd DObject rows => v
  | NDArray nd _ (xs :: rows) => NDArray nd DFloat (map (fun x => x * (PI / 180)) xs :: rows)
  | _ => v
  end.
Definition it_rad (it : list (pykey * pyval)) : list (pykey * pyval) :=
  map (fun kv => (fst kv, val_rad (snd kv))) it.


(** The keys the caller wrote. *)
Definition input_keys (it : list (pykey * pyval)) : list string := map key_str (map fst it).


(** Histories that leave all numbers finite. *)
Fixpoint finite_run (d : dat) (h : list op) : Prop :=
  match h with
  | [] => True
  | o :: h' => snd (step d o) <> Raise NonFinite /\ finite_run (fst (step d o)) h'
  end.

Definition is_scaling (o : op) : Prop := match o with OScale _ | ONormalize _ => True | _ => False end.
Definition is_scaling_or_sub (o : op) : Prop :=
  match o with OScale _ | ONormalize _ | OSubtractMin => True | _ => False end.


Definition keys_oblique (ks : list string) : Prop := forall x, In x (map prefix2 ks) <-> In x four_keys.
Definition keys_normal (ks : list string) : Prop :=
  exists a b, (a = "PP"%string \/ a = "SS"%string) /\ (b = "PS"%string \/ b = "SP"%string) /\
    forall x, In x (map prefix2 ks) <-> x = a \/ x = b.


(** [d] is any container obtained by construction and later calls. *)
Definition reachable (d : dat) : Prop :=
  exists it u n2o d0 h, construct it u n2o = Ok d0 /\ d = run d0 h.

(** Two containers alike in everything but the unit they were given in. *)
Definition same_container (d d' : dat) : Prop :=
  dc_data d = dc_data d' /\ dc_scale d = dc_scale d' /\ dc_phase d = dc_phase d' /\
  dc_offset d = dc_offset d' /\ dc_coerced d = dc_coerced d'.
