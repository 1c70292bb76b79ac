(** Model of [DataContainer], shgpy/core/data_handler.py lines 18-417.
    Definitions only; proofs are in DataProofs.v.

    Simplifications: float64 is R (signed zeros, rounding, inf and nan are not
    represented); numpy warnings are dropped; unit arguments are strings;
    iterables are finite and can be read twice. *)
From Coq Require Import String Ascii List ZArith Reals Bool.
From Verif Require Import PyBase RMod.
Import ListNotations.
Local Open Scope string_scope.
Open Scope R_scope.

(** Values a caller can put in the defining iterable.  [NDArray ndim dt rows]:
    for [ndim = 2] the rows of the array; for other [ndim] the rows are not
    looked at. *)
Inductive dtype := DFloat | DInt | DObject.
Inductive pykey := KStr (s : string) | KOther (n : nat).
Inductive pyval := NDArray (ndim : nat) (dt : dtype) (rows : list (list R)) | NotArray.

Definition pykey_eqb (a b : pykey) : bool :=
  match a, b with
  | KStr s, KStr t => String.eqb s t
  | KOther n, KOther m => Nat.eqb n m
  | _, _ => false
  end.
Lemma pykey_eqb_spec a b : reflect (a = b) (pykey_eqb a b).
Proof.
  destruct a as [s|n], b as [t|m]; simpl; try (constructor; congruence).
  - destruct (String.eqb_spec s t); constructor; congruence.
  - destruct (Nat.eqb_spec n m); constructor; congruence.
Qed.
#[global] Instance Eqb_pykey : Eqb pykey := {| eqb := pykey_eqb; eqb_spec := pykey_eqb_spec |}.

(** The object state: [_data_dict] (each value array([xdata, ydata]) as a list of
    columns), [_scale], [_phase_shift], [_offset], [_input_angle_units],
    [_coerced]. *)
Record dat := mkdat {
  dc_data : dict string pts;
  dc_scale : R;
  dc_phase : R;
  dc_offset : R;
  dc_units : string;
  dc_coerced : bool
}.

Definition rad2deg (x : R) : R := x * (180 / PI).
Definition deg2rad (x : R) : R := x * (PI / 180).

(** _check_angle_units, data_handler.py:75-77 *)
Definition check_angle_units (u : string) : res unit :=
  if String.eqb u "radians" || String.eqb u "degrees" then Ok tt else Raise ValueError.

(** The two halves of _check_defining_iterable, data_handler.py:79-86.  A value
    for which the test expression raises (v[1] missing) is caught there and
    reported as ValueError too, so it counts as bad. *)
Definition good_key (k : pykey) : bool := match k with KStr _ => true | KOther _ => false end.
Definition good_val (v : pyval) : bool :=
  match v with
  | NotArray => false
  | NDArray ndim dt rows =>
      match dt with DObject => false | _ => true end &&
      Nat.eqb ndim 2 &&
      match rows with
      | r0 :: r1 :: _ => Nat.eqb (length r0) (length r1)
      | _ => false
      end
  end.
Definition check_iterable (d : dict pykey pyval) : res unit :=
  if forallb good_key (dkeys d) && forallb good_val (dvals d) then Ok tt else Raise ValueError.

(** What the later steps read of an accepted value: its dtype and the columns
    of its first two rows. *)
Definition key_str (k : pykey) : string := match k with KStr s => s | KOther _ => "" end.
Definition columns (v : pyval) : dtype * pts :=
  match v with
  | NDArray _ dt (r0 :: r1 :: _) => (dt, combine r0 r1)
  | _ => (DObject, [])
  end.
Definition raw_dict (d : dict pykey pyval) : dict string (dtype * pts) :=
  map (fun kv => (key_str (fst kv), columns (snd kv))) d.

(** Storing a float in an array of the given dtype. *)
Definition cast (dt : dtype) (x : R) : R := match dt with DInt => rtrunc x | _ => x end.

(** _convert_data_dict_to_radians, data_handler.py:137-138 (the new arrays are
    float arrays) *)
Definition to_radians (d : dict string (dtype * pts)) : dict string (dtype * pts) :=
  dmap (fun v => (DFloat, map (fun p => (deg2rad (fst p), snd p)) (snd v))) d.

(** k.upper()[:2] *)
Definition key2 (k : string) : string := substring 0 2 (upper k).

Definition subset_b (a b : list string) : bool := forallb (fun x => mem eqb x b) a.
Definition set_eqb (a b : list string) : bool := subset_b a b && subset_b b a.

Definition oblique_keys : list string := ["PP"; "PS"; "SP"; "SS"].
Definition normal_pairs : list (list string) :=
  [["PP"; "PS"]; ["PP"; "SP"]; ["SS"; "PS"]; ["SS"; "SP"]].

(** copy_pc, data_handler.py:118-121 *)
Definition copy_pc (k : string) : string :=
  match k with
  | String a (String b _) =>
      if Ascii.eqb a b then (if Ascii.eqb a "P"%char then "SS" else "PP")
      else String b (String a EmptyString)
  | _ => k
  end.

(** The element-wise rotation by 90 degrees, data_handler.py:123-124; writing
    into the array casts to its dtype. *)
Definition rot90 (v : dtype * pts) : dtype * pts :=
  (fst v, map (fun p => (cast (fst v) (mod2pi (fst p + PI / 2)), snd p)) (snd v)).

Fixpoint fill_leftover (ks : list string) (d : dict string (dtype * pts))
  : res (dict string (dtype * pts)) :=
  match ks with
  | [] => Ok d
  | k :: ks' => do v <- dgetr (copy_pc k) d; fill_leftover ks' (dset k (rot90 v) d)
  end.

(** _coerce_to_oblique_incidence, data_handler.py:101-124 *)
Definition coerce (d : dict string (dtype * pts)) : res (dict string (dtype * pts)) :=
  let keys := map key2 (dkeys d) in
  let renamed := dict_of (map (fun kv => (key2 (fst kv), snd kv)) d) in
  if set_eqb keys oblique_keys then Ok renamed
  else if existsb (set_eqb keys) normal_pairs then
    let leftover := filter (fun k => negb (mem eqb k (dkeys renamed))) oblique_keys in
    fill_leftover leftover renamed
  else Raise ValueError.

(** _remove_duplicates, data_handler.py:88-99: the test reduces the angle, the
    list searched holds unreduced angles. *)
Fixpoint remove_dups_aux (seen : list R) (l : pts) : pts :=
  match l with
  | [] => []
  | (x, y) :: l' =>
      if mem Reqb (mod2pi x) seen then remove_dups_aux seen l'
      else (x, y) :: remove_dups_aux (seen ++ [x]) l'
  end.
Definition remove_dups (v : dtype * pts) : dtype * pts := (fst v, remove_dups_aux [] (snd v)).

(** _modulate_data_dict, data_handler.py:131-135; unpacking an array without
    columns (shape (0,) after _remove_duplicates) raises ValueError, and the
    result is cast to the dtype of the array. *)
Definition modulate (v : dtype * pts) : res pts :=
  match snd v with
  | [] => Raise ValueError
  | _ => Ok (map (fun p => (cast (fst v) (mod2pi (fst p)), snd p)) (snd v))
  end.

(** _sort_data_dict, data_handler.py:126-129 *)
Definition sort_dict (d : dict string pts) : dict string pts := dmap isort d.

(** __init__, data_handler.py:48-65 *)
Definition construct (it : list (pykey * pyval)) (units : string) (normal_to_oblique : bool)
  : res dat :=
  do _ <- check_angle_units units;
  let d := dict_of it in
  do _ <- check_iterable d;
  let d0 := raw_dict d in
  let d1 := if String.eqb units "degrees" then to_radians d0 else d0 in
  do d2 <- (if normal_to_oblique then coerce d1 else Ok d1);
  let d3 := dmap remove_dups d2 in
  do d4 <- dmapM modulate d3;
  Ok {| dc_data := sort_dict d4; dc_scale := 1; dc_phase := 0; dc_offset := 0;
        dc_units := units; dc_coerced := normal_to_oblique |}.

(** copy, data_handler.py:67-73: reads the attribute [coerced], which no
    DataContainer has. *)
Definition copy_dat (d : dat) : res dat := Raise AttributeError.

(** Python's [max]/[min] of a list of floats. *)
Definition py_max (l : list R) : res R :=
  match l with
  | [] => Raise ValueError
  | x :: l' => Ok (fold_left (fun m y => if Rltb m y then y else m) l' x)
  end.
Definition py_min (l : list R) : res R :=
  match l with
  | [] => Raise ValueError
  | x :: l' => Ok (fold_left (fun m y => if Rltb y m then y else m) l' x)
  end.

(** get_maxval, data_handler.py:175-191.  [None] is the initial
    (None, -inf), returned for a container without keys. *)
Fixpoint maxval_loop (d : dict string pts) (acc : option (string * R))
  : res (option (string * R)) :=
  match d with
  | [] => Ok acc
  | (k, v) :: d' =>
      do m <- py_max (map snd v);
      maxval_loop d' (match acc with
                      | None => Some (k, m)
                      | Some (k0, m0) => if Rltb m0 m then Some (k, m) else acc
                      end)
  end.
Definition get_maxval (d : dat) := maxval_loop (dc_data d) None.

(** get_minval, data_handler.py:207-223 *)
Fixpoint minval_loop (d : dict string pts) (acc : option (string * R))
  : res (option (string * R)) :=
  match d with
  | [] => Ok acc
  | (k, v) :: d' =>
      do m <- py_min (map snd v);
      minval_loop d' (match acc with
                      | None => Some (k, m)
                      | Some (k0, m0) => if Rltb m m0 then Some (k, m) else acc
                      end)
  end.
Definition get_minval (d : dat) := minval_loop (dc_data d) None.

(** get_pc_maxval / get_pc_minval, data_handler.py:193-205, 225-237 *)
Definition get_pc_maxval (d : dat) (pc : string) : res R :=
  do v <- dgetr pc (dc_data d); py_max (map snd v).
Definition get_pc_minval (d : dat) (pc : string) : res R :=
  do v <- dgetr pc (dc_data d); py_min (map snd v).

(** Accessors, data_handler.py:140-141, 239-241, 265-320, 374-417. *)
Definition deg_pts (v : pts) : pts := map (fun p => (rad2deg (fst p), snd p)) v.
Definition view (d : dat) (u : string) : res (dict string pts) :=
  do _ <- check_angle_units (lower u);
  if String.eqb (lower u) "radians" then Ok (dc_data d) else Ok (dmap deg_pts (dc_data d)).
Definition get_pc (d : dat) (pc u : string) : res pts :=
  do v <- view d u; dgetr pc v.
Definition get_keys (d : dat) : list string := dkeys (dc_data d).
Definition get_values (d : dat) (u : string) : res (list pts) := do v <- view d u; Ok (dvals v).
Definition get_items (d : dat) (u : string) : res (list (string * pts)) := view d u.
Definition get_scale (d : dat) : R := dc_scale d.
Definition get_offset (d : dat) : R := dc_offset d.
Definition get_phase_shift (d : dat) (u : string) : res R :=
  do _ <- check_angle_units (lower u);
  if String.eqb (lower u) "radians" then Ok (dc_phase d) else Ok (rad2deg (dc_phase d)).

(** Mutating methods return the new state and the outcome. *)
Definition out := (dat * res unit)%type.
Definition set_data (d : dat) (x : dict string pts) : dat :=
  mkdat x (dc_scale d) (dc_phase d) (dc_offset d) (dc_units d) (dc_coerced d).

Definition map_y (f : R -> R) (v : pts) : pts := map (fun p => (fst p, f (snd p))) v.

(** scale_data, data_handler.py:161-166 *)
Definition scale_data (d : dat) (f : R) : out :=
  if Rltb f 0 then (d, Raise ValueError)
  else (mkdat (dmap (map_y (fun y => f * y)) (dc_data d)) (dc_scale d * f)
          (dc_phase d) (dc_offset d) (dc_units d) (dc_coerced d), Ok tt).

(** subtract_min, data_handler.py:168-173.  Without keys the minimum is inf and
    the offset becomes -inf. *)
Definition subtract_min (d : dat) : out :=
  match get_minval d with
  | Raise e => (d, Raise e)
  | Ok None => (d, Raise NonFinite)
  | Ok (Some (_, m)) =>
      (mkdat (dmap (map_y (fun y => y - m)) (dc_data d)) (dc_scale d) (dc_phase d)
         (dc_offset d - m) (dc_units d) (dc_coerced d), Ok tt)
  end.

(** normalize_data, data_handler.py:243-246.  Without keys the maximum is -inf
    and the factor is (minus) zero; a maximum of zero makes the factor inf, -inf
    or nan: -inf is refused by scale_data, the others are not followed. *)
Definition normalize_data (d : dat) (desired : R) : out :=
  match get_maxval d with
  | Raise e => (d, Raise e)
  | Ok None => scale_data d 0
  | Ok (Some (_, m)) =>
      if Reqb m 0 then
        if Rltb desired 0 then (d, Raise ValueError) else (d, Raise NonFinite)
      else scale_data d (desired / m)
  end.

(** phase_shift_data, data_handler.py:248-263 *)
Definition phase_shift_data (d : dat) (angle : R) (u : string) : out :=
  match check_angle_units (lower u) with
  | Raise e => (d, Raise e)
  | Ok _ =>
      let a := if String.eqb (lower u) "degrees" then deg2rad angle else angle in
      (mkdat (sort_dict (dmap (map (fun p => (mod2pi (fst p + a), snd p))) (dc_data d)))
         (dc_scale d) (dc_phase d + a) (dc_offset d) (dc_units d) (dc_coerced d), Ok tt)
  end.

(** filter, data_handler.py:143-159, for a user function that may raise; a
    result of another length makes np.array raise ValueError (numpy >= 1.24).
    Polarizations processed before the failure keep their new values. *)
Fixpoint filter_loop (f : list R -> res (list R)) (d : dict string pts)
  : dict string pts * res unit :=
  match d with
  | [] => ([], Ok tt)
  | (k, v) :: d' =>
      match f (map snd v) with
      | Raise e => ((k, v) :: d', Raise e)
      | Ok ys =>
          if Nat.eqb (length ys) (length v) then
            let (d'', r) := filter_loop f d' in ((k, combine (map fst v) ys) :: d'', r)
          else ((k, v) :: d', Raise ValueError)
      end
  end.
Definition filter_data (d : dat) (f : list R -> res (list R)) : out :=
  let (x, r) := filter_loop f (dc_data d) in (set_data d x, r).

(** Histories of method calls on one object; a call that raises leaves the
    state it produced and the caller may go on. *)
Inductive op :=
| OScale (f : R)
| ONormalize (desired : R)
| OSubtractMin
| OPhase (a : R) (u : string)
| OFilter (f : list R -> res (list R)).

Definition step (d : dat) (o : op) : out :=
  match o with
  | OScale f => scale_data d f
  | ONormalize x => normalize_data d x
  | OSubtractMin => subtract_min d
  | OPhase a u => phase_shift_data d a u
  | OFilter f => filter_data d f
  end.

Fixpoint run (d : dat) (h : list op) : dat :=
  match h with [] => d | o :: h' => run (fst (step d o)) h' end.
