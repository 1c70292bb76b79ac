(** The angles of a [DataContainer] with double-precision numbers: the parts of
    shgpy/core/data_handler.py that DataModel.v follows with real numbers, here with
    every operation rounded to the nearest double, ties to even.  Overflow, nan and
    signed zeros are not represented. *)
From Coq Require Import Reals ZArith List.
From Flocq Require Import Core.
From Verif Require Import PyBase RMod.
Import ListNotations.
Local Open Scope R_scope.

(** Doubles: 53 binary digits, exponents from -1074. *)
Definition exp64 : Z -> Z := FLT_exp (-1074) 53.
Definition is64 (x : R) : Prop := generic_format radix2 exp64 x.
Definition rnd (x : R) : R := round radix2 exp64 ZnearestE x.

(** [np.pi] and [2*np.pi] *)
Definition pi64 : R := 884279719003555 / 2 ^ 48.
Definition two_pi64 : R := rnd (2 * pi64).

(** [x % y] of numpy for positive [y] ([npy_remainder]): C's [fmod], which is exact
    and has the sign of [x]; [y] is added, with rounding, to a negative result. *)
Definition fmod (x y : R) : R := x - y * IZR (Ztrunc (x / y)).
Definition mod64 (x y : R) : R :=
  let m := fmod x y in if Rltb m 0 then rnd (m + y) else m.

(** [np.deg2rad], [np.rad2deg]: a product with a rounded constant *)
Definition deg2rad64 (x : R) : R := rnd (x * rnd (pi64 / 180)).
Definition rad2deg64 (x : R) : R := rnd (x * rnd (180 / pi64)).

(** [_remove_duplicates], data_handler.py:88-99, for one polarization *)
Fixpoint remove_dups64 (seen : list R) (l : pts) : pts :=
  match l with
  | [] => []
  | (x, y) :: l' =>
      if mem Reqb (mod64 x two_pi64) seen then remove_dups64 seen l'
      else (x, y) :: remove_dups64 (seen ++ [x]) l'
  end.

(** [_remove_duplicates], [_modulate_data_dict] and [_sort_data_dict] (63-65,
    88-99, 126-135) on an array of doubles in radians; unpacking an array without
    columns raises ValueError. *)
Definition load64 (l : pts) : res pts :=
  match remove_dups64 [] l with
  | [] => Raise ValueError
  | l' => Ok (isort (map (fun p => (mod64 (fst p) two_pi64, snd p)) l'))
  end.
(** The same after [_convert_data_dict_to_radians] (137-138) *)
Definition radians64 (l : pts) : pts := map (fun p => (deg2rad64 (fst p), snd p)) l.
Definition load_degrees64 (l : pts) : res pts := load64 (radians64 l).
(** [_get_data_dict_degrees] (140-141) *)
Definition degrees64 (l : pts) : pts := map (fun p => (rad2deg64 (fst p), snd p)) l.

(** [phase_shift_data] (248-263) in radians and in degrees *)
Definition phase_shift64 (a : R) (l : pts) : pts :=
  isort (map (fun p => (mod64 (rnd (fst p + a)) two_pi64, snd p)) l).
Definition phase_shift_degrees64 (d : R) (l : pts) : pts := phase_shift64 (deg2rad64 d) l.
