(** scipy's interp1d(xdata, ydata, kind='linear', fill_value='extrapolate'), the
    interpolator dat_to_fdat builds (data_handler.py:1576) when it is called with
    interp_kind='linear'. *)
From Coq Require Import List Reals.
From Verif Require Import PyBase RMod.
Import ListNotations.
Open Scope R_scope.

(** The segment used for the angle x: searchsorted gives the first index i with
    x <= xdata[i], clip(i, 1, n - 1) brings it into range, and the value is
    slope * (x - xdata[i-1]) + ydata[i-1]. *)
Fixpoint segment (p : list (R * R)) (x : R) : R :=
  match p with
  | q1 :: ((q2 :: rest) as p') =>
      if match rest with [] => true | _ => negb (Rltb (fst q2) x) end
      then (snd q2 - snd q1) / (fst q2 - fst q1) * (x - fst q1) + snd q1
      else segment p' x
  | [q] => snd q
  | [] => 0
  end.

(** Two neighbours at the same abscissa: the slope is a division by zero. *)
Fixpoint repeated (p : list (R * R)) : bool :=
  match p with
  | q1 :: ((q2 :: _) as p') => Reqb (fst q1) (fst q2) || repeated p'
  | _ => false
  end.

(** interp1d sorts its data by abscissa.  Simplified: data that contain the same
    abscissa twice give inf or nan for some angles and are refused here with
    NonFinite; a single point gives nan for every angle, which nobody sees since
    dat_to_fdat stops with an IndexError on line 1579. *)
Definition linear (p : list (R * R)) : res (R -> R) :=
  match p with
  | [] => Raise ValueError
  | _ => if repeated (isort p) then Raise NonFinite else Ok (segment (isort p))
  end.
