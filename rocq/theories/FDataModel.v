(** Model of [fDataContainer] (shgpy/core/data_handler.py 420-675), of the
    conversions between phi-space and Fourier-space data (1132-1161, 1539-1581),
    of dat_subtract, dat_add (1427-1488) and of the file loaders (1402-1630).
    Definitions only.

    Simplifications: complex64/complex128 are C; M is a natural number; the
    contents of a csv file is the list of its numeric rows. *)
From Coq Require Import String List ZArith Reals Bool.
From Coquelicot Require Import Complex.
From Verif Require Import PyBase RMod DataModel CBase.
Import ListNotations.
Local Open Scope string_scope.
Open Scope R_scope.

(** Values in the defining iterable: an array with its "dtype is complex64 or
    complex128", its number of dimensions and its entries, or something else. *)
Inductive fval := FArr (cplx : bool) (ndim : nat) (l : list C) | FNotArr.

(** [_phase_shift]: a number, a tuple holding such an object (left behind by
    copy), or an ndarray with [depth] axes of length one. *)
Inductive pyphase := PNum (x : R) | PTup (p : pyphase) | PArr (depth : nat) (x : R).

Record fdat := mkfdat {
  fd_data : dict string (list C);
  fd_scale : R;
  fd_phase : pyphase;
  fd_M : nat
}.

(** _check_defining_iterable, data_handler.py:456-465 *)
Definition good_fval (M : nat) (v : fval) : bool :=
  match v with
  | FArr cplx ndim l => cplx && Nat.eqb ndim 1 && Nat.eqb (length l) (2 * M + 1)
  | FNotArr => false
  end.
Definition fcheck (M : nat) (d : dict pykey fval) : res unit :=
  if forallb good_key (dkeys d) && forallb (good_fval M) (dvals d) then Ok tt else Raise ValueError.

Definition fentries (v : fval) : list C := match v with FArr _ _ l => l | FNotArr => [] end.

(** __init__, data_handler.py:442-447 *)
Definition fconstruct (it : list (pykey * fval)) (M : nat) : res fdat :=
  let d := dict_of it in
  do _ <- fcheck M d;
  Ok (mkfdat (map (fun kv => (key_str (fst kv), fentries (snd kv))) d) 1 (PNum 0) M).

(** An iterable made of the items of a dictionary of complex arrays. *)
Definition fitems (d : dict string (list C)) : list (pykey * fval) :=
  map (fun kv => (KStr (fst kv), FArr true 1 (snd kv))) d.

(** copy, data_handler.py:449-454 (the trailing comma makes a tuple) *)
Definition fcopy (f : fdat) : res fdat :=
  do g <- fconstruct (fitems (fd_data f)) (fd_M f);
  Ok (mkfdat (fd_data g) (fd_scale f) (PTup (fd_phase f)) (fd_M g)).

(** Accessors, data_handler.py:522-584, 594-606 *)
Definition fget_keys (f : fdat) := dkeys (fd_data f).
Definition fget_values (f : fdat) := dvals (fd_data f).
Definition fget_items (f : fdat) := fd_data f.
Definition fget_scale (f : fdat) := fd_scale f.
Definition fget_M (f : fdat) := fd_M f.
Definition fget_pc (f : fdat) (k : string) : res (list C) := dgetr k (fd_data f).

(** np.rad2deg turns tuples into arrays. *)
Fixpoint phase_depth (p : pyphase) : nat :=
  match p with PNum _ => 0 | PTup q => S (phase_depth q) | PArr n _ => n end.
Fixpoint phase_val (p : pyphase) : R :=
  match p with PNum x => x | PTup q => phase_val q | PArr _ x => x end.
Definition fget_phase_shift (f : fdat) (u : string) : res pyphase :=
  do _ <- check_angle_units (lower u);
  if String.eqb (lower u) "degrees" then
    match fd_phase f with
    | PNum x => Ok (PNum (rad2deg x))
    | p => Ok (PArr (phase_depth p) (rad2deg (phase_val p)))
    end
  else Ok (fd_phase f).

Definition fout := (fdat * res unit)%type.

(** scale_fdata, data_handler.py:586-591 *)
Definition scale_fdata (f : fdat) (s : R) : fout :=
  if Rltb s 0 then (f, Raise ValueError)
  else (mkfdat (dmap (map (Cmult (RtoC s))) (fd_data f)) (fd_scale f * s) (fd_phase f) (fd_M f), Ok tt).

(** get_maxval, data_handler.py:608-631; get_pc_maxval, 633-649 *)
Fixpoint fmaxval_loop (d : dict string (list C)) (acc : option (string * R))
  : res (option (string * R)) :=
  match d with
  | [] => Ok acc
  | (k, v) :: d' =>
      do m <- py_max (map Cmod v);
      fmaxval_loop d' (match acc with
                       | None => Some (k, m)
                       | Some (k0, m0) => if Rltb m0 m then Some (k, m) else acc
                       end)
  end.
Definition fget_maxval (f : fdat) := fmaxval_loop (fd_data f) None.
Definition fget_pc_maxval (f : fdat) (pc : string) : res R :=
  do v <- dgetr pc (fd_data f); py_max (map Cmod v).

(** normalize_fdata, data_handler.py:651-654 (numpy division: a zero maximum
    gives inf, -inf or nan) *)
Definition normalize_fdata (f : fdat) (desired : R) : fout :=
  match fget_maxval f with
  | Raise e => (f, Raise e)
  | Ok None => scale_fdata f 0
  | Ok (Some (_, m)) =>
      if Reqb m 0 then
        if Rltb desired 0 then (f, Raise ValueError) else (f, Raise NonFinite)
      else scale_fdata f (desired / m)
  end.

(** One array of phase_shift_fdata, data_handler.py:669-674: entry n2i(m,M)
    is multiplied by cos(m a) + 1j sin(m a). *)
Definition shift_row (M : nat) (a : R) (v : list C) : list C :=
  map (fun mx => Cmult (snd mx) (cis (IZR (fst mx) * a))) (combine (freqs M) v).

(** [self._phase_shift += angle].  A tuple cannot be added to a python float; a
    numpy float (always the case for degrees, where np.deg2rad made it) turns the
    tuple into an array. *)
Definition phase_add (p : pyphase) (a : R) (is_np : bool) : res pyphase :=
  match p with
  | PNum x => Ok (PNum (x + a))
  | PArr n x => Ok (PArr n (x + a))
  | PTup q => if is_np then Ok (PArr (phase_depth p) (phase_val p + a)) else Raise TypeError
  end.

(** phase_shift_fdata, data_handler.py:656-675; [is_np]: the caller's angle is a
    numpy float. *)
Definition phase_shift_fdata (f : fdat) (angle : R) (is_np : bool) (u : string) : fout :=
  match check_angle_units (lower u) with
  | Raise e => (f, Raise e)
  | Ok _ =>
      let deg := String.eqb (lower u) "degrees" in
      let a := if deg then deg2rad angle else angle in
      let data := dmap (shift_row (fd_M f) a) (fd_data f) in
      match phase_add (fd_phase f) a (is_np || deg) with
      | Ok p => (mkfdat data (fd_scale f) p (fd_M f), Ok tt)
      | Raise e => (mkfdat data (fd_scale f) (fd_phase f) (fd_M f), Raise e)
      end
  end.

Inductive fop :=
| FScale (s : R)
| FNormalize (desired : R)
| FPhase (a : R) (is_np : bool) (u : string).
Definition fstep (f : fdat) (o : fop) : fout :=
  match o with
  | FScale s => scale_fdata f s
  | FNormalize x => normalize_fdata f x
  | FPhase a n u => phase_shift_fdata f a n u
  end.
Fixpoint frun (f : fdat) (h : list fop) : fdat :=
  match h with [] => f | o :: h' => frun (fst (fstep f o)) h' end.

(** np.linspace(0, 2*np.pi, n, endpoint=False) *)
Definition grid (n : nat) : list R := map (node n) (seq 0 n).

(** fdat_to_dat, data_handler.py:1132-1161: real part of the inverse series. *)
Definition synth (M : nat) (v : list C) (x : R) : C :=
  Csum (fun mv => Cmult (snd mv) (cis (IZR (fst mv) * x))) (combine (freqs M) v).
Definition fdat_to_dat (f : fdat) (n : nat) : res dat :=
  let xs := grid n in
  let it := map (fun kv => (KStr (fst kv),
                   NDArray 2 DFloat [xs; map (fun x => Re (synth (fd_M f) (snd kv) x)) xs]))
                (fd_data f) in
  construct it "radians" false.

(** dat_to_fdat, data_handler.py:1539-1581.  [interp] is scipy's
    interp1d(xdata, ydata, kind, fill_value='extrapolate'): it may refuse the
    data, otherwise it is a function of the angle. *)
Definition fourier_entry (interp : list (R * R) -> res (R -> R)) (p : pts) (m : Z) : res C :=
  do g <- interp p;
  let xs := grid (length p) in
  let ys := map g xs in
  do x1 <- py_nth xs 1;
  do x0 <- py_nth xs 0;
  let dx := x1 - x0 in
  Ok (Csum (fun xy => Cmult (RtoC (1 / 2 / PI * dx * snd xy)) (cis (- IZR m * fst xy))) (combine xs ys)).
Definition dat_to_fdat (interp : list (R * R) -> res (R -> R)) (d : dat) (M : nat) : res fdat :=
  do rows <- dmapM (fun p => mapM (fourier_entry interp p) (freqs M)) (dc_data d);
  fconstruct (fitems rows) M.

(** numpy broadcasting of two one-dimensional arrays. *)
Definition bcast (f : R -> R -> R) (a b : list R) : res (list R) :=
  if Nat.eqb (length a) (length b) then Ok (map (fun p => f (fst p) (snd p)) (combine a b))
  else match a, b with
       | _, [y] => Ok (map (fun x => f x y) a)
       | [x], _ => Ok (map (fun y => f x y) b)
       | _, _ => Raise ValueError
       end.
(** np.isclose with its default tolerances *)
Definition isclose (a b : R) : bool :=
  if Rle_dec (Rabs (a - b)) (/ 100000000 + / 100000 * Rabs b) then true else false.

(** One key of dat_subtract / dat_add, data_handler.py:1449-1455, 1481-1487.
    The array [[new_xdata, new_ydata]] is refused when the rows differ in
    length. *)
Definition combine_pc (op : R -> R -> R) (d1 d2 : dat) (k : string) : res (string * pts) :=
  do p1 <- get_pc d1 k "radians";
  do p2 <- get_pc d2 k "radians";
  do c <- bcast (fun a b => if isclose a b then 1 else 0) (map fst p1) (map fst p2);
  if existsb (fun x => Reqb x 0) c then Raise ValueError
  else
    do ys <- bcast op (map snd p1) (map snd p2);
    if Nat.eqb (length ys) (length p1) then Ok (k, combine (map fst p1) ys) else Raise ValueError.

Definition dat_arith (op : R -> R -> R) (d1 d2 : dat) : res dat :=
  if negb (set_eqb (get_keys d1) (get_keys d2)) then Raise ValueError
  else
    do v1 <- get_values d1 "radians"; do w1 <- py_nth v1 0;
    do v2 <- get_values d2 "radians"; do w2 <- py_nth v2 0;
    if negb (Nat.eqb (length w1) (length w2)) then Raise ValueError
    else
      do l <- mapM (combine_pc op d1 d2) (get_keys d1);
      construct (map (fun kv => (KStr (fst kv), NDArray 2 DFloat [map fst (snd kv); map snd (snd kv)])) l)
        "radians" false.
(** data_handler.py:1427-1456 and 1459-1488 *)
Definition dat_subtract := dat_arith Rminus.
Definition dat_add := dat_arith Rplus.

(** Loaders, data_handler.py:1402-1424, 1491-1536, 1584-1630.  [files]: what
    read_csv returns for a file name (the rows of the file), or its exception. *)
Section Loaders.
  Variable files : string -> res (list (R * R)).
  Variable interp : list (R * R) -> res (R -> R).

  Definition read_all (names : list (string * string)) : res (list (pykey * pyval)) :=
    mapM (fun kn => do rows <- files (snd kn);
                    Ok (KStr (fst kn), NDArray 2 DFloat [map fst rows; map snd rows])) names.
  Definition load_data (names : list (string * string)) (u : string) (n2o : bool) : res dat :=
    do it <- read_all names; construct it u n2o.
  Definition load_data_and_dark_subtract (names : list (string * string)) (u : string)
      (dark : list (string * string)) (du : string) (n2o : bool) : res dat :=
    if negb (set_eqb (map fst names) (map fst dark)) then Raise ValueError
    else do d1 <- load_data names u n2o; do d2 <- load_data dark du n2o; dat_subtract d1 d2.
  (** [scale <> 1] calls fdat.scale_data, a method fDataContainer lacks. *)
  Definition load_data_and_fourier_transform (names : list (string * string)) (u : string)
      (dark : option (list (string * string) * string)) (M : nat) (min_subtract : bool) (scale : R)
      (n2o : bool) : res (dat * fdat) :=
    do d <- match dark with
            | Some (dn, du) => load_data_and_dark_subtract names u dn du n2o
            | None => load_data names u n2o
            end;
    do d' <- (if min_subtract then let (d', r) := subtract_min d in do _ <- r; Ok d' else Ok d);
    do f <- dat_to_fdat interp d' M;
    if Reqb scale 1 then Ok (d', f)
    else let (d'', r) := scale_data d' scale in do _ <- r; Raise AttributeError.
End Loaders.
