(** Model of shgpy/fformgen.py: Fourier formulas by convolution.  Definitions only.

    An array whose first axis is the frequency is the list of its slices.  [ev]
    is sympy's automatic evaluation, [expand] is [e.expand()]; what is required
    of both is [sound_ev] (SpecForm).
    Simplifications: numbers in the arrays are rational; python numbers and sympy
    numbers are not told apart (substitution leaves both unchanged); the file
    store keeps the arrays that [np.save] writes, by file name; adding a scalar
    array and an array of higher rank is refused.
    Not modelled: [R], [rproj], [rFc], [rk_out] and [_load_fform_dict], which
    nothing uses; logging and timing. *)
From Coq Require Import String List Arith ZArith QArith Bool.
Import ListNotations.
From Verif Require Import PyBase Expr TensorModel TensorInst UtilModel DataModel FormModel.
From Verif Require FormgenModel.
Local Open Scope nat_scope.

(** shg_symbols.py 288, 303-307 *)
Definition theta_sym : sym := mksym "theta" (Some true).
Definition Fx : sym := mksym "Fx" None.
Definition Fy : sym := mksym "Fy" None.
Definition Fz : sym := mksym "Fz" None.

Section Fformgen.
Variable ev expand : expr -> expr.
Variable srepr : expr -> string.

Local Instance Sig_fform : Sig expr := Sig_ev ev.

Notation ftensor := (list (tensor expr)) (only parsing).

(** [n2i], data_handler.py 1095-1100, used as an index *)
Definition slice (F : ftensor) (n : Z) (M : nat) : res (tensor expr) := py_nth F (n + Z.of_nat M)%Z.

(** [np.zeros(shape, dtype=object)] *)
Definition zeros (sh : list nat) : tensor expr := mkT sh (fun _ => num 0).

(** [t += u] *)
Definition plus_eq (t u : tensor expr) : tensor expr := mkT (shape t) (fun i => add (at_ t i) (at_ u i)).

(** fformgen.py 100-112 ([_convolve_ftensors]); the only exception of the loop
    body is IndexError, which is passed over *)
Definition convolve_ftensors (M : nat) (nR1 nR2 : ftensor) : res ftensor :=
  do a0 <- py_nth nR1 0;
  do b0 <- py_nth nR2 0;
  let test_prod := outer a0 b0 in
  Ok (map (fun n =>
        fold_left (fun acc m =>
          match slice nR1 m M, slice nR2 (n - m)%Z M with
          | Ok a, Ok b => plus_eq acc (outer a b)
          | _, _ => acc
          end) (freqs M) (zeros (shape test_prod)))
      (freqs M)).

(** The calls leave [M] at its default *)
Definition conv : ftensor -> ftensor -> res ftensor := convolve_ftensors 16.

(** [np.array([f(F[n2i(m, M)]) for m in np.arange(-M, M+1)])] *)
Definition each (M : nat) (f : tensor expr -> res (tensor expr)) (F : ftensor) : res ftensor :=
  mapM (fun m => do t <- slice F m M; f t) (freqs M).

(** An array that does not depend on phi: its only coefficient is the zeroth
    (fformgen.py 197-204, 230-233, 239-240 and the same lines of the other
    function) *)
Definition constant (M : nat) (t : tensor expr) : ftensor :=
  map (fun m => if Z.eqb m 0 then t else zeros (shape t)) (freqs M).

Definition matrix (rows : list (list expr)) : tensor expr :=
  mkT [3; 3] (fun i => nth (nth 1 i 0) (nth (nth 0 i 0) rows []) (num 0)).

(** fformgen.py 205-229 (453-477): the coefficients of the rotation about z; the
    assignments at -1, 0 and 1 need at least three slices *)
Definition half : Q := 1 # 2.
Definition mhalf : Q := -1 # 2.
Definition R_minus : tensor expr :=
  matrix [[ENum half 0; ENum 0 mhalf; num 0]; [ENum 0 half; ENum half 0; num 0]; [num 0; num 0; num 0]].
Definition R_zero : tensor expr :=
  matrix [[num 0; num 0; num 0]; [num 0; num 0; num 0]; [num 0; num 0; num 1]].
Definition R_plus : tensor expr :=
  matrix [[ENum half 0; ENum 0 half; num 0]; [ENum 0 mhalf; ENum half 0; num 0]; [num 0; num 0; num 0]].
Definition rotation (M : nat) : res ftensor :=
  if M =? 0 then Raise IndexError else
  Ok (map (fun m => if Z.eqb m (-1) then R_minus else if Z.eqb m 0 then R_zero
                    else if Z.eqb m 1 then R_plus else zeros [3; 3]) (freqs M)).

Definition vector : expr -> expr -> expr -> tensor expr := FormgenModel.vector.
Definition nega : expr -> expr := FormgenModel.nega ev.
Definition sine (e : expr) : expr := ev (ESin e).
Definition cosine (e : expr) : expr := ev (ECos e).

(** fformgen.py 185 (432): one row of [Id - tensor_product(k_out, k_out)] *)
Definition proj_row (k : tensor expr) (i : nat) : tensor expr :=
  mkT [3] (fun ix => FormgenModel.subt ev (num (if i =? nth 0 ix 0 then 1 else 0))
                       (at_ (outer k k) (i :: ix))).

(** [np.array([a, b, c])] *)
Definition stack3 (a b c : tensor expr) : tensor expr :=
  mkT (3 :: shape a) (fun ix =>
    match ix with
    | 0 :: r => at_ a r
    | 1 :: r => at_ b r
    | _ :: r => at_ c r
    | [] => num 0
    end).

(** [c*F] *)
Definition fscale (c : expr) (F : ftensor) : ftensor := map (FormgenModel.tscale ev c) F.

(** fformgen.py 274-322 (523-574): one pass of the loop *)
Definition uncontracted_terms (M : nat) (rR rF rk_in r1 : ftensor) : res (ftensor * ftensor * ftensor * ftensor) :=
  do h1 <- each M (fun t => tensor_contract t [[1; 2]]) r1;
  do r2 <- conv h1 h1;
  do h2 <- each M (fun t => tensor_contract t [[0; 2]]) r2;
  do r3 <- conv rR rF;
  do h3 <- each M (fun t => tensor_contract t [[0; 2]]) r3;
  do h4 <- conv h2 h3;
  do h5 <- conv h4 h3;
  do h6 <- conv h5 h3;
  do h7 <- conv h6 h3;
  do r4 <- conv rR (fscale (ENum 0 (-1)) rk_in);
  do h8 <- each M (fun t => tensor_contract t [[0; 2]]) r4;
  do h9 <- conv h7 h8;
  do h10 <- conv h9 (fscale (num (-1)) h8);
  Ok (h7, h9, fscale (num (-1)) h9, h10).

(** fformgen.py 55-63 ([_substitute_into_array]) on every slice *)
Definition substitute (sa : list (sym * expr)) (F : ftensor) : ftensor := map (tmap (subs_seq ev sa)) F.

(** [[h7, h9, -h9, h10]] after substitution (335-369, 582-616) *)
Definition substituted (sa : list (sym * expr)) (terms : ftensor * ftensor * ftensor * ftensor) : list ftensor :=
  let '(t1, t2, t3, t4) := terms in [substitute sa t1; substitute sa t2; substitute sa t3; substitute sa t4].

Notation store := (dict string (list ftensor)) (only parsing).
Definition npy (prefix pc : string) : string := (prefix ++ "_" ++ pc ++ ".npy")%string.

(** The body shared by the two generators: [kout], [kin] are the vectors along
    the beams, [c] and [s] what [Fx] and [Fz] are replaced by. *)
Definition generate (kout kin : tensor expr) (c s : expr) (prefix : string) (M : nat) (fs : store) : res store :=
  do rR <- rotation M;
  let rF := constant M (vector (ESym Fx) (ESym Fy) (ESym Fz)) in
  do r1_x <- conv (constant M (proj_row kout 0)) rR;
  do r1_y <- conv (constant M (proj_row kout 1)) rR;
  do r1_z <- conv (constant M (proj_row kout 2)) rR;
  let rk_in := constant M kin in
  let r1_0 := map (fun t => zeros (shape t)) r1_x in
  do r1_s <- mapM (fun m => do o <- slice r1_0 m M; do y <- slice r1_y m M; Ok (stack3 o y o)) (freqs M);
  do r1_p <- mapM (fun m => do x <- slice r1_x m M; do o <- slice r1_0 m M; do z <- slice r1_z m M;
                            Ok (stack3 x o z)) (freqs M);
  do tp <- uncontracted_terms M rR rF rk_in r1_p;
  do ts <- uncontracted_terms M rR rF rk_in r1_s;
  let P := [(Fx, c); (Fy, num 0); (Fz, s)] in
  let S := [(Fx, num 0); (Fy, num (-1)); (Fz, num 0)] in
  Ok (dset (npy prefix "ss") (substituted S ts)
     (dset (npy prefix "sp") (substituted S tp)
     (dset (npy prefix "ps") (substituted P ts)
     (dset (npy prefix "pp") (substituted P tp) fs)))).

(** fformgen.py 138-388 ([generate_uncontracted_fourier_transforms]); [aoi] is a
    number; its sine and cosine are kept as expressions.  The angle is
    substituted into the two vectors (177-184). *)
Definition k_out_symb : tensor expr :=
  vector (nega (sine (ESym theta_sym))) (num 0) (nega (cosine (ESym theta_sym))).
Definition k_in_symb : tensor expr :=
  vector (nega (sine (ESym theta_sym))) (num 0) (cosine (ESym theta_sym)).
Definition generate_uncontracted_fourier_transforms (aoi : Q) (prefix : string) (M : nat) (fs : store) : res store :=
  generate (tmap (subs_seq ev [(theta_sym, num aoi)]) k_out_symb) (tmap (subs_seq ev [(theta_sym, num aoi)]) k_in_symb)
           (cosine (num aoi)) (sine (num aoi)) prefix M fs.

(** fformgen.py 391-631 ([generate_uncontracted_fourier_transforms_symb]) *)
Definition generate_uncontracted_fourier_transforms_symb (prefix : string) (M : nat) (fs : store) : res store :=
  generate k_out_symb k_in_symb (cosine (ESym theta_sym)) (sine (ESym theta_sym)) prefix M fs.

(** fformgen.py 93-97 ([_conjugate_tensor]) *)
Definition conjugate_tensor (t : tensor expr) : tensor expr := tmap (FormgenModel.conjugate ev) t.

(** fformgen.py 66-90: rounding, half to even, of the real and imaginary part of
    every number of the expanded expression *)
Definition round_half_even (q : Q) : Z :=
  let f := Qround.Qfloor q in
  let d := (q - inject_Z f)%Q in
  if Qle_bool d (1 # 2) then (if Qeq_bool d (1 # 2) then (if Z.even f then f else f + 1)%Z else f) else (f + 1)%Z.
Definition qround (nd : nat) (q : Q) : Q :=
  (inject_Z (round_half_even (q * inject_Z (10 ^ Z.of_nat nd)))) / inject_Z (10 ^ Z.of_nat nd).
Fixpoint round_numbers (nd : nat) (e : expr) : expr :=
  match e with
  | ENum a b => ENum (qround nd a) (qround nd b)
  | ESym s => ESym s
  | EAdd l => EAdd (map (round_numbers nd) l)
  | EMul l => EMul (map (round_numbers nd) l)
  | EPow b n => EPow (round_numbers nd b) n
  | ECos e => ECos (round_numbers nd e)
  | ESin e => ESin (round_numbers nd e)
  | EConj e => EConj (round_numbers nd e)
  | ERe e => ERe (round_numbers nd e)
  | EIm e => EIm (round_numbers nd e)
  end.
Definition round_expr (nd : nat) (e : expr) : expr := ev (round_numbers nd (expand e)).

(** fformgen.py 699-706 *)
Definition contraction_lists_1 : list (list (list nat)) :=
  [[[0; 6]; [2; 7]; [3; 8]];
   [[0; 7]; [2; 8]; [3; 9]];
   [[0; 7]; [2; 9]; [3; 10]; [6; 8]];
   [[0; 8]; [2; 10]; [3; 11]; [6; 9]]].
Definition contraction_lists_2 : list (list (list nat)) :=
  [[[0; 3]; [1; 4]; [2; 5]];
   [[0; 4]; [1; 6]; [2; 7]; [3; 5]];
   [[0; 3]; [1; 4]; [2; 5]];
   [[0; 4]; [1; 6]; [2; 7]; [3; 5]]].

(** [_fform_dict[pc] += t9_pc_term], elementwise *)
Definition scalar (t : tensor expr) : res expr :=
  match shape t with [] => Ok (at_ t []) | _ => Raise ValueError end.

(** fformgen.py 729-753: one term *)
Definition contract_term (M : nat) (h : ftensor) (chi1 chi2 : tensor expr) (l1 l2 : list (list nat))
    (acc : list expr) : res (list expr) :=
  do t8 <- each M (fun t => do p <- tensor_product [t; chi1]; tensor_contract p l1) h;
  do t9 <- each M (fun t => do p <- tensor_product [t; chi2]; tensor_contract p l2) t8;
  do vals <- mapM scalar t9;
  Ok (map (fun ab => add (fst ab) (snd ab)) (combine acc vals)).

(** fformgen.py 726-756: one polarization combination; the loop runs over the
    stored terms and reads the other four lists at the same position *)
Fixpoint contract_terms (M : nat) (term : nat) (hs : list ftensor) (chi1 chi2 : list (tensor expr)) (acc : list expr)
  : res (list expr) :=
  match hs with
  | [] => Ok acc
  | h :: hs' =>
      do c1 <- py_nth chi1 (Z.of_nat term);
      do c2 <- py_nth chi2 (Z.of_nat term);
      do l1 <- py_nth contraction_lists_1 (Z.of_nat term);
      do l2 <- py_nth contraction_lists_2 (Z.of_nat term);
      do acc' <- contract_term M h c1 c2 l1 l2 acc;
      contract_terms M (S term) hs' chi1 chi2 acc'
  end.

Definition load_npy (fs : store) (name : string) : res (list ftensor) :=
  match dget name fs with Some x => Ok x | None => Raise FileNotFoundError end.

Definition pcs : list string := ["PP"; "PS"; "SP"; "SS"]%string.

(** fformgen.py 640-759 ([generate_contracted_fourier_transforms]), up to
    [_save_fform_dict]: the dictionary of arrays *)
Definition contracted_dict (prefix : string) (fs : store) (chi_dipole chi_quadrupole : tensor expr) (M : nat)
    (ndigits : option nat) : res (dict string (list expr)) :=
  do _ <- assert_real_params chi_dipole;
  do _ <- assert_real_params chi_quadrupole;
  do terms <- mapM (fun pc => do t <- load_npy fs (npy prefix (lower pc)); Ok (pc, t)) pcs;
  let cd := conjugate_tensor chi_dipole in
  let cq := conjugate_tensor chi_quadrupole in
  let chi1 := [chi_dipole; chi_dipole; chi_quadrupole; chi_quadrupole] in
  let chi2 := [cd; cq; cd; cq] in
  mapM (fun pt =>
    do v <- contract_terms M 0 (snd pt) chi1 chi2 (map (fun _ => num 0) (freqs M));
    Ok (fst pt, match ndigits with None => v | Some nd => map (round_expr nd) v end)) terms.

(** The file [save_filename] holds (121-128): strings, as [save_fform] writes
    them; [FormModel.load_fform] reads it. *)
Definition generate_contracted_fourier_transforms (prefix : string) (fs : store) (chi_dipole chi_quadrupole : tensor expr)
    (M : nat) (ndigits : option nat) : res (dict string (list string)) :=
  do d <- contracted_dict prefix fs chi_dipole chi_quadrupole M ndigits;
  Ok (dmap (map srepr) d).

(** fformgen.py 634-637 *)
Definition generate_contracted_fourier_transforms_complex : res unit := Raise NotImplementedError.

End Fformgen.
