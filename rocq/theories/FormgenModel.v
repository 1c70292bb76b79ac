(** Model of shgpy/formgen.py (whole file): SHG intensities from susceptibility
    tensors.  Definitions only.

    [ev] is sympy's automatic evaluation, [ex] is [sp.expand(sp.expand_trig(e))];
    what is required of both is [sound_ev] (SpecForm).  [is_real] is the sympy
    attribute of the same name.
    Simplifications: the warnings are left out; tensors hold sympy expressions;
    adding arrays of different shapes is refused, where numpy would try to
    broadcast (it happens only for tensors of the wrong rank); [np.dot] starts
    its sum from 0. *)
From Coq Require Import String List Arith QArith Bool.
Import ListNotations.
From Verif Require Import PyBase Expr TensorModel TensorInst UtilModel DataModel FormModel.
Local Open Scope nat_scope.

Section Formgen.
Variable ev ex : expr -> expr.
Variable is_real : expr -> option bool.

Local Instance Sig_form : Sig expr := Sig_ev ev.

(** [-e], [a - b], [sp.conjugate(a)] *)
Definition nega (a : expr) : expr := ev (EMul [num (-1); a]).
Definition subt (a b : expr) : expr := ev (EAdd [a; EMul [num (-1); b]]).
Definition conjugate (a : expr) : expr := ev (EConj a).

(** [np.array([a, b, c], dtype=object)] *)
Definition vector (a b c : expr) : tensor expr :=
  mkT [3] (fun i => nth (nth 0 i 0) [a; b; c] (num 0)).

(** The vectors of formgen.py 121-125, 180-185, 233-238, 371-375 and 435-440. *)
Definition cos_of (theta : expr) : expr := ev (ECos theta).
Definition sin_of (theta : expr) : expr := ev (ESin theta).
Definition k_in (theta : expr) : tensor expr := vector (sin_of theta) (num 0) (cos_of theta).
Definition k_out (theta : expr) : tensor expr := vector (sin_of theta) (num 0) (nega (cos_of theta)).
Definition F_p (theta : expr) : tensor expr := vector (nega (cos_of theta)) (num 0) (sin_of theta).
Definition F_s : tensor expr := vector (num 0) (num 1) (num 0).

(** formgen.py 239-245 (and 126-132, 186-192, 376-382, 441-447) *)
Definition R_phi : tensor expr :=
  mkT [3; 3] (fun i => nth (nth 1 i 0) (nth (nth 0 i 0)
    [[cos_of (ESym phi); nega (sin_of (ESym phi)); num 0];
     [sin_of (ESym phi); cos_of (ESym phi); num 0];
     [num 0; num 0; num 1]] []) (num 0)).

(** formgen.py 46-54 *)
Definition levi_civita : tensor expr :=
  mkT [3; 3; 3] (fun i =>
    match i with
    | [0; 1; 2] | [1; 2; 0] | [2; 0; 1] => num 1
    | [1; 0; 2] | [0; 2; 1] | [2; 1; 0] => num (-1)
    | _ => num 0
    end).

(** [tensor_contract(tensor_product( *ts ), pairs)] *)
Definition contract_product (ts : list (tensor expr)) (pairs : list (list nat)) : res (tensor expr) :=
  do p <- tensor_product ts; tensor_contract p pairs.

(** formgen.py 250-253 and 284-287: the crystal turned by phi *)
Definition rotate3 (t : tensor expr) : res (tensor expr) :=
  contract_product [R_phi; R_phi; R_phi; t] [[1; 6]; [3; 7]; [5; 8]].
Definition rotate4 (t : tensor expr) : res (tensor expr) :=
  contract_product [R_phi; R_phi; R_phi; R_phi; t] [[1; 8]; [3; 9]; [5; 10]; [7; 11]].

(** formgen.py 255-262, 272-279, 289-296 *)
Definition dipole_source (rt F : tensor expr) : res (tensor expr) :=
  contract_product [rt; F; F] [[1; 3]; [2; 4]].
Definition magnetic_source (kin rt F : tensor expr) : res (tensor expr) :=
  contract_product [levi_civita; kin; rt; F; F] [[1; 3]; [2; 4]; [5; 7]; [6; 8]].
Definition quadrupole_source (rt kin F : tensor expr) : res (tensor expr) :=
  contract_product [rt; kin; F; F] [[1; 4]; [2; 5]; [3; 6]].

(** Elementwise operations *)
Definition shape_eqb (a b : list nat) : bool :=
  if list_eq_dec Nat.eq_dec a b then true else false.
Definition tscale (c : expr) (t : tensor expr) : tensor expr := tmap (fun e => ev (EMul [c; e])) t.
Definition tzip (f : expr -> expr -> expr) (t u : tensor expr) : res (tensor expr) :=
  if shape_eqb (shape t) (shape u) then Ok (mkT (shape t) (fun i => f (at_ t i) (at_ u i))) else Raise ValueError.
Definition tadd : tensor expr -> tensor expr -> res (tensor expr) := tzip (fun a b => ev (EAdd [a; b])).
Definition tsub : tensor expr -> tensor expr -> res (tensor expr) := tzip subt.

(** [Ss += t]; [None] is the integer 0 of lines 230-231 *)
Definition acc_add (acc : option (tensor expr)) (t : tensor expr) : res (tensor expr) :=
  match acc with
  | None => Ok (tmap (fun e => ev (EAdd [num 0; e])) t)
  | Some a => tadd a t
  end.

(** [np.dot(k, t)] for vectors *)
Definition dot (k t : tensor expr) : res expr :=
  match shape k, shape t with
  | [n], [m] => if n =? m then Ok (sumv (map (fun i => mul (at_ k [i]) (at_ t [i])) (seq 0 n))) else Raise ValueError
  | _, _ => Raise ValueError
  end.

(** [t -= np.dot(kout, t)*kout] *)
Definition project (theta : expr) (t : tensor expr) : res (tensor expr) :=
  do d <- dot (k_out theta) t; tsub t (tscale d (k_out theta)).

Definition opt_add (x : option (tensor expr * tensor expr)) (p s : tensor expr) : res (tensor expr * tensor expr) :=
  do p' <- acc_add (option_map fst x) p;
  do s' <- acc_add (option_map snd x) s;
  Ok (p', s').

(** formgen.py 248-264, 265-281, 282-298: one contribution each; the running
    sums are the pair (Sp, Ss) *)
Definition add_eee (theta : expr) (acc : option (tensor expr * tensor expr)) (t : tensor expr) : res (tensor expr * tensor expr) :=
  do _ <- assert_real_params t;
  do r <- rotate3 t;
  let rt := tmap ex r in
  do Ps <- dipole_source rt F_s;
  do Pp <- dipole_source rt (F_p theta);
  opt_add acc (tmap ex Pp) (tmap ex Ps).

Definition add_mee (theta : expr) (acc : option (tensor expr * tensor expr)) (t : tensor expr) : res (tensor expr * tensor expr) :=
  do _ <- assert_real_params t;
  do r <- rotate3 t;
  let rt := tmap ex r in
  do Ms <- magnetic_source (k_in theta) rt F_s;
  do Mp <- magnetic_source (k_in theta) rt (F_p theta);
  opt_add acc (tmap ex Mp) (tmap ex Ms).

Definition add_qee (theta : expr) (acc : option (tensor expr * tensor expr)) (t : tensor expr) : res (tensor expr * tensor expr) :=
  do _ <- assert_real_params t;
  do r <- rotate4 t;
  let rt := tmap ex r in
  do Qs <- quadrupole_source rt (k_in theta) F_s;
  do Qp <- quadrupole_source rt (k_in theta) (F_p theta);
  opt_add acc (tmap ex (tscale EI Qp)) (tmap ex (tscale EI Qs)).

Definition when {A B} (f : option A -> B -> res A) (acc : option A) (t : option B) : res (option A) :=
  match t with
  | None => Ok acc
  | Some t => do a <- f acc t; Ok (Some a)
  end.

(** formgen.py 224-303 ([gen_S]), returning (Sp, Ss) *)
Definition gen_S (theta : expr) (t_eee t_mee t_qee : option (tensor expr)) : res (tensor expr * tensor expr) :=
  do acc <- when (add_eee theta) None t_eee;
  do acc <- when (add_mee theta) acc t_mee;
  do acc <- when (add_qee theta) acc t_qee;
  match acc with
  | None => Raise ValueError
  | Some (Sp, Ss) =>
      do Ss' <- project theta Ss;
      do Sp' <- project theta Sp;
      Ok (tmap ex Sp', tmap ex Ss')
  end.

(** [v[i]] of a vector *)
Definition entry_of (v : tensor expr) (i : nat) : res expr :=
  match shape v with
  | [n] => if i <? n then Ok (at_ v [i]) else Raise IndexError
  | _ => Raise IndexError
  end.

(** [f(v[i]*sp.conjugate(v[i]))] *)
Definition square_of (f : expr -> expr) (v : tensor expr) (i : nat) : res expr :=
  do e <- entry_of v i; Ok (f (ev (EMul [e; conjugate e]))).

(** formgen.py 332-337, 397-401, 478-482 and 89-94: the four intensities *)
Definition intensities (f : expr -> expr) (Sp Ss : tensor expr) : res (dict string expr) :=
  do p0 <- square_of f Sp 0;
  do p2 <- square_of f Sp 2;
  do p1 <- square_of f Sp 1;
  do s0 <- square_of f Ss 0;
  do s2 <- square_of f Ss 2;
  do s1 <- square_of f Ss 1;
  form_construct [(KStr "PP", Some (ev (EAdd [p0; p2]))); (KStr "PS", Some p1);
                  (KStr "SP", Some (ev (EAdd [s0; s2]))); (KStr "SS", Some s1)].

(** formgen.py 306-337 ([formgen]) *)
Definition formgen (theta : expr) (t_eee t_mee t_qee : option (tensor expr)) : res (dict string expr) :=
  do (Sp, Ss) <- gen_S theta t_eee t_mee t_qee;
  intensities ex Sp Ss.

(** ** Deprecated generators *)

(** What the deprecated functions pass around: an array or the integer 0. *)
Inductive operand := OTensor (t : tensor expr) | OZero.

(** [_assert_real_params(0)] calls a method the integer does not have *)
Definition assert_real_operand (o : operand) : res unit :=
  match o with OTensor t => assert_real_params t | OZero => Raise AttributeError end.

(** formgen.py 121-146 (without the check; also 369-394): P *)
Definition dipole_parts (theta : expr) (t1 : tensor expr) : res (tensor expr * tensor expr) :=
  do rt <- rotate3 t1;
  do Ps <- dipole_source rt F_s;
  do Pp <- dipole_source rt (F_p theta);
  do Ps' <- project theta Ps;
  do Pp' <- project theta Pp;
  Ok (Pp', Ps').

(** formgen.py 180-220, 435-475: P and Q *)
Definition quadrupole_parts (theta : expr) (t1 t2 : tensor expr)
  : res (tensor expr * tensor expr * tensor expr * tensor expr) :=
  do rt <- rotate3 t1;
  do rq <- rotate4 t2;
  do Ps <- dipole_source rt F_s;
  do Pp <- dipole_source rt (F_p theta);
  do Qs <- quadrupole_source rq (k_in theta) F_s;
  do Qp <- quadrupole_source rq (k_in theta) (F_p theta);
  do Ps' <- project theta Ps;
  do Pp' <- project theta Pp;
  do Qs' <- project theta Qs;
  do Qp' <- project theta Qp;
  Ok (Pp', Ps', Qp', Qs').

(** formgen.py 97-148 ([gen_P_just_dipole]) *)
Definition gen_P_just_dipole (t1 : tensor expr) (theta : expr) : res (operand * operand * operand * operand) :=
  do _ <- assert_real_params t1;
  do (Pp, Ps) <- dipole_parts theta t1;
  Ok (OTensor Pp, OTensor Ps, OZero, OZero).

(** formgen.py 151-221 ([gen_P_dipole_quadrupole]) *)
Definition gen_P_dipole_quadrupole (t1 t2 : tensor expr) (theta : expr) : res (operand * operand * operand * operand) :=
  do _ <- assert_real_params t1;
  do _ <- assert_real_params t2;
  do (Pp, Ps, Qp, Qs) <- quadrupole_parts theta t1 t2;
  Ok (OTensor Pp, OTensor Ps, OTensor Qp, OTensor Qs).

(** [P + sp.I*Q] *)
Definition plus_I (P Q : operand) : res (tensor expr) :=
  match P, Q with
  | OTensor p, OTensor q => tadd p (tscale EI q)
  | _, _ => Raise TypeError
  end.

(** formgen.py 57-94 ([make_form_from_P_and_Q]).  [plus_I] never sees the
    integer 0: the checks have refused it. *)
Definition make_form_from_P_and_Q (Pp Ps Qp Qs : operand) : res (dict string expr) :=
  do _ <- assert_real_operand Pp;
  do _ <- assert_real_operand Ps;
  do _ <- assert_real_operand Qp;
  do _ <- assert_real_operand Qs;
  do Sp <- plus_I Pp Qp;
  do Ss <- plus_I Ps Qs;
  intensities (fun e => e) Sp Ss.

(** formgen.py 340-401 ([formgen_just_dipole]) *)
Definition formgen_just_dipole (t1 : tensor expr) (theta : expr) : res (dict string expr) :=
  do _ <- assert_real_params t1;
  do (Pp, Ps) <- dipole_parts theta t1;
  intensities (fun e => e) Pp Ps.

(** formgen.py 404-482 ([formgen_dipole_quadrupole]) *)
Definition formgen_dipole_quadrupole (t1 t2 : tensor expr) (theta : expr) : res (dict string expr) :=
  do _ <- assert_real_params t1;
  do _ <- assert_real_params t2;
  match is_real theta with
  | Some true =>
      do (Pp, Ps, Qp, Qs) <- quadrupole_parts theta t1 t2;
      do Sp <- tadd Pp (tscale EI Qp);
      do Ss <- tadd Ps (tscale EI Qs);
      intensities (fun e => e) Sp Ss
  | _ => Raise ValueError
  end.

End Formgen.
