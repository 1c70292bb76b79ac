(** Model of shgpy/core/utilities.py: particularisation, substitution of
    parameters, rotation matrices, union. *)
From Coq Require Import String Ascii List Arith Bool ZArith QArith Reals.
Import ListNotations.
From Coquelicot Require Import Complex.
From Verif Require Import PyBase RMod CBase Expr TensorModel.
Local Open Scope nat_scope.

(** ** union, utilities.py 292-299 *)
Definition union {K} `{Eqb K} (arrays : list (list K)) : list K :=
  fold_left (fun ans y =>
    fold_left (fun ans x => if existsb (eqb x) ans then ans else (ans ++ [x])%list) y ans) arrays [].

(** ** Expressions as entries of arrays *)
#[global] Instance Sig_expr : Sig expr :=
  {| zero := num 0; one := num 1; add := fun a b => EAdd [a; b]; mul := fun a b => EMul [a; b] |}.

Section Particularize.
  (** [sympy.solvers.solve(eqs, dict=True, exclude=exclude)]: a list of
      solutions; any function is allowed here. *)
  Variable solve : list expr -> list sym -> list (list (sym * expr)).

  Definition apply_sol (t : tensor expr) (sol : list (sym * expr)) : tensor expr := tmap (subs_dict sol) t.

  (** [len(tensor[0])]: an array without a second axis has no length there. *)
  Definition second_dim (t : tensor expr) : res nat :=
    match shape t with
    | 0 :: _ => Raise IndexError
    | _ :: d :: _ => Ok d
    | _ => Raise TypeError
    end.

  (** utilities.py 10-18 ([_swap_last_two_indices]): the last two indices always
      run over [range(3)], the others over the second dimension; entries that the
      loops do not reach stay 0. *)
  Definition swap_last_two (t : tensor expr) : res (tensor expr) :=
    do dim <- second_dim t;
    let r := rank t in
    if forallb (fun d => dim <=? d) (firstn (r - 2) (shape t)) && forallb (fun d => 3 <=? d) (skipn (r - 2) (shape t)) then
      Ok (mkT (shape t) (fun i =>
        match rev i with
        | b :: a :: rest =>
            if forallb (fun x => x <? dim) rest && (a <? 3) && (b <? 3)
            then at_ t (rev rest ++ [b; a])%list else num 0
        | _ => num 0
        end))
    else Raise IndexError.

  (** [np.array_equal] *)
  Definition arr_eqb (t u : tensor expr) : bool :=
    (if list_eq_dec Nat.eq_dec (shape t) (shape u) then true else false)
    && forallb (fun i => expr_eqb (at_ t i) (at_ u i)) (indices (shape t)).

  (** [sols[0]] *)
  Definition first_sol {X} (sols : list X) : res X :=
    match sols with s :: _ => Ok s | [] => Raise IndexError end.

  (** utilities.py 8-31 ([_particularize_last_two]) *)
  Definition particularize_last_two (t : tensor expr) (exclude : list sym) : res (tensor expr) :=
    do t2 <- swap_last_two t;
    if arr_eqb t2 t then Ok t else
      do sol <- first_sol (solve (map (fun i => esub (at_ t i) (at_ t2 i)) (indices (shape t))) exclude);
      Ok (apply_sol t sol).

  (** [itertools.permutations] *)
  Fixpoint insert_all (x : nat) (l : list nat) : list (list nat) :=
    match l with
    | [] => [[x]]
    | y :: l' => (x :: l) :: map (cons y) (insert_all x l')
    end.
  Fixpoint permutations (l : list nat) : list (list nat) :=
    match l with
    | [] => [[]]
    | x :: l' => flat_map (insert_all x) (permutations l')
    end.

  (** utilities.py 34-49 ([_particularize_all]) *)
  Definition particularize_all (t : tensor expr) (exclude : list sym) : res (tensor expr) :=
    do dim <- second_dim t;
    if forallb (fun d => dim <=? d) (shape t) then
      let eqs := flat_map (fun i => map (fun j => esub (at_ t i) (at_ t j)) (permutations i))
                          (indices (repeat dim (rank t))) in
      do sol <- first_sol (solve eqs exclude);
      Ok (apply_sol t sol)
    else Raise IndexError.

  (** utilities.py 52-80 ([particularize]) *)
  Definition particularize (t : tensor expr) (exclude : list sym) (permute_all_indices : bool) : res (tensor expr) :=
    if permute_all_indices then particularize_all t exclude else particularize_last_two t exclude.
End Particularize.

(** ** Real parameters *)

(** [sp.symbols(text, real=True)] reads one name unless the text is empty or has
    a comma, a colon or a blank in it (control characters are counted as blanks). *)
Definition splits (c : ascii) : bool :=
  let n := nat_of_ascii c in ((n =? 44) || (n =? 58) || (n <=? 32))%nat.
Definition one_name (text : string) : bool :=
  match list_ascii_of_string text with [] => false | l => negb (existsb splits l) end.

Section Params.
  (** Iteration order over a python set. *)
  Variable set_order : list sym -> list sym.

  (** utilities.py 83-88, 91-96: the loop over the free symbols.  [subs] takes a
      string for the symbol of that name without assumptions. *)
  Definition replace_params (new : string -> expr) (e : expr) : expr :=
    fold_left (fun e fs =>
      match sreal fs with
      | None => subst (mksym (sname fs) None) (new (sname fs)) e
      | Some _ => e
      end) (set_order (free_symbols e)) e.

  (** The names [sp.symbols] is called with in the loop, for all entries.  Any
      other text gives a tuple of symbols or none, with which the loop does not
      go on (for make_tensor_real with a tuple it goes on to an entry that is no
      number; this is not followed). *)
  Definition names_ok (texts : string -> list string) (t : tensor expr) : bool :=
    forallb (fun s => match sreal s with None => forallb one_name (texts (sname s)) | Some _ => true end)
            (flat_map free_symbols (flatten t)).

  Definition complex_names (prefix suffix : string * string) (n : string) : list string :=
    [fst prefix ++ n ++ fst suffix; snd prefix ++ n ++ snd suffix]%string.
  Definition complex_param (prefix suffix : string * string) (n : string) : expr :=
    EAdd [ESym (mksym (fst prefix ++ n ++ fst suffix)%string (Some true));
          EMul [EI; ESym (mksym (snd prefix ++ n ++ snd suffix)%string (Some true))]].
  Definition real_param (n : string) : expr := ESym (mksym n (Some true)).

  (** utilities.py 99-127 ([make_tensor_complex]); flatten, convert, reshape *)
  Definition make_tensor_complex (prefix suffix : string * string) (t : tensor expr) : res (tensor expr) :=
    if names_ok (complex_names prefix suffix) t then Ok (tmap (replace_params (complex_param prefix suffix)) t)
    else Raise TypeError.

  (** utilities.py 130-152 ([make_tensor_real]) *)
  Definition make_tensor_real (t : tensor expr) : res (tensor expr) :=
    if names_ok (fun n => [n]) t then Ok (tmap (replace_params real_param) t) else Raise TypeError.

  (** utilities.py 350-361 ([_free_symbols_of_array], [_assert_real_params]) *)
  Definition assert_real_params (t : tensor expr) : res unit :=
    if forallb (fun s => match sreal s with Some true => true | _ => false end)
               (flat_map free_symbols (flatten t))
    then Ok tt else Raise ValueError.
End Params.

(** ** Rotations *)
Definition vec : Type := R * R * R.
Definition mat : Type := vec * vec * vec.

Definition vmap (f : R -> R) (v : vec) : vec := let '(x, y, z) := v in (f x, f y, f z).

(** An axis is an array of floats or an array of integers: assigning a float to
    an entry of an integer array truncates it. *)
Inductive vdtype := VFloat | VInt.
Definition vcast (dt : vdtype) (x : R) : R := match dt with VFloat => x | VInt => rtrunc x end.

Local Open Scope R_scope.

(** utilities.py 231-232, 235-236 ([_norm], [_normsymb]) *)
Definition vnorm (v : vec) : R := let '(x, y, z) := v in sqrt (x ^ 2 + y ^ 2 + z ^ 2).

(** The three rows of utilities.py 174-177 and 201-204. *)
Definition rot_rows (n : vec) (c s : R) : mat :=
  let '(nx, ny, nz) := n in
  ((c + nx ^ 2 * (1 - c), nx * ny * (1 - c) - nz * s, nx * nz * (1 - c) + ny * s),
   (ny * nx * (1 - c) + nz * s, c + ny ^ 2 * (1 - c), ny * nz * (1 - c) - nx * s),
   (nz * nx * (1 - c) - ny * s, nz * ny * (1 - c) + nx * s, c + nz ^ 2 * (1 - c))).

(** utilities.py 155-178 ([rotation_matrix3]): returns the axis array as it is
    left behind and the matrix.  A zero axis divides by zero. *)
Definition rotation_matrix3 (dt : vdtype) (n : vec) (t : R) : res (vec * mat) :=
  let m := vnorm n in
  if Req_EM_T m 0 then Raise NonFinite else
    let n' := vmap (fun x => vcast dt (x / m)) n in
    Ok (n', rot_rows n' (cos t) (sin t)).

(** utilities.py 208-219 ([_levi_civita]) *)
Definition levi_civita (i j k : nat) : Z :=
  match i, j, k with
  | 0%nat, 1%nat, 2%nat | 1%nat, 2%nat, 0%nat | 2%nat, 0%nat, 1%nat => 1
  | 1%nat, 0%nat, 2%nat | 0%nat, 2%nat, 1%nat | 2%nat, 1%nat, 0%nat => -1
  | _, _, _ => 0
  end%Z.

Definition vget (v : vec) (i : nat) : R :=
  let '(x, y, z) := v in match i with 0%nat => x | 1%nat => y | _ => z end.

(** utilities.py 222-228 ([_cross_product]) *)
Definition cross_product (v1 v2 : vec) : vec :=
  let comp i := fold_left (fun acc jk => acc + IZR (levi_civita i (fst jk) (snd jk)) * vget v1 (fst jk) * vget v2 (snd jk))
                  (list_prod (seq 0 3) (seq 0 3)) 0 in
  (comp 0%nat, comp 1%nat, comp 2%nat).

Definition dot (a b : vec) : R :=
  let '(x, y, z) := a in let '(x', y', z') := b in x * x' + y * y' + z * z'.
Definition apply (m : mat) (v : vec) : vec := let '(r1, r2, r3) := m in (dot r1 v, dot r2 v, dot r3 v).

Definition ident : mat := ((1, 0, 0), (0, 1, 0), (0, 0, 1)).
Definition neg_ident : mat := ((-1, 0, 0), (0, -1, 0), (0, 0, -1)).

Definition vec_eqb (a b : vec) : bool :=
  let '(x, y, z) := a in let '(x', y', z') := b in Reqb x x' && Reqb y y' && Reqb z z'.

(** [round(x, ndigits)]: nearest multiple of 10^-ndigits, ties to even. *)
Definition round_half_even (x : R) : Z :=
  let f := Int_part x in
  let r := x - IZR f in
  if Rlt_dec r (/ 2) then f else if Rlt_dec (/ 2) r then (f + 1)%Z
  else if Z.even f then f else (f + 1)%Z.
Definition round_digits (ndigits : nat) (x : R) : R := IZR (round_half_even (x * 10 ^ ndigits)) / 10 ^ ndigits.

Definition mmap (f : R -> R) (m : mat) : mat := let '(r1, r2, r3) := m in (vmap f r1, vmap f r2, vmap f r3).

(** The precision check of utilities.py 279 and 282: [False in check]. *)
Definition check_fails (m : mat) (v w : vec) (accuracy : R) : bool :=
  let '(a, b, c) := apply m v in
  let '(x, y, z) := w in
  negb (Rltb (a - x) accuracy && Rltb (b - y) accuracy && Rltb (c - z) accuracy).

(** utilities.py 239-289 ([rotation_matrix_from_two_vectors]) before rounding;
    the inputs are converted to float copies first.  The warning is a message. *)
Definition two_vectors_raw (v_initial v_final : vec) (accuracy : R) : res mat :=
  let mi := vnorm v_initial in
  let mf := vnorm v_final in
  if Req_EM_T mi 0 then Raise NonFinite else if Req_EM_T mf 0 then Raise NonFinite else
  let vi := vmap (fun x => x / mi) v_initial in
  let vf := vmap (fun x => x / mf) v_final in
  let cos_theta := dot vi vf in
  let mag_theta := acos cos_theta in
  let axis := cross_product vi vf in
  if vec_eqb axis (0, 0, 0) && vec_eqb (vmap Ropp vi) vf then Ok neg_ident
  else if vec_eqb axis (0, 0, 0) && vec_eqb vi vf then Ok ident
  else
    do (axis', ans) <- rotation_matrix3 VFloat axis mag_theta;
    let mag_axis := vnorm axis' in
    let axis'' := vmap (fun x => x / mag_axis) axis' in
    if check_fails ans vi vf accuracy then
      do (_, ans') <- rotation_matrix3 VFloat axis'' (- mag_theta);
      Ok ans'
    else Ok ans.

Definition rotation_matrix_from_two_vectors (v_initial v_final : vec) (accuracy : R) (ndigits : nat) : res mat :=
  do m <- two_vectors_raw v_initial v_final accuracy;
  Ok (mmap (round_digits ndigits) m).
