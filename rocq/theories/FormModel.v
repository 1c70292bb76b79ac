(** Model of the symbolic containers and of the conversions between formulas,
    Fourier formulas and data: shgpy/core/_fourier_transform.py (whole file) and
    shgpy/core/data_handler.py 678-1125, 1164-1399, 1633-1671.  Definitions only.

    Simplifications: numbers inside expressions are rational (every float is);
    powers have non-negative integer exponents; M is a natural number; entries of
    object arrays are python numbers, sympy expressions, or objects that sympify
    refuses; an array of python integers is assumed to fit numpy's int64.
    [ev] stands for the automatic evaluation sympy performs whenever it builds an
    expression (for instance 0*x becomes 0); what is required of it is stated in
    SpecForm. *)
From Coq Require Import String List ZArith QArith Qreals Reals Bool.
From Coquelicot Require Import Complex.
From Verif Require Import PyBase RMod CBase DataModel FDataModel Expr LookupTable.
Import ListNotations.
Local Open Scope string_scope.
Local Open Scope nat_scope.

(** shg_symbols.py:5 *)
Definition phi : sym := mksym "phi" (Some true).
Definition cos_phi : expr := ECos (ESym phi).
Definition sin_phi : expr := ESin (ESym phi).

(** [S.phi in e.free_symbols], [e.has(S.phi)] *)
Definition has_phi (e : expr) : bool := existsb (sym_eqb phi) (syms e).

(** [e.args] *)
Definition args (e : expr) : list expr :=
  match e with
  | ENum _ _ | ESym _ => []
  | EAdd l | EMul l => l
  | EPow b n => [b; num (inject_Z (Z.of_nat n))]
  | ECos x | ESin x | EConj x | ERe x | EIm x => [x]
  end.

(** [sp.Mul( *l )] on factors that depend on phi: equal bases are merged. *)
Definition base_exp (e : expr) : expr * nat := match e with EPow b n => (b, n) | _ => (e, 1) end.
Fixpoint add_power (b : expr) (n : nat) (d : list (expr * nat)) : list (expr * nat) :=
  match d with
  | [] => [(b, n)]
  | (b', k) :: d' => if expr_eqb b b' then (b', k + n) :: d' else (b', k) :: add_power b n d'
  end.
Definition powers (l : list expr) : list (expr * nat) :=
  fold_left (fun d e => add_power (fst (base_exp e)) (snd (base_exp e)) d) l [].
Definition pw (p : expr * nat) : expr := if Nat.eqb (snd p) 1 then fst p else EPow (fst p) (snd p).
Definition from_powers (d : list (expr * nat)) : expr :=
  match filter (fun p => negb (Nat.eqb (snd p) 0)) d with
  | [] => num 1
  | [p] => pw p
  | ps => EMul (map pw ps)
  end.
Definition smul (l : list expr) : expr := from_powers (powers l).

(** [==] of two products: sympy sorts the factors, so their order is irrelevant. *)
Definition mul_eqb (a b : expr) : bool :=
  match a, b with
  | EMul l, EMul l' => Nat.eqb (length l) (length l') && forallb (fun x => existsb (expr_eqb x) l') l
  | _, _ => expr_eqb a b
  end.

(** _get_keyterms, _fourier_transform.py:21-41 *)
Definition keyterm_factors (e : expr) : list expr :=
  flat_map (fun a => if has_phi a then match a with EPow b n => repeat b n | _ => [a] end else []) (args e).
Fixpoint set_of (l : list expr) : list expr :=
  match l with
  | [] => []
  | x :: l' => let r := set_of l' in if existsb (mul_eqb x) r then r else x :: r
  end.
Definition get_keyterms (e : expr) : list expr :=
  set_of (match e with
          | EMul _ => [smul (keyterm_factors e)]
          | EAdd l => map (fun a => smul (keyterm_factors a)) l
          | _ => [e]
          end).

(** _get_code, _fourier_transform.py:44-66 *)
Definition is_sin (e : expr) : bool := match e with ESin _ => true | _ => false end.
Definition is_cos (e : expr) : bool := match e with ECos _ => true | _ => false end.
Definition code_step (cs : nat * nat) (arg : expr) : nat * nat :=
  let (c, s) := cs in
  match arg with
  | EPow b n => if is_sin b then (c, s + n) else if is_cos b then (c + n, s) else (c, s)
  | _ => if is_sin arg then (c, s + 1) else if is_cos arg then (c + 1, s) else (c, s)
  end.
Definition get_code (e : expr) : nat * nat :=
  match e with
  | EMul l => fold_left code_step l (0, 0)
  | EPow b n => if is_sin b then (0, n) else if is_cos b then (n, 0) else (0, 0)
  | _ => (0, 0)
  end.

Definition code_eqb (a b : nat * nat) : bool := Nat.eqb (fst a) (fst b) && Nat.eqb (snd a) (snd b).
Lemma code_eqb_spec a b : reflect (a = b) (code_eqb a b).
Proof.
  destruct a as [a1 a2], b as [b1 b2]; unfold code_eqb; simpl.
  destruct (Nat.eqb_spec a1 b1); destruct (Nat.eqb_spec a2 b2); simpl; constructor; congruence.
Qed.
#[global] Instance Eqb_code : Eqb (nat * nat) := {| eqb := code_eqb; eqb_spec := code_eqb_spec |}.

(** [mapping], _fourier_transform.py:75-81: the component n (table position
    n + 16, python indexing) of every code, by monomial. *)
Definition monomial_key (code : nat * nat) : expr := smul [EPow cos_phi (fst code); EPow sin_phi (snd code)].
Definition relevant_codes (n : Z) : res (list ((nat * nat) * (Q * Q))) :=
  dmapM (fun row => py_nth row (n + 16)%Z) lookup_table.
Fixpoint mapping_get (e : expr) (m : list ((nat * nat) * (Q * Q))) : res (Q * Q) :=
  match m with
  | [] => Raise KeyError
  | (code, v) :: m' => if mul_eqb e (monomial_key code) then Ok v else mapping_get e m'
  end.

(** What an entry of an object array is: a python number, a sympy expression,
    something sympify refuses. *)
Inductive entry := PyNum (re im : Q) | SymE (e : expr) | Junk.

(** FormContainer's dictionary, and parameter dictionaries {symbol: number}. *)
Notation form := (dict string expr) (only parsing).
Notation params := (dict sym (prod Q Q)) (only parsing).

(** Automatic evaluation (see above). *)
Section Ev.
Variable ev : expr -> expr.

(** _fourier_transform, _fourier_transform.py:69-106.  In the last branch
    expr/keyterm*ftval: the powers of expr containing phi cancel against those of
    keyterm, leaving the other factors. *)
Definition transform_summand (m : list ((nat * nat) * (Q * Q))) (arg : expr) : res expr :=
  let dep := filter has_phi (args arg) in
  let indep := filter (fun a => negb (has_phi a)) (args arg) in
  do ft <- mapping_get (smul dep) m;
  Ok (EMul (indep ++ [ENum (fst ft) (snd ft)])).
Definition fourier_transform (e : expr) (n : Z) : res entry :=
  if negb (has_phi e) then
    if (n =? 0)%Z then Ok (SymE e) else Ok (PyNum 0 0)
  else
    match e with
    | EAdd l =>
        do m <- relevant_codes n;
        do l' <- mapM (transform_summand m) l;
        Ok (SymE (ev (EAdd l')))
    | _ =>
        match get_keyterms e with
        | [keyterm] =>
            do row <- dgetr (get_code keyterm) lookup_table;
            do ft <- py_nth row (n + 16)%Z;
            if negb (Qeq_bool (fst ft) 0 && Qeq_bool (snd ft) 0) then
              let rest := match e with EMul l => filter (fun a => negb (has_phi a)) l | _ => [] end in
              Ok (SymE (ev (EMul (rest ++ [ENum (fst ft) (snd ft)]))))
            else Ok (PyNum 0 0)
        | _ => Raise AssertionError
        end
    end.

(** * fFormContainer, data_handler.py:678-892 *)

(** One array: is its dtype object, and the entries after sympify. *)
Record row := mkrow { r_obj : bool; r_cells : list expr }.
Record fform := mkff { ff_rows : dict string row; ff_M : nat }.

(** Values of the defining iterable. *)
Inductive oval := OArr (obj : bool) (ndim : nat) (l : list entry) | ONotArr.

(** _check_defining_iterable, data_handler.py:717-728 *)
Definition good_oval (M : nat) (v : oval) : bool :=
  match v with
  | OArr obj ndim l => Nat.eqb ndim 1 && Nat.eqb (length l) (2 * M + 1) && obj
  | ONotArr => false
  end.
Definition ocheck (M : nat) (d : dict pykey oval) : res unit :=
  if forallb good_key (dkeys d) && forallb (good_oval M) (dvals d) then Ok tt else Raise ValueError.

(** sp.sympify on an entry *)
Definition sympify (x : entry) : res expr :=
  match x with PyNum a b => Ok (ENum a b) | SymE e => Ok e | Junk => Raise ValueError end.
Definition is_pynum (x : entry) : bool := match x with PyNum _ _ => true | _ => false end.

(** _copy_iterable and _sympify, data_handler.py:710-715, 730-733:
    np.array([s for s in v]) has a numeric dtype when every entry is a number,
    and then stays numeric. *)
Definition copy_row (v : oval) : res row :=
  match v with
  | OArr _ _ l => do cells <- mapM sympify l; Ok (mkrow (negb (forallb is_pynum l)) cells)
  | ONotArr => Raise ValueError
  end.

(** __init__, data_handler.py:699-703 *)
Definition ff_construct (it : list (pykey * oval)) (M : nat) : res fform :=
  let d := dict_of it in
  do _ <- ocheck M d;
  do rows <- dmapM copy_row d;
  Ok (mkff (map (fun kr => (key_str (fst kr), snd kr)) rows) M).

(** The arrays of a container handed to a constructor (get_items, 868-880). *)
Definition row_oval (r : row) : oval :=
  OArr (r_obj r) 1 (map (fun e => if r_obj r then SymE e else
                                  match e with ENum a b => PyNum a b | _ => SymE e end) (r_cells r)).
Definition ff_items (F : fform) : list (pykey * oval) :=
  map (fun kr => (KStr (fst kr), row_oval (snd kr))) (ff_rows F).

(** copy, data_handler.py:705-708 *)
Definition ff_copy (F : fform) : res fform := ff_construct (ff_items F) (ff_M F).

Definition ff_get_keys (F : fform) : list string := dkeys (ff_rows F).
Definition ff_get_pc (F : fform) (k : string) : res (list expr) :=
  do r <- dgetr k (ff_rows F); Ok (r_cells r).

(** [list(set(l))] then [sort(key=str)]; symbols of the same name keep the order
    of the set. *)
Fixpoint insert_sym (x : sym) (l : list sym) : list sym :=
  match l with
  | [] => [x]
  | y :: l' => if String.leb (sname x) (sname y) then x :: y :: l' else y :: insert_sym x l'
  end.
Fixpoint sort_syms (l : list sym) : list sym :=
  match l with [] => [] | x :: l' => insert_sym x (sort_syms l') end.
Definition symbol_list (es : list expr) : list sym := sort_syms (nodup sym_eq_dec (flat_map syms es)).

(** Numeric arrays hold numpy numbers, which have no attribute free_symbols or
    subs. *)
Definition all_cells (rows : dict string row) : res (list expr) :=
  if forallb (fun kr => r_obj (snd kr)) rows then Ok (flat_map (fun kr => r_cells (snd kr)) rows)
  else Raise AttributeError.

(** get_free_symbols, data_handler.py:735-744 *)
Definition ff_free_symbols (F : fform) : res (list sym) :=
  do es <- all_cells (ff_rows F); Ok (symbol_list es).

(** [e.subs(subs_array)] *)
Definition subs_seq (sa : list (sym * expr)) (e : expr) : expr :=
  fold_left (fun e xr => ev (subst (fst xr) (snd xr) e)) sa e.

Definition map_rows (f : Z -> expr -> expr) (F : fform) : fform :=
  mkff (dmap (fun r => mkrow true (map (fun mc => f (fst mc) (snd mc)) (combine (freqs (ff_M F)) (r_cells r))))
             (ff_rows F)) (ff_M F).

(** subs, data_handler.py:746-760 *)
Definition ff_subs (F : fform) (sa : list (sym * expr)) : res fform :=
  do _ <- all_cells (ff_rows F);
  Ok (map_rows (fun _ e => subs_seq sa e) F).

Definition zexpr (m : Z) : expr := num (inject_Z m).
(** cos(m*x) + 1j*sin(m*x) *)
Definition cis_expr (m : Z) (x : expr) : expr :=
  EAdd [ECos (EMul [zexpr m; x]); EMul [EI; ESin (EMul [zexpr m; x])]].

(** apply_phase_shift, data_handler.py:762-779 *)
Definition ff_phase_shift (F : fform) (a : expr) : fform :=
  map_rows (fun m e => ev (EMul [e; cis_expr m a])) F.

(** apply_arbitrary_scale, data_handler.py:890-892 *)
Definition ff_scale (F : fform) (s : expr) : fform := map_rows (fun _ e => ev (EMul [s; e])) F.

(** * FormContainer, data_handler.py:895-1092 *)

(** _check_defining_iterable, _sympify and __init__, data_handler.py:918-921,
    933-937, 970-984; [None]: a value sympify refuses. *)
Definition form_construct (it : list (pykey * option expr)) : res form :=
  let d := dict_of it in
  if forallb good_key (dkeys d) then
    do d' <- dmapM (fun v => match v with Some e => Ok e | None => Raise ValueError end) d;
    Ok (map (fun kv => (key_str (fst kv), snd kv)) d')
  else Raise ValueError.
Definition form_items (f : form) : list (pykey * option expr) :=
  map (fun kv => (KStr (fst kv), Some (snd kv))) f.
(** copy, data_handler.py:923-925 *)
Definition form_copy (f : form) : res form := form_construct (form_items f).
(** get_free_symbols, data_handler.py:933-940 *)
Definition form_free_symbols (f : form) : list sym := symbol_list (dvals f).
(** subs, data_handler.py:942-953 *)
Definition form_subs (f : form) (sa : list (sym * expr)) : form := dmap (subs_seq sa) f.
(** apply_phase_shift, data_handler.py:955-969 *)
Definition form_phase_shift (f : form) (a : expr) (x : sym) : form := form_subs f [(x, ev (EAdd [ESym x; a]))].
(** get_pc, data_handler.py:1074-1088 *)
Definition form_get_pc (f : form) (k : string) : res expr := dgetr k f.
(** apply_arbitrary_scale, data_handler.py:1090-1092 *)
Definition form_scale (f : form) (s : expr) : form := dmap (fun e => ev (EMul [s; e])) f.

(** * Conversions *)

Definition number (q : Q * Q) : expr := ENum (fst q) (snd q).

(** [v.astype(complex)]: every entry must have become a number. *)
Definition to_complex (e : expr) : res C :=
  match syms e with [] => Ok (eval (fun _ => RtoC 0) e) | _ => Raise TypeError end.

(** fform_to_fdat, data_handler.py:1103-1129: the rebuilt container has the
    default order 16. *)
Definition fform_to_fdat (F : fform) (d : params) : res fdat :=
  do ss <- ff_free_symbols F;
  do sa <- mapM (fun s => do v <- dgetr s d; Ok (s, number v)) ss;
  do G <- ff_construct (ff_items F) 16;
  do H <- ff_subs G sa;
  do it <- dmapM (fun r => mapM to_complex (r_cells r)) (ff_rows H);
  fconstruct (fitems it) (ff_M H).

(** fform_to_dat, data_handler.py:1164-1189 *)
Definition fform_to_dat (F : fform) (d : params) (n : nat) : res dat :=
  do fd <- fform_to_fdat F d; fdat_to_dat fd n.

(** fform_to_form, _formula_from_fexpr, data_handler.py:1192-1222 *)
Definition formula_from_fexpr (M : nat) (t : list expr) : expr :=
  ev (EAdd (map (fun mc => EMul [snd mc; cis_expr (fst mc) (ESym phi)]) (combine (freqs M) t))).
Definition fform_to_form (F : fform) : res form :=
  form_construct (map (fun kr => (KStr (fst kr), Some (formula_from_fexpr (ff_M F) (r_cells (snd kr))))) (ff_rows F)).

(** form_to_dat, data_handler.py:1238-1276 *)
Definition form_to_dat (f : form) (d : params) (n : nat) : res dat :=
  do g <- form_construct (form_items f);
  let h := form_subs g (dmap number d) in
  match form_free_symbols h with
  | [x] =>
      if sym_eqb x phi then
        let xs := grid n in
        construct (map (fun kv => (KStr (fst kv),
                     NDArray 2 DFloat [xs; map (fun x => Re (eval (fun _ => RtoC x) (snd kv))) xs])) h)
                  "radians" false
      else Raise ValueError
  | _ => Raise ValueError
  end.

(** form_to_fform, data_handler.py:1285-1312 *)
Definition form_to_fform (f : form) (M : nat) : res fform :=
  do rows <- dmapM (fun e => mapM (fourier_transform e) (freqs M)) f;
  ff_construct (map (fun kr => (KStr (fst kr), OArr true 1 (snd kr))) rows) M.

(** form_to_fdat, data_handler.py:1315-1338 *)
Definition form_to_fdat (f : form) (d : params) (M : nat) : res fdat :=
  do F <- form_to_fform f M; fform_to_fdat F d.

(** save_fform and load_fform, data_handler.py:1633-1671.  The file holds the
    pickled dictionary of arrays of strings; [srepr] and [parse] are sympy's
    printer and sympify on strings. *)
Section File.
Variable srepr : expr -> string.
Variable parse : string -> res expr.
Definition save_fform (F : fform) : dict string (list string) := dmap (fun r => map srepr (r_cells r)) (ff_rows F).
Definition load_fform (file : dict string (list string)) : res fform :=
  do rows <- dmapM (mapM parse) file;
  ff_construct (map (fun kr => (KStr (fst kr), OArr true 1 (map SymE (snd kr)))) rows) 16.
End File.

End Ev.

(** * merge_containers, data_handler.py:1341-1399 *)
Inductive container :=
| CDat (d : dat) | CFDat (f : fdat) | CForm (f : form) | CFForm (F : fform) | COther.

(** One container of the loop, for containers[0] of each type.  For data,
    get_items('radians') fails with TypeError on the three other classes, and
    get_items() fails with TypeError on data; the type test comes after the first
    item. *)
Definition no_items {A} (l : list A) {B} : res (list B) :=
  match l with [] => Ok [] | _ => Raise TypeError end.
Definition merge_dat_items (c : container) : res (list (string * pts)) :=
  match c with
  | CDat d => Ok (dc_data d)
  | COther => Raise AttributeError
  | _ => Raise TypeError
  end.
Definition merge_fdat_items (c : container) : res (list (string * list C)) :=
  match c with
  | CFDat f => Ok (fd_data f)
  | CForm f => no_items f
  | CFForm F => no_items (ff_rows F)
  | CDat _ => Raise TypeError
  | COther => Raise AttributeError
  end.
Definition merge_form_items (c : container) : res (list (string * expr)) :=
  match c with
  | CForm f => Ok f
  | CFDat f => no_items (fd_data f)
  | CFForm F => no_items (ff_rows F)
  | CDat _ => Raise TypeError
  | COther => Raise AttributeError
  end.
Definition merge_fform_items (c : container) : res (list (string * row)) :=
  match c with
  | CFForm F => Ok (ff_rows F)
  | CFDat f => no_items (fd_data f)
  | CForm f => no_items f
  | CDat _ => Raise TypeError
  | COther => Raise AttributeError
  end.

(** The (new key, value) pairs in the order the loop stores them. *)
Fixpoint merge_loop {V} (items : container -> res (list (string * V)))
    (mapping : string -> nat -> pykey) (i : nat) (cs : list container) : res (list (pykey * V)) :=
  match cs with
  | [] => Ok []
  | c :: cs' =>
      do l <- items c;
      do l' <- merge_loop items mapping (S i) cs';
      Ok (map (fun kv => (mapping (fst kv) i, snd kv)) l ++ l')%list
  end.

Definition merge_containers (cs : list container) (mapping : string -> nat -> pykey) : res container :=
  match cs with
  | [] => Raise IndexError
  | CDat _ :: _ =>
      do it <- merge_loop merge_dat_items mapping 0 cs;
      do d <- construct (map (fun kp => (fst kp, NDArray 2 DFloat [map fst (snd kp); map snd (snd kp)])) it)
                        "radians" false;
      Ok (CDat d)
  | CFDat _ :: _ =>
      do it <- merge_loop merge_fdat_items mapping 0 cs;
      do f <- fconstruct (map (fun kv => (fst kv, FArr true 1 (snd kv))) it) 16;
      Ok (CFDat f)
  | CForm _ :: _ =>
      do it <- merge_loop merge_form_items mapping 0 cs;
      do f <- form_construct (map (fun kv => (fst kv, Some (snd kv))) it);
      Ok (CForm f)
  | CFForm _ :: _ =>
      do it <- merge_loop merge_fform_items mapping 0 cs;
      do F <- ff_construct (map (fun kv => (fst kv, row_oval (snd kv))) it) 16;
      Ok (CFForm F)
  | COther :: _ => Raise TypeError
  end.
