(** Model of shgpy/fformfit.py: cost functions, compiled libraries, model
    functions, fits.  Definitions only.

    The C compiler and loader are not modelled: a shared library is the list of
    the expressions it was generated from and a call returns the sum of their
    real parts ([double autofunc] converts complex values to double).  A call
    whose expression has a symbol that is not an argument, or reads beyond the
    array it is given, is undefined behaviour in C: [None].
    [kev] is sympy's automatic evaluation.
    Simplifications: glob patterns are literal apart from the final star (keys
    without the characters star, question mark, bracket and slash); libraries
    already loaded by the process are not cached by name; the folder of a model
    can be created. *)
From Coq Require Import String Ascii List Arith ZArith Bool Reals QArith Qreals.
From Coq Require Import DecimalString DecimalZ DecimalNat.
From Coquelicot Require Import Complex.
Import ListNotations.
From Verif Require Import PyBase CBase Expr DataModel FDataModel FormModel.
Local Open Scope nat_scope.

(** Expressions in code generation: numbers are floats, [KVar i] is [xs[i]] of
    the MatrixSymbol [xs]. *)
Inductive code :=
| KNum (z : C)
| KSym (s : sym)
| KVar (i : nat)
| KAdd (l : list code)
| KMul (l : list code)
| KPow (b : code) (n : nat)
| KCos (e : code)
| KSin (e : code)
| KConj (e : code)
| KRe (e : code)
| KIm (e : code).

(** An expression of a formula as such. *)
Fixpoint embed (e : expr) : code :=
  match e with
  | ENum a b => KNum (Q2R a, Q2R b)
  | ESym s => KSym s
  | EAdd l => KAdd (map embed l)
  | EMul l => KMul (map embed l)
  | EPow b n => KPow (embed b) n
  | ECos e => KCos (embed e)
  | ESin e => KSin (embed e)
  | EConj e => KConj (embed e)
  | ERe e => KRe (embed e)
  | EIm e => KIm (embed e)
  end.

(** [e.xreplace(mapping)] for a mapping of symbols to elements of [xs]; the entry
    [sp.I -> 1j] does not change values *)
Fixpoint xreplace (mapping : list (sym * nat)) (e : code) : code :=
  match e with
  | KNum z => KNum z
  | KSym s => match dget s mapping with Some i => KVar i | None => KSym s end
  | KVar i => KVar i
  | KAdd l => KAdd (map (xreplace mapping) l)
  | KMul l => KMul (map (xreplace mapping) l)
  | KPow b n => KPow (xreplace mapping b) n
  | KCos e => KCos (xreplace mapping e)
  | KSin e => KSin (xreplace mapping e)
  | KConj e => KConj (xreplace mapping e)
  | KRe e => KRe (xreplace mapping e)
  | KIm e => KIm (xreplace mapping e)
  end.

(** Symbols and elements of [xs] that occur. *)
Fixpoint ksyms (e : code) : list sym :=
  match e with
  | KNum _ | KVar _ => []
  | KSym s => [s]
  | KAdd l | KMul l => flat_map ksyms l
  | KPow e _ | KCos e | KSin e | KConj e | KRe e | KIm e => ksyms e
  end.
Fixpoint kvars (e : code) : list nat :=
  match e with
  | KNum _ | KSym _ => []
  | KVar i => [i]
  | KAdd l | KMul l => flat_map kvars l
  | KPow e _ | KCos e | KSin e | KConj e | KRe e | KIm e => kvars e
  end.

(** The value computed, given symbols and array. *)
Fixpoint keval (rho : sym -> C) (xs : nat -> R) (e : code) : C :=
  match e with
  | KNum z => z
  | KSym s => rho s
  | KVar i => RtoC (xs i)
  | KAdd l => fold_right Cplus (RtoC 0) (map (keval rho xs) l)
  | KMul l => fold_right Cmult (RtoC 1) (map (keval rho xs) l)
  | KPow b n => Cpow (keval rho xs b) n
  | KCos e => Ccos (keval rho xs e)
  | KSin e => Csin (keval rho xs e)
  | KConj e => Cconj (keval rho xs e)
  | KRe e => RtoC (Re (keval rho xs e))
  | KIm e => RtoC (Im (keval rho xs e))
  end.

(** [sp.diff(e, xs[i])].  sympy does not know that the elements of [xs] are real:
    the derivative of a conjugate, real part or imaginary part of an expression
    with elements of [xs] stays unevaluated, [None]. *)
Fixpoint all_some {A} (l : list (option A)) : option (list A) :=
  match l with
  | [] => Some []
  | Some a :: l' => option_map (cons a) (all_some l')
  | None :: _ => None
  end.
Fixpoint kdiff (i : nat) (e : code) : option code :=
  match e with
  | KNum _ | KSym _ => Some (KNum (RtoC 0))
  | KVar j => Some (KNum (RtoC (if Nat.eqb i j then 1 else 0)))
  | KAdd l => option_map KAdd (all_some (map (kdiff i) l))
  | KMul l =>
      (fix go (l : list code) : option code :=
         match l with
         | [] => Some (KNum (RtoC 0))
         | a :: l' => match kdiff i a, go l' with
                      | Some da, Some r => Some (KAdd [KMul (da :: l'); KMul [a; r]])
                      | _, _ => None
                      end
         end) l
  | KPow b n => match n with
                | O => Some (KNum (RtoC 0))
                | S n' => option_map (fun d => KMul [KNum (RtoC (INR n)); KPow b n'; d]) (kdiff i b)
                end
  | KCos e => option_map (fun d => KMul [KNum (RtoC (-1)); KSin e; d]) (kdiff i e)
  | KSin e => option_map (fun d => KMul [KCos e; d]) (kdiff i e)
  | KConj e | KRe e | KIm e => match kvars e with [] => Some (KNum (RtoC 0)) | _ :: _ => None end
  end.

(** A shared library and a call of its [autofunc] with an array. *)
Notation library := (list code) (only parsing).
Definition callable (n : nat) (e : code) : bool :=
  match ksyms e with [] => forallb (fun i => i <? n) (kvars e) | _ :: _ => false end.
Definition at_xs (xs : list R) : nat -> R := fun i => nth i xs 0%R.
Definition call (lib : library) (xs : list R) : option R :=
  if forallb (callable (length xs)) lib
  then Some (fold_right Rplus 0%R (map (fun e => Re (keval (fun _ => RtoC 0) (at_xs xs) e)) lib))
  else None.

(** Decimal numerals ([str] of an integer). *)
Definition str (m : Z) : string := NilZero.string_of_int (Z.to_int m).
Definition strn (n : nat) : string := str (Z.of_nat n).

(** The file system: libraries by file name. *)
Notation files := (list (string * list code)) (only parsing).

Section Fit.
Variable kev : code -> code.

(** fformfit.py 44-54 ([_split]): [range(ceil(len(a)/num_per))], then up to
    [num_per] elements from [n*num_per] on; a negative size gives an empty range *)
Definition split {A} (a : list A) (num_per : Z) : res (list (list A)) :=
  if (num_per =? 0)%Z then Raise ZeroDivisionError
  else if (num_per <? 0)%Z then Ok []
  else let k := Z.to_nat num_per in
       Ok (map (fun n => firstn k (skipn (n * k) a)) (seq 0 ((length a + k - 1) / k))).

(** fformfit.py 57-62 ([_split_expr]) *)
Definition split_expr (e : code) (num_per : Z) : res (list code) :=
  match e with
  | KAdd l => do gs <- split l num_per; Ok (map KAdd gs)
  | _ => Ok [e]
  end.

(** [{fs: xs[i] for i, fs in enumerate(free_symbols)}] *)
Definition mapping (free : list sym) : list (sym * nat) := dict_of (combine free (seq 0 (length free))).

(** [free_symbols = fform.get_free_symbols()] unless given *)
Definition symbols_or (F : fform) (free : option (list sym)) : res (list sym) :=
  match free with Some l => Ok l | None => ff_free_symbols F end.

(** fformfit.py 94-97, 116-121: the terms, polarization by polarization *)
Definition term (F : fform) (D : fdat) (mp : list (sym * nat)) (k : string) (m : Z) : res code :=
  do fr <- ff_get_pc F k;
  do e <- py_nth fr (m + Z.of_nat (ff_M F))%Z;
  do dr <- fget_pc D k;
  do d <- py_nth dr (m + Z.of_nat (ff_M F))%Z;
  let expr0 := kev (KAdd [embed e; KMul [KNum (RtoC (-1)); KNum d]]) in
  Ok (kev (xreplace mp (kev (KMul [expr0; kev (KConj expr0)])))).
Definition terms (F : fform) (D : fdat) (free : option (list sym)) : res (list code * nat) :=
  do l <- symbols_or F free;
  do ts <- mapM (fun km => term F D (mapping l) (fst km) (snd km))
             (list_prod (ff_get_keys F) (freqs (ff_M F)));
  Ok (ts, length l).

(** fformfit.py 82-101 ([_make_energy_expr]) *)
Definition energy_expr (F : fform) (D : fdat) (free : option (list sym)) : res (code * nat) :=
  do (ts, n) <- terms F D free;
  Ok (fold_left (fun acc t => kev (KAdd [acc; t])) ts (KNum (RtoC 0)), n).

(** fformfit.py 128-131 ([_make_denergy_expr]); the first free symbol is [xs]
    unless a symbol was left *)
Definition denergy_expr (e : code) (n : nat) : res (list (option code)) :=
  match ksyms e, kvars e with
  | _ :: _, _ => Raise AttributeError
  | [], [] => Raise IndexError
  | [], _ :: _ => Ok (map (fun i => option_map kev (kdiff i e)) (seq 0 n))
  end.

(** fformfit.py 373-376, 444-447: a saved library replaces the file *)
Definition save_lib (name : option string) (lib : library) (fs : files) : files :=
  match name with Some f => dset f lib fs | None => fs end.

(** fformfit.py 330-382, 456-464 ([_fixed_autowrap], [_make_energy_func_auto]) *)
Definition autowrap (e : code) (save : option string) (fs : files) : library * files := ([e], save_lib save [e] fs).

(** fformfit.py 385-453 ([_make_energy_func_chunked]); an empty sum is not a C
    expression, nothing is compiled and the old file is gone *)
Definition chunked (es : list code) (save : option string) (fs : files) : files * res library :=
  if forallb (fun e => match ksyms e with [] => true | _ => false end) es then
    match es with
    | [] => match save with
            | Some f => (dremove f fs, Raise FileNotFoundError)
            | None => (fs, Raise OSError)
            end
    | _ :: _ => (save_lib save es fs, Ok es)
    end
  else (fs, Raise CodeGenArgumentListError).

(** fformfit.py 504-534 and 537-568 ([_make_energy_func_wrapper], [gen_cost_func]) *)
Definition gen_cost_func (F : fform) (D : fdat) (free : option (list sym)) (chunk : bool) (save : option string) (fs : files)
    : files * res library :=
  if chunk then
    match terms F D free with
    | Raise e => (fs, Raise e)
    | Ok (ts, _) => chunked ts save fs
    end
  else
    match energy_expr F D free with
    | Raise e => (fs, Raise e)
    | Ok (e, _) => let (lib, fs') := autowrap e save fs in (fs', Ok lib)
    end.

(** fformfit.py 467-501 ([load_func], [_load_func]) *)
Definition load_func (name : string) (fs : files) : res library :=
  match dget name fs with Some lib => Ok lib | None => Raise OSError end.

(** fformfit.py 571-580 ([_make_denergy_func_auto]), one library after the other.
    An unevaluated derivative does not give a loadable library: OSError (or its
    subclass FileNotFoundError, depending on the compiler) *)
Definition grad_name (prefix : string) (i : nat) : string := prefix ++ strn i ++ ".so".
Fixpoint save_grad (prefix : option string) (i : nat) (ds : list (option code)) (fs : files) : files * res (list library) :=
  match ds with
  | [] => (fs, Ok [])
  | Some d :: ds' =>
      let (fs', r) := save_grad prefix (S i) ds' (save_lib (option_map (fun p => grad_name p i) prefix) [d] fs) in
      (fs', do l <- r; Ok ([d] :: l))
  | None :: _ => (match prefix with Some p => dremove (grad_name p i) fs | None => fs end, Raise OSError)
  end.

(** fformfit.py 583-603 ([_make_energy_and_denergy_func_wrapper]) *)
Definition energy_and_denergy (F : fform) (D : fdat) (free : option (list sym)) (chunk : bool)
    (save grad_prefix : option string) (fs : files) : files * res (library * list library) :=
  if chunk then (fs, Raise NotImplementedError)
  else match energy_expr F D free with
       | Raise e => (fs, Raise e)
       | Ok (e, n) =>
           match denergy_expr e n with
           | Raise e' => (fs, Raise e')
           | Ok ds => let (lib, fs1) := autowrap e save fs in
                      let (fs2, r) := save_grad grad_prefix 0 ds fs1 in
                      (fs2, do l <- r; Ok (lib, l))
           end
       end.

(** fformfit.py 606-630 ([_load_energy_and_denergy_func]); the loop stops at the
    latest after as many turns as there are files *)
Fixpoint load_grad (fuel : nat) (prefix : string) (i : nat) (fs : files) : list library :=
  match fuel with
  | O => []
  | S fuel' => match dget (grad_name prefix i) fs with
               | Some lib => lib :: load_grad fuel' prefix (S i) fs
               | None => []
               end
  end.
Definition load_energy_and_denergy (name prefix : string) (fs : files) : res (library * list library) :=
  do lib <- load_func name fs;
  Ok (lib, load_grad (S (length fs)) prefix 0 fs).

(** ** Model functions *)

(** fformfit.py 134-150 ([_make_model_expr]) *)
Definition model_expr (F : fform) (k : string) (m : Z) (imag : bool) (free : option (list sym)) : res code :=
  do l <- symbols_or F free;
  do fr <- ff_get_pc F k;
  do e <- py_nth fr (m + Z.of_nat (ff_M F))%Z;
  Ok (kev (xreplace (mapping l) (kev (if imag then KIm (embed e) else KRe (embed e))))).

(** ['_'.join((k, str(m), component))] *)
Definition component (imag : bool) : string := if imag then "imag" else "real".
Definition stem (k : string) (m : Z) (imag : bool) : string := k ++ "_" ++ str m ++ "_" ++ component imag.
Definition so_name (k : string) (m : Z) (imag : bool) (i : nat) : string := stem k m imag ++ "_" ++ strn i ++ ".so".

(** [cost_func_dict[k][m][component]] is a list of functions *)
Notation funcs := (list (string * list (Z * (list (list code) * list (list code))))) (only parsing).

(** C has functions for cosine, sine, powers and conjugates, but none called
    [re] or [im]: a source in which sympy left one is not a library that can be
    loaded *)
Fixpoint compiles (e : code) : bool :=
  match e with
  | KNum _ | KSym _ | KVar _ => true
  | KAdd l | KMul l => forallb compiles l
  | KPow e _ | KCos e | KSin e | KConj e => compiles e
  | KRe _ | KIm _ => false
  end.

(** fformfit.py 153-232 ([_fixed_autowrap_model]), one entry: its chunks, and the
    files written for them.  A chunk that does not compile: OSError (or its
    subclass FileNotFoundError, depending on the compiler) *)
Definition model_chunks (F : fform) (num_per : Z) (k : string) (m : Z) (imag : bool) : res (list code) :=
  do e <- model_expr F k m imag None;
  split_expr e num_per.
Definition model_entry (F : fform) (num_per : Z) (k : string) (m : Z) (imag : bool) : res (list code) :=
  do cs <- model_chunks F num_per k m imag;
  if forallb compiles cs then Ok cs else Raise OSError.
Definition entry_files (k : string) (m : Z) (imag : bool) (chunks : list code) : files :=
  map (fun ie => (so_name k m imag (fst ie), [snd ie])) (combine (seq 0 (length chunks)) chunks).
Definition model_row (F : fform) (num_per : Z) (k : string) : res (list (Z * (list code * list code))) :=
  mapM (fun m => do r <- model_entry F num_per k m false;
                 do i <- model_entry F num_per k m true;
                 Ok (m, (r, i))) (freqs (ff_M F)).
Definition model_rows (F : fform) (num_per : Z) : res (list (string * list (Z * (list code * list code)))) :=
  mapM (fun k => do r <- model_row F num_per k; Ok (k, r)) (ff_get_keys F).
Definition row_files (k : string) (r : list (Z * (list code * list code))) : files :=
  flat_map (fun mri => (entry_files k (fst mri) false (fst (snd mri)) ++ entry_files k (fst mri) true (snd (snd mri)))%list) r.
(** The folder is emptied first; [shutil.copy] of one file after the other *)
Definition model_files (rows : list (string * list (Z * (list code * list code)))) : files :=
  dict_of (flat_map (fun kr => row_files (fst kr) (snd kr)) rows).
Definition libs (cs : list code) : list library := map (fun e => [e]) cs.
Definition model_funcs (rows : list (string * list (Z * (list code * list code)))) : funcs :=
  map (fun kr => (fst kr, map (fun mri => (fst mri, (libs (fst (snd mri)), libs (snd (snd mri))))) (snd kr))) rows.

(** fformfit.py 235-277 ([gen_model_func]): the functions and what the folder
    contains afterwards.  When an expression fails half way the folder holds
    the files written before; the model says only that it raises. *)
Definition gen_model_func (F : fform) (num_per : Z) : res (funcs * files) :=
  do rows <- model_rows F num_per;
  Ok (model_funcs rows, model_files rows).

(** fformfit.py 312-327 ([_load_func_dict]); [listing] is the order in which the
    folder is listed *)
Fixpoint starts (p s : string) : bool :=
  match p, s with
  | EmptyString, _ => true
  | String a p', String b s' => Ascii.eqb a b && starts p' s'
  | String _ _, EmptyString => false
  end.
Definition ends_so (s : string) : bool := String.eqb (substring (String.length s - 3) 3 s) ".so".
(** [p + '*.so'] matches when the rest after [p] ends in [.so] *)
Fixpoint drop (n : nat) (s : string) : string :=
  match n, s with O, _ => s | S n', String _ s' => drop n' s' | S _, EmptyString => EmptyString end.
Definition glob_so (p : string) (s : string) : bool := starts p s && ends_so (drop (String.length p) s).
Definition load_entry (listing : files) (k : string) (m : Z) (imag : bool) : list library :=
  map snd (filter (fun nl => glob_so (stem k m imag) (fst nl)) listing).
Definition load_model_func (F : fform) (listing : files) : funcs :=
  map (fun k => (k, map (fun m => (m, (load_entry listing k m false, load_entry listing k m true))) (freqs (ff_M F)))) (ff_get_keys F).

(** fformfit.py 267-277, 299-309 ([model_func(xs, pc, m)]) *)
Fixpoint sum_calls (ls : list library) (xs : list R) : option R :=
  match ls with
  | [] => Some 0%R
  | l :: ls' => match call l xs, sum_calls ls' xs with Some a, Some b => Some (a + b)%R | _, _ => None end
  end.
Definition model_value (fd : funcs) (xs : list R) (pc : string) (m : Z) : res (option C) :=
  do row <- dgetr pc fd;
  do ri <- dgetr m row;
  Ok (match sum_calls (fst ri) xs, sum_calls (snd ri) xs with
      | Some a, Some b => Some (a, b)
      | _, _ => None
      end).

(** ** Fits *)

(** Values of options. *)
Inductive val := VStr (s : string) | VTrue | VBounds (b : option (list (R * R))) | VDict (d : list (string * val)) | VOther (n : nat).
Notation options := (list (string * val)) (only parsing).

(** What is minimised: a function, or a function with its gradient. *)
Inductive objective := Scalar (f : list R -> option R) | WithGradient (f : list R -> option R) (df : list R -> option (list R)).

(** The optimisers of scipy: arbitrary.  Arguments: objective, start vector,
    bounds, local options, other options. *)
Variable optimiser : objective -> list R -> option (list (R * R)) -> options -> options -> res (list R).

(** Outcome of a fit: [x] and [xdict], or the refusal of [_check_fform]
    (65-79), which also has empty [x] and [xdict] *)
Inductive outcome := Fitted (x : list R) (xdict : list (sym * R)) | Refused.

(** [{k: ret.x[i] for i, k in enumerate(free_symbols)}] *)
Definition xdict_of (free : list sym) (x : list R) : res (list (sym * R)) :=
  do ps <- mapM (fun ik => do v <- py_nth x (Z.of_nat (fst ik)); Ok (snd ik, v)) (combine (seq 0 (length free)) free);
  Ok (dict_of ps).

Definition x0_of {V} (free : list sym) (guess : list (sym * V)) : res (list V) := mapM (fun k => dgetr k guess) free.

(** [f(..., **kwargs)]: a name given twice is a TypeError *)
Definition no_clash (reserved : list string) (kw : options) : res unit :=
  if existsb (fun n => dmem n kw) reserved then Raise TypeError else Ok tt.

(** The cost function of a fit, 672-684, 760-772, 851-860, ... *)
Definition cost_of (F : fform) (D : fdat) (free : list sym) (chunk : bool) (save load : option string) (fs : files) : files * res library :=
  match load with
  | Some name => (fs, load_func name fs)
  | None => gen_cost_func F D (Some free) chunk save fs
  end.

Definition root (f : list R -> option R) (x : list R) : option R := option_map sqrt (f x).

(** least_squares_fit, 633-705, and least_squares_fit_with_bounds, 708-786
    ([bounds] is [None] for the former) *)
Definition least_squares_fit (F : fform) (D : fdat) (guess : list (sym * R)) (bounds : option (list (sym * (R * R))))
    (chunk : bool) (save load : option string) (kw : options) (fs : files) : files * res outcome :=
  match ff_free_symbols F with
  | Raise e => (fs, Raise e)
  | Ok [] => (fs, Ok Refused)
  | Ok free =>
      let (fs', lib) := cost_of F D free chunk save load fs in
      (fs', do lib <- lib;
            do x0 <- x0_of free guess;
            do bs <- match bounds with None => Ok None | Some b => do l <- x0_of free b; Ok (Some l) end;
            do _ <- no_clash (match bounds with None => ["fun"; "x0"] | Some _ => ["fun"; "x0"; "bounds"] end)%string kw;
            do x <- optimiser (Scalar (root (call lib))) x0 bs [] kw;
            do xd <- xdict_of free x;
            Ok (Fitted x xd))
  end.

(** [minimizer_kwargs.update(basinhopping_kwargs.pop('minimizer_kwargs'))] *)
Definition update (d e : options) : options := fold_left (fun d kv => dset (fst kv) (snd kv) d) e d.
Definition take_minimizer (own kw : options) : options * res options :=
  match dget "minimizer_kwargs"%string kw with
  | None => (kw, Ok own)
  | Some (VDict d) => (dremove "minimizer_kwargs"%string kw, Ok (update own d))
  | Some _ => (dremove "minimizer_kwargs"%string kw, Raise TypeError)
  end.
Definition bh_reserved : list string := ["func"; "x0"; "minimizer_kwargs"; "niter"; "stepsize"]%string.

(** The common tail of the four basinhopping fits, 865-894, 972-1006, 1101-1131,
    1234-1274: the options dictionary of the caller afterwards, and the outcome *)
Definition basinhop (free : list sym) (obj : objective) (guess : list (sym * R)) (bounds : option (option (list (sym * (R * R)))))
    (own : options) (kw : options) : options * res outcome :=
  match x0_of free guess with
  | Raise e => (kw, Raise e)
  | Ok x0 =>
      match (match bounds with
             | Some (Some b) => do l <- x0_of free b; Ok [("bounds"%string, VBounds (Some l))]
             | Some None => Ok [("bounds"%string, VBounds None)]
             | None => Ok []
             end) with
      | Raise e => (kw, Raise e)
      | Ok bo =>
          let (kw', mk) := take_minimizer (own ++ bo)%list kw in
          (kw', do mk <- mk;
                do _ <- no_clash bh_reserved kw';
                do x <- optimiser obj x0 None mk kw';
                do xd <- xdict_of free x;
                Ok (Fitted x xd))
      end
  end.

(** basinhopping_fit, 789-894, and basinhopping_fit_with_bounds, 897-1006
    ([bounds] is [None] for the former); [own] are [method] and [args] *)
Definition basinhopping_fit (F : fform) (D : fdat) (guess : list (sym * R)) (bounds : option (option (list (sym * (R * R)))))
    (own : options) (chunk : bool) (save load : option string) (kw : options) (fs : files) : files * options * res outcome :=
  match ff_free_symbols F with
  | Raise e => (fs, kw, Raise e)
  | Ok [] => (fs, kw, Ok Refused)
  | Ok free =>
      match cost_of F D free chunk save load fs with
      | (fs', Raise e) => (fs', kw, Raise e)
      | (fs', Ok lib) => let (kw', r) := basinhop free (Scalar (call lib)) guess bounds own kw in (fs', kw', r)
      end
  end.

(** [np.array([func(x) for func in funcs])] *)
Fixpoint call_all (ls : list library) (xs : list R) : option (list R) :=
  match ls with
  | [] => Some []
  | l :: ls' => match call l xs, call_all ls' xs with Some a, Some b => Some (a :: b) | _, _ => None end
  end.

(** basinhopping_fit_jac, 1009-1131, and basinhopping_fit_jac_with_bounds, 1134-1274 *)
Definition basinhopping_fit_jac (F : fform) (D : fdat) (guess : list (sym * R)) (bounds : option (option (list (sym * (R * R)))))
    (own : options) (chunk : bool) (save grad_save load grad_load : option string) (kw : options) (fs : files)
    : files * options * res outcome :=
  match ff_free_symbols F with
  | Raise e => (fs, kw, Raise e)
  | Ok [] => (fs, kw, Ok Refused)
  | Ok free =>
      match (match load, grad_load with
             | Some name, Some prefix => (fs, load_energy_and_denergy name prefix fs)
             | _, _ => energy_and_denergy F D (Some free) chunk save grad_save fs
             end) with
      | (fs', Raise e) => (fs', kw, Raise e)
      | (fs', Ok (lib, ds)) =>
          let (kw', r) := basinhop free (WithGradient (call lib) (call_all ds)) guess bounds (own ++ [("jac"%string, VTrue)])%list kw in
          (fs', kw', r)
      end
  end.

(** dual_annealing_fit_with_bounds, 1277-1371; the other arguments are passed on *)
Definition dual_annealing_fit (F : fform) (D : fdat) (guess : list (sym * R)) (bounds : option (list (sym * (R * R))))
    (chunk : bool) (save load : option string) (kw : options) (fs : files) : files * res outcome :=
  match ff_free_symbols F with
  | Raise e => (fs, Raise e)
  | Ok [] => (fs, Ok Refused)
  | Ok free =>
      let (fs', lib) := cost_of F D free chunk save load fs in
      (fs', do lib <- lib;
            do x0 <- x0_of free guess;
            do bs <- match bounds with None => Ok None | Some b => do l <- x0_of free b; Ok (Some l) end;
            do x <- optimiser (Scalar (call lib)) x0 bs [] kw;
            do xd <- xdict_of free x;
            Ok (Fitted x xd))
  end.
End Fit.
