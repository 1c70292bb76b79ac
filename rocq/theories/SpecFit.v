(** Specification vocabulary for fits. *)
From Coq Require Import String List Arith ZArith Reals QArith Permutation.
From Coquelicot Require Import Complex.
From Verif Require Import PyBase CBase Expr DataModel FDataModel SpecFData FormModel FitModel.
Import ListNotations.
Local Open Scope nat_scope.

(** What is required of sympy's automatic evaluation during code generation: it
    keeps the value (for symbols whose values respect their assumptions) and
    introduces neither symbols nor array elements. *)
Definition sound_kev (kev : code -> code) : Prop :=
  (forall rho xs e, respects rho -> keval rho xs (kev e) = keval rho xs e) /\
  (forall e, incl (ksyms (kev e)) (ksyms e)) /\ (forall e, incl (kvars (kev e)) (kvars e)).

(** An expression without real and imaginary parts left unevaluated. *)
Fixpoint no_parts (e : code) : Prop :=
  match e with
  | KNum _ | KSym _ | KVar _ => True
  | KAdd l | KMul l => fold_right (fun a P => no_parts a /\ P) True l
  | KPow e _ | KCos e | KSin e | KConj e => no_parts e
  | KRe _ | KIm _ => False
  end.
(** sympy carries out the real and imaginary parts of the coefficients, as it does
    when the parameters are declared real. *)
Definition parts_taken (kev : code -> code) (F : fform) : Prop :=
  forall k r e mp, In (k, r) (ff_rows F) -> In e (r_cells r) ->
    no_parts (kev (xreplace mp (kev (KRe (embed e))))) /\ no_parts (kev (xreplace mp (kev (KIm (embed e))))).

Definition rsum {A} (f : A -> R) (l : list A) : R := fold_right (fun a s => (f a + s)%R) 0%R l.

(** Coefficient m of a row of a formula of order M; of the data. *)
Definition fcell (M : nat) (r : row) (m : Z) : expr := nth (Z.to_nat (m + Z.of_nat M)) (r_cells r) (num 0).
Definition dvalue (D : fdat) (k : string) (m : Z) : C :=
  match dget k (fd_data D) with Some v => coef (fd_M D) v m | None => RtoC 0 end.

(** Containers as the constructors make them. *)
Definition formula_ok (F : fform) : Prop :=
  NoDup (map fst (ff_rows F)) /\ forall k r, In (k, r) (ff_rows F) -> length (r_cells r) = 2 * ff_M F + 1.
Definition data_ok (D : fdat) : Prop :=
  NoDup (map fst (fd_data D)) /\ forall k v, In (k, v) (fd_data D) -> length v = 2 * fd_M D + 1.
(** Data for every polarization of the formula, of the same order. *)
Definition matching (F : fform) (D : fdat) : Prop :=
  formula_ok F /\ data_ok D /\ fd_M D = ff_M F /\ forall k, In k (map fst (ff_rows F)) -> In k (map fst (fd_data D)).

(** The squared misfit in Fourier space for values [rho] of the parameters. *)
Definition misfit (F : fform) (D : fdat) (rho : sym -> C) : R :=
  rsum (fun kr => rsum (fun m => (Cmod (Cminus (eval rho (fcell (ff_M F) (snd kr) m)) (dvalue D (fst kr) m)) ^ 2)%R)
                    (freqs (ff_M F))) (ff_rows F).

(** The formula reproduces the data. *)
Definition reproduces (F : fform) (D : fdat) (rho : sym -> C) : Prop :=
  forall k r m, In (k, r) (ff_rows F) -> In m (freqs (ff_M F)) -> eval rho (fcell (ff_M F) r m) = dvalue D k m.

(** Values as functions of phi. *)
Definition formula_at (F : fform) (rho : sym -> C) (r : row) (x : R) : C :=
  Csum (fun m => Cmult (eval rho (fcell (ff_M F) r m)) (cis (IZR m * x))) (freqs (ff_M F)).
Definition data_at (D : fdat) (k : string) (x : R) : C :=
  Csum (fun m => Cmult (dvalue D k m) (cis (IZR m * x))) (freqs (fd_M D)).
Definition mean_square (F : fform) (D : fdat) (rho : sym -> C) (n : nat) : R :=
  rsum (fun kr => (/ INR n * rsum (fun j => Cmod (Cminus (formula_at F rho (snd kr) (2 * PI * INR j / INR n))
                                                      (data_at D (fst kr) (2 * PI * INR j / INR n))) ^ 2) (seq 0 n))%R) (ff_rows F).

(** A vector read as values of the listed symbols. *)
Definition assigns (free : list sym) (xs : list R) (rho : sym -> C) : Prop :=
  forall i s, nth_error free i = Some s -> rho s = RtoC (nth i xs 0%R).

(** The symbols of a formula. *)
Definition in_formula (F : fform) (s : sym) : Prop :=
  exists k r e, In (k, r) (ff_rows F) /\ In e (r_cells r) /\ In s (syms e).

(** A list of arguments for a formula: no symbol twice, none missing. *)
Definition argument_list (F : fform) (free : list sym) : Prop := NoDup free /\ forall s, in_formula F s -> In s free.

(** Splitting a list in order into pieces of at most n. *)
Definition split_into {A} (n : nat) (a : list A) (ps : list (list A)) : Prop :=
  concat ps = a /\ Forall (fun p => p <> [] /\ length p <= n) ps.

(** File names that cannot be confused: no key followed by an underscore begins
    another key. *)
Definition clear_keys (ks : list string) : Prop :=
  forall k k', In k ks -> In k' ks -> k <> k' -> forall t, k' <> (k ++ "_" ++ t)%string.

(** The assignment that a vector stands for, and a vector with one entry changed. *)
Fixpoint reading (free : list sym) (xs : list R) (s : sym) : C :=
  match free, xs with
  | f :: free', x :: xs' => if sym_eqb s f then RtoC x else reading free' xs' s
  | _, _ => RtoC 0
  end.
Fixpoint set_nth (i : nat) (t : R) (xs : list R) : list R :=
  match i, xs with
  | _, [] => []
  | O, _ :: xs' => t :: xs'
  | S i', x :: xs' => x :: set_nth i' t xs'
  end.

(** A compiled function computes the misfit; a list of compiled functions is its
    gradient. *)
Definition computes (F : fform) (D : fdat) (free : list sym) (lib : list code) : Prop :=
  forall xs rho, length free <= length xs -> assigns free xs rho -> call lib xs = Some (misfit F D rho).
Definition computes_root (F : fform) (D : fdat) (free : list sym) (f : list R -> option R) : Prop :=
  forall xs rho, length free <= length xs -> assigns free xs rho -> f xs = Some (sqrt (misfit F D rho)).
Definition gradient (F : fform) (D : fdat) (free : list sym) (ds : list (list code)) : Prop :=
  length ds = length free /\ forall i lib, nth_error ds i = Some lib -> forall xs, length xs = length free ->
    exists g, call lib xs = Some g /\ derivable_pt_lim (fun t => misfit F D (reading free (set_nth i t xs))) (nth i xs 0%R) g.

(** Expressions without conjugates, real and imaginary parts. *)
Fixpoint plain (e : code) : Prop :=
  match e with
  | KNum _ | KSym _ | KVar _ => True
  | KAdd l | KMul l => (fix go l := match l with [] => True | a :: l' => plain a /\ go l' end) l
  | KPow e _ | KCos e | KSin e => plain e
  | KConj _ | KRe _ | KIm _ => False
  end.
Definition real_syms (e : code) : Prop := forall s, In s (ksyms e) -> sreal s = Some true.
(** Automatic evaluation resolves the conjugate of expressions in real symbols. *)
Definition resolves (kev : code -> code) : Prop :=
  (forall e, plain e -> plain (kev e)) /\ forall e, plain e -> real_syms e -> plain (kev (KConj e)).
(** A formula in real symbols, without conjugates, real and imaginary parts. *)
Definition plain_formula (F : fform) : Prop :=
  forall k r e, In (k, r) (ff_rows F) -> In e (r_cells r) -> plain (embed e) /\ real_syms (embed e).

(** A vector lists the values of a dictionary in the order of the symbols. *)
Definition in_order {V} (free : list sym) (d : list (sym * V)) (l : list V) : Prop :=
  Forall2 (fun s v => dget s d = Some v) free l.

(** Bounds as handed to the optimiser: absent, or in the order of the symbols. *)
Definition bounds_ok {V} (free : list sym) (b : option (list (sym * V))) (l : option (list V)) : Prop :=
  match b with None => l = None | Some d => exists v, l = Some v /\ in_order free d v end.
(** The same as an entry of the local options. *)
Definition bound_option (free : list sym) (b : option (option (list (sym * (R * R))))) (o : list (string * val)) : Prop :=
  match b with
  | None => o = []
  | Some None => o = [("bounds"%string, VBounds None)]
  | Some (Some d) => exists l, o = [("bounds"%string, VBounds (Some l))] /\ in_order free d l
  end.
(** Names of scipy's least_squares that the caller cannot give as an option. *)
Definition ls_reserved {V} (b : option V) : list string := match b with None => ["fun"; "x0"] | Some _ => ["fun"; "x0"; "bounds"] end%string.

(** Names of scipy's basinhopping that the caller cannot give as an option. *)
Definition bh_taken : list string := ["func"; "x0"; "minimizer_kwargs"; "niter"; "stepsize"]%string.

(** Data of order Md read with the indices of order M: every coefficient is
    taken Md - M frequencies too low. *)
Definition read_with_order (M : nat) (D : fdat) : fdat :=
  mkfdat (dmap (firstn (2 * M + 1)) (fd_data D)) (fd_scale D) (fd_phase D) M.

(** Histories of cost and gradient saves to the same files; n is the largest
    number of components so far. *)
Inductive grad_saves (kev : code -> code) (name prefix : string) : list (string * list code) -> nat -> Prop :=
| saves_fresh fs : (forall i, dget (grad_name prefix i) fs = None) -> grad_saves kev name prefix fs 0
| saves_again fs n F D free chunk fs' lib ls :
    grad_saves kev name prefix fs n ->
    energy_and_denergy kev F D free chunk (Some name) (Some prefix) fs = (fs', Ok (lib, ls)) ->
    grad_saves kev name prefix fs' (Nat.max n (length ls)).
