(** Vocabulary for Fourier formulas built by convolution: arrays with a
    frequency axis as functions of phi, and the geometry in which they are
    computed. *)
From Coq Require Import String List Arith ZArith QArith Reals.
Import ListNotations.
From Coquelicot Require Import Complex.
From Verif Require Import PyBase CBase Expr FormModel SpecForm SpecFormgen.
From Verif Require Import SpecTensor TensorModel.
From Verif Require FformgenModel.
Local Open Scope nat_scope.

(** 2M+1 slices of one shape *)
Definition wellformed (M : nat) (sh : list nat) (F : list (tensor expr)) : Prop :=
  length F = 2 * M + 1 /\ Forall (fun t => shape t = sh) F.

(** The coefficient of exp(i n phi): slice number n + M *)
Definition coefficient (rho : sym -> C) (M : nat) (F : list (tensor expr)) (n : Z) (ix : list nat) : C :=
  eval rho (at_ (nth (Z.to_nat (n + Z.of_nat M)) F (mkT [] (fun _ => num 0))) ix).

(** The function of phi it stands for *)
Definition synthesis (rho : sym -> C) (M : nat) (F : list (tensor expr)) (ix : list nat) (x : R) : C :=
  Csum (fun n => coefficient rho M F n ix * cis (IZR n * x))%C (freqs M).

Definition bandlimited (rho : sym -> C) (M : nat) (sh : list nat) (b : nat) (F : list (tensor expr)) : Prop :=
  forall n ix, In n (freqs M) -> fits sh ix -> (Z.of_nat b < Z.abs n)%Z -> coefficient rho M F n ix = RtoC 0.

(** Which stored frequency a program reads when it asks for frequency k of an
    array of order M the way python indexes: negative indices count from the end,
    indices past the end are missing. *)
Definition read_frequency (M : nat) (k : Z) : option Z :=
  if (k <? - Z.of_nat M)%Z then Some (k + 2 * Z.of_nat M + 1)%Z
  else if (k <=? Z.of_nat M)%Z then Some k else None.

(** An experiment: fields of the two polarizations, directions of the beams *)
Record setup := mksetup { s_field : pol -> nat -> C; s_in : nat -> C; s_out : nat -> C }.

(** The geometry documented for formgen (SpecFormgen), and that of the Fourier
    generators: everything turned half way about z. *)
Definition formgen_setup (th : R) : setup := mksetup (field th) (k_incident th) (k_reflected th).
Definition fformgen_setup (th : R) : setup :=
  mksetup (fun p => match p with
                    | Pin => triple (cos th) (RtoC 0) (sin th)
                    | Sin => triple (RtoC 0) (Copp (RtoC 1)) (RtoC 0)
                    end)
          (triple (RtoC (- sin th)) (RtoC 0) (cos th))
          (triple (RtoC (- sin th)) (RtoC 0) (RtoC (- cos th))).

Local Open Scope C_scope.
Definition setup_source (g : setup) (E : nat -> nat -> nat -> C) (Q : nat -> nat -> nat -> nat -> C) (p : pol) (x : R)
  : nat -> C := fun i =>
  moment3 (turned3 x E) (s_field g p) i + Ci * moment4 (turned4 x Q) (s_in g) (s_field g p) i.
Definition setup_transverse (g : setup) (S : nat -> C) : nat -> C := fun i => S i - dot3 (s_out g) S * s_out g i.
Definition setup_intensity (g : setup) E Q (inp out : pol) (x : R) : R :=
  detected (setup_transverse g (setup_source g E Q inp x)) out.

Local Open Scope nat_scope.
(** Both generators, the contraction, and the file as read back. *)
Definition yields (ev expand : expr -> expr) (prefix : string) (fs : list (string * list (list (tensor expr)))) (d q : tensor expr)
    (row : pol -> pol -> list expr) : Prop :=
  exists D, FformgenModel.contracted_dict ev expand prefix fs d q 16 None = Ok D /\ dkeys D = ["PP"; "PS"; "SP"; "SS"]%string /\
    (forall inp out, dget (key inp out) D = Some (row inp out)) /\
    forall srepr parse, (forall e, parse (srepr e) = Ok e) ->
      exists file F, FformgenModel.generate_contracted_fourier_transforms ev expand srepr prefix fs d q 16 None = Ok file /\
        load_fform parse file = Ok F /\ ff_M F = 16 /\ forall inp out, ff_get_pc F (key inp out) = Ok (row inp out).

(** The curve of a row of coefficients, and its coefficient number [m]. *)
Definition series_function (rho : sym -> C) (row : list expr) (x : R) : C := fseries 16 (map (eval rho) row) (RtoC x).
Definition cell (rho : sym -> C) (row : list expr) (m : Z) : C := eval rho (nth (Z.to_nat (m + 16)) row (num 0)).

(** The part of a file name that stands for a polarization combination. *)
Definition file_of (inp out : pol) : string :=
  match inp, out with Pin, Pin => "pp" | Pin, Sin => "ps" | Sin, Pin => "sp" | Sin, Sin => "ss" end%string.
