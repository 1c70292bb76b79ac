(** Vocabulary for fits started from the results of other fits. *)
From Coq Require Import String List Reals.
From Coquelicot Require Import Complex.
From Verif Require Import PyBase Expr FDataModel FormModel FitModel.
Import ListNotations.

(** The values in a dictionary. *)
Definition valued (g : list (sym * R)) (s : sym) : C := match dget s g with Some x => RtoC x | None => RtoC 0 end.

Notation optimiser_type := (objective -> list R -> option (list (R * R)) -> list (string * val) -> list (string * val) -> res (list R)) (only parsing).
Definition value (o : objective) : list R -> option R := match o with Scalar f => f | WithGradient f _ => f end.
(** An optimiser whose answer is no worse than its start. *)
Definition improves (optimiser : optimiser_type) : Prop :=
  forall o x0 bs own kw x, optimiser o x0 bs own kw = Ok x ->
    length x = length x0 /\ forall v, value o x0 = Some v -> exists u, value o x = Some u /\ (u <= v)%R.

(** One call of a fit function, with its own optimiser and settings. *)
Inductive fit_call :=
| LeastSquares (optimiser : optimiser_type) (bounds : option (list (sym * (R * R)))) (chunk : bool) (save : option string) (kw : list (string * val))
| DualAnnealing (optimiser : optimiser_type) (bounds : option (list (sym * (R * R)))) (chunk : bool) (save : option string) (kw : list (string * val))
| Basinhopping (optimiser : optimiser_type) (bounds : option (option (list (sym * (R * R))))) (own : list (string * val)) (chunk : bool) (save : option string) (kw : list (string * val))
| BasinhoppingJac (optimiser : optimiser_type) (bounds : option (option (list (sym * (R * R))))) (own : list (string * val)) (chunk : bool) (save gp : option string) (kw : list (string * val)).
Definition optimiser_of (c : fit_call) : optimiser_type :=
  match c with LeastSquares o _ _ _ _ | DualAnnealing o _ _ _ _ | Basinhopping o _ _ _ _ _ | BasinhoppingJac o _ _ _ _ _ _ => o end.
Definition fit (kev : code -> code) (F : fform) (D : fdat) (guess : list (sym * R)) (c : fit_call) (fs : list (string * list code)) : list (string * list code) * res outcome :=
  match c with
  | LeastSquares o b ch sv kw => least_squares_fit kev o F D guess b ch sv None kw fs
  | DualAnnealing o b ch sv kw => dual_annealing_fit kev o F D guess b ch sv None kw fs
  | Basinhopping o b own ch sv kw => let r := basinhopping_fit kev o F D guess b own ch sv None kw fs in (fst (fst r), snd r)
  | BasinhoppingJac o b own ch sv gp kw => let r := basinhopping_fit_jac kev o F D guess b own ch sv gp None None kw fs in (fst (fst r), snd r)
  end.

(** A series of fits, the first started from [guess], each other from the dictionary
    returned by the one before; the dictionaries returned. *)
Inductive series (kev : code -> code) (F : fform) (D : fdat) : list (sym * R) -> list (string * list code) -> list fit_call -> list (list (sym * R)) -> Prop :=
| series_nil g fs : series kev F D g fs [] []
| series_cons g fs c cs fs' x xd l : fit kev F D g c fs = (fs', Ok (Fitted x xd)) -> series kev F D xd fs' cs l -> series kev F D g fs (c :: cs) (xd :: l).
