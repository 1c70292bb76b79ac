(** Vocabulary for fits that reuse the cost function saved by an earlier fit. *)
From Coq Require Import String List Reals.
From Verif Require Import PyBase Expr FDataModel FormModel FitModel SpecChain.
Import ListNotations.

(** The call saves its cost function under the name (and no gradient, whose files might
    have the same name). *)
Definition saves_as (c : fit_call) (name : string) : Prop :=
  match c with
  | LeastSquares _ _ _ sv _ | DualAnnealing _ _ _ sv _ | Basinhopping _ _ _ _ sv _ => sv = Some name
  | BasinhoppingJac _ _ _ _ sv gp _ => sv = Some name /\ gp = None
  end.
(** The call with [load_cost_func_filename] given; the gradient is loaded too if its
    prefix is given, otherwise cost and gradient are generated again. *)
Definition refit (kev : code -> code) (F : fform) (D : fdat) (guess : list (sym * R)) (c : fit_call) (name : string) (fs : list (string * list code)) : list (string * list code) * res outcome :=
  match c with
  | LeastSquares o b ch sv kw => least_squares_fit kev o F D guess b ch sv (Some name) kw fs
  | DualAnnealing o b ch sv kw => dual_annealing_fit kev o F D guess b ch sv (Some name) kw fs
  | Basinhopping o b own ch sv kw => let r := basinhopping_fit kev o F D guess b own ch sv (Some name) kw fs in (fst (fst r), snd r)
  | BasinhoppingJac o b own ch _ gp kw => let r := basinhopping_fit_jac kev o F D guess b own ch None None (Some name) gp kw fs in (fst (fst r), snd r)
  end.
Inductive reuse (kev : code -> code) (F : fform) (D : fdat) (name : string) : list (sym * R) -> list (string * list code) -> list fit_call -> list (list (sym * R)) -> Prop :=
| reuse_nil g fs : reuse kev F D name g fs [] []
| reuse_cons g fs c cs fs' x xd l : refit kev F D g c name fs = (fs', Ok (Fitted x xd)) -> reuse kev F D name xd fs' cs l -> reuse kev F D name g fs (c :: cs) (xd :: l).
