(** Textbook notions for the rotation, symmetrisation and parameter helpers. *)
From Coq Require Import String Ascii List Arith Bool Reals Permutation.
Import ListNotations.
From Coquelicot Require Import Complex.
From Verif Require Import PyBase CBase Expr TensorModel UtilModel SpecTensor.
Local Open Scope R_scope.

(** ** Vectors and matrices in space *)
Definition cross (a b : vec) : vec :=
  let '(x, y, z) := a in let '(x', y', z') := b in
  (y * z' - z * y', z * x' - x * z', x * y' - y * x').
Definition vadd (a b : vec) : vec :=
  let '(x, y, z) := a in let '(x', y', z') := b in (x + x', y + y', z + z').
Definition smul (k : R) (a : vec) : vec := let '(x, y, z) := a in (k * x, k * y, k * z).
Definition unit_of (v : vec) : vec := smul (/ sqrt (dot v v)) v.

Definition transpose (m : mat) : mat :=
  let '((a, b, c), (d, e, f), (g, h, i)) := m in ((a, d, g), (b, e, h), (c, f, i)).
Definition mmul (m n : mat) : mat :=
  let '(r1, r2, r3) := m in
  let '(c1, c2, c3) := transpose n in
  ((dot r1 c1, dot r1 c2, dot r1 c3), (dot r2 c1, dot r2 c2, dot r2 c3), (dot r3 c1, dot r3 c2, dot r3 c3)).
Definition det (m : mat) : R := let '(r1, r2, r3) := m in dot r1 (cross r2 r3).
Definition mtrace (m : mat) : R := let '((a, _, _), (_, e, _), (_, _, i)) := m in a + e + i.

(** A proper rotation. *)
Definition is_rotation (m : mat) : Prop :=
  mmul m (transpose m) = ident /\ mmul (transpose m) m = ident /\ det m = 1.

Definition nonzero (v : vec) : Prop := v <> (0, 0, 0).

(** Directions opposite to each other. *)
Definition antiparallel (v w : vec) : Prop := exists k, k < 0 /\ w = smul k v.

Definition entries_within (eps : R) (m n : mat) : Prop :=
  let '((a, b, c), (d, e, f), (g, h, i)) := m in
  let '((a', b', c'), (d', e', f'), (g', h', i')) := n in
  Rabs (a - a') <= eps /\ Rabs (b - b') <= eps /\ Rabs (c - c') <= eps /\
  Rabs (d - d') <= eps /\ Rabs (e - e') <= eps /\ Rabs (f - f') <= eps /\
  Rabs (g - g') <= eps /\ Rabs (h - h') <= eps /\ Rabs (i - i') <= eps.

(** ** Solvers *)

(** Every solution makes every equation vanish identically in the remaining
    symbols. *)
Definition sound_solver (solve : list expr -> list sym -> list (list (sym * expr))) : Prop :=
  forall eqs exclude sol, In sol (solve eqs exclude) ->
  forall e, In e eqs -> forall rho, eval rho (subs_dict sol e) = RtoC 0.

(** Equality for all parameter values. *)
Definition same_value (a b : expr) : Prop := forall rho, eval rho a = eval rho b.

Definition symmetric_last_two (t : tensor expr) : Prop :=
  forall i a b, fits (shape t) (i ++ [a; b]) -> same_value (at_ t (i ++ [a; b])) (at_ t (i ++ [b; a])).

Definition symmetric_all (t : tensor expr) : Prop :=
  forall i j, fits (shape t) i -> Permutation i j -> same_value (at_ t i) (at_ t j).

(** ** Parameters *)

(** Text without commas, colons and blanks; names made of such text. *)
Definition plain_text (n : string) : Prop :=
  forall c, In c (list_ascii_of_string n) -> c <> ","%char /\ c <> ":"%char /\ (32 < nat_of_ascii c)%nat.
Definition ordinary (n : string) : Prop := n <> EmptyString /\ plain_text n.

Definition ordinary_params (e : expr) : Prop :=
  forall s, In s (syms e) -> sreal s = None -> ordinary (sname s).

(** A set is iterated in some order, each element once. *)
Definition iterates (set_order : list sym -> list sym) : Prop := forall l, Permutation (set_order l) l.

(** The assignment of the original symbols that a real assignment stands for. *)
Definition with_complex (prefix suffix : string * string) (rho : sym -> C) : sym -> C := fun s =>
  match sreal s with
  | None => (rho (mksym (fst prefix ++ sname s ++ fst suffix) (Some true))
             + Ci * rho (mksym (snd prefix ++ sname s ++ snd suffix) (Some true)))%C
  | Some _ => rho s
  end%string.
Definition with_real (rho : sym -> C) : sym -> C := fun s =>
  match sreal s with None => rho (mksym (sname s) (Some true)) | Some _ => rho s end.

Definition declared (e : expr) : Prop := forall s, In s (syms e) -> sreal s <> None.
Definition declared_nonreal (t : tensor expr) : Prop :=
  exists i s, fits (shape t) i /\ In s (syms (at_ t i)) /\ sreal s = Some false.
