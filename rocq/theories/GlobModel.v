(** pathlib's glob as load_model_func uses it: the polarization is part of the
    pattern (fformfit.py 322), so characters with a meaning for fnmatch in it
    are not taken literally. *)
From Coq Require Import String Ascii List ZArith Bool.
From Verif Require Import PyBase Expr FDataModel FormModel FitModel.
Import ListNotations.
Local Open Scope nat_scope.

(** The parts of a pattern (fnmatch.translate of the standard library). *)
Inductive part := Lit (c : ascii) | Any | One | Class (neg : bool) (cs : list ascii).

Definition star : ascii := "*"%char.
Definition quest : ascii := "?"%char.
Definition opening : ascii := "["%char.
Definition closing : ascii := "]"%char.
Definition bang : ascii := "!"%char.
Definition dash : ascii := "-"%char.

(** The characters up to the next closing bracket and what follows it. *)
Fixpoint upto (s : list ascii) : option (list ascii * list ascii) :=
  match s with
  | [] => None
  | c :: s' => if Ascii.eqb c closing then Some ([], s')
               else match upto s' with Some (a, b) => Some (c :: a, b) | None => None end
  end.
(** After an opening bracket: an optional exclamation mark, and a first closing
    bracket that is taken literally. *)
Definition bracket (s : list ascii) : option (bool * list ascii * list ascii) :=
  let (neg, s1) := match s with c :: s' => if Ascii.eqb c bang then (true, s') else (false, s) | [] => (false, s) end in
  match s1 with
  | c :: s2 => match upto s2 with Some (a, b) => Some (neg, c :: a, b) | None => None end
  | [] => None
  end.
(** One part after the other; every step consumes a character, so the length is
    enough fuel. *)
Fixpoint parts (fuel : nat) (s : list ascii) : list part :=
  match fuel, s with
  | S n, c :: s' =>
      if Ascii.eqb c star then Any :: parts n s'
      else if Ascii.eqb c quest then One :: parts n s'
      else if Ascii.eqb c opening then
        match bracket s' with Some (neg, cs, rest) => Class neg cs :: parts n rest | None => Lit c :: parts n s' end
      else Lit c :: parts n s'
  | _, _ => []
  end.

Fixpoint in_class (fuel : nat) (cs : list ascii) (c : ascii) : bool :=
  match fuel, cs with
  | S n, a :: d :: b :: rest =>
      if Ascii.eqb d dash
      then (Nat.leb (nat_of_ascii a) (nat_of_ascii c) && Nat.leb (nat_of_ascii c) (nat_of_ascii b)) || in_class n rest c
      else Ascii.eqb a c || in_class n (d :: b :: rest) c
  | S n, a :: rest => Ascii.eqb a c || in_class n rest c
  | _, _ => false
  end.

Fixpoint matches (ps : list part) (s : list ascii) : bool :=
  match ps with
  | [] => match s with [] => true | _ => false end
  | Lit c :: ps' => match s with a :: s' => Ascii.eqb a c && matches ps' s' | [] => false end
  | One :: ps' => match s with _ :: s' => matches ps' s' | [] => false end
  | Class neg cs :: ps' =>
      match s with a :: s' => xorb neg (in_class (length cs) cs a) && matches ps' s' | [] => false end
  | Any :: ps' =>
      (fix any (s : list ascii) : bool := matches ps' s || match s with [] => false | _ :: s' => any s' end) s
  end.

Definition glob (pattern name : string) : bool :=
  let p := list_ascii_of_string pattern in matches (parts (length p) p) (list_ascii_of_string name).

(** fformfit.py 312-327 *)
Definition load_entry_glob (listing : list (string * list code)) (k : string) (m : Z) (imag : bool) : list (list code) :=
  map snd (filter (fun nl => glob (stem k m imag ++ "*.so") (fst nl)) listing).
Definition load_model_glob (F : fform) (listing : list (string * list code))
    : list (string * list (Z * (list (list code) * list (list code)))) :=
  map (fun k => (k, map (fun m => (m, (load_entry_glob listing k m false, load_entry_glob listing k m true))) (freqs (ff_M F)))) (ff_get_keys F).
