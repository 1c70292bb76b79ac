(** Vocabulary for models loaded for several processes. *)
From Coq Require Import String List Bool.
From Verif Require Import PyBase FitModel LibModel2 SpecLib2 LateModel.

(** The event saves a model in the folder. *)
Definition saves_in (folder : string) (e : deed) : Prop :=
  match e with Do (GenModel _ _ (Some f)) => f = folder | _ => False end.
(** The event opens libraries of the folder only, or of folders by its side; folders are
    given by their absolute names. *)
Definition tidy (folder : string) (e : deed) : Prop :=
  match e with
  | Do (LoadModel _ f) => f = folder \/ apart f folder
  | CallModel _ f _ _ _ => starts "/" f = true /\ (f = folder \/ apart f folder)
  | _ => True
  end.
(** The event opens no library of the folder. *)
Definition aside (folder : string) (e : deed) : Prop :=
  match e with
  | Do (LoadModel _ f) => apart f folder
  | CallModel _ f _ _ _ => starts "/" f = true /\ apart f folder
  | _ => True
  end.
