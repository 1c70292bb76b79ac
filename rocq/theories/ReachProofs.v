(** Proofs for property C144. *)
From Coq Require Import String Ascii List Arith Bool ZArith Reals Lra.
Import ListNotations.
From Coquelicot Require Import Complex.
From Verif Require Import PyBase Expr ExprProofs TensorModel UtilModel SpecTensor SpecUtil SpecReach TensorProofs UtilProofs
  PropertiesUtil.
Local Open Scope nat_scope.

Lemma cancel_left a x y : (a ++ x = a ++ y)%string -> x = y.
Proof. induction a as [|c a IH]; cbn; [auto|]. intros H. inversion H. auto. Qed.
Lemma letters_app a b : list_ascii_of_string (a ++ b)%string = (list_ascii_of_string a ++ list_ascii_of_string b)%list.
Proof. induction a as [|c a IH]; cbn; [reflexivity|]. rewrite IH. reflexivity. Qed.
Lemma cancel_right a x y : (x ++ a = y ++ a)%string -> x = y.
Proof.
  intros H. apply (f_equal list_ascii_of_string) in H. rewrite !letters_app in H. apply app_inv_tail in H.
  rewrite <- (string_of_list_ascii_of_string x), <- (string_of_list_ascii_of_string y), H. reflexivity.
Qed.
Lemma cancel a b x y : (a ++ x ++ b = a ++ y ++ b)%string -> x = y.
Proof. intros H. exact (cancel_right b x y (cancel_left a _ _ H)). Qed.

(** The parameters of a tensor. *)
Definition params (t : tensor expr) : list string :=
  map sname (filter (fun s => match sreal s with None => true | _ => false end) (flat_map free_symbols (flatten t))).
Lemma in_params t n : In n (params t) <-> occurs t (mksym n None).
Proof.
  unfold params. rewrite in_map_iff. split.
  - intros ([m r] & <- & I). apply filter_In in I as [I R]. cbn in R. destruct r; [discriminate|]. cbn [sname].
    apply in_flat_map in I as (e & Ie & Is). unfold flatten in Ie. apply in_map_iff in Ie as (i & <- & Ii).
    exists i. split; [apply in_indices, Ii|apply in_free_symbols, Is].
  - intros (i & F & I). exists (mksym n None). split; [reflexivity|]. apply filter_In. split; [|reflexivity].
    apply in_flat_map. exists (at_ t i). split; [unfold flatten; apply in_map, in_indices, F|apply in_free_symbols, I].
Qed.

Section Parts.
  Variables prefix suffix : string * string.
  Variable t : tensor expr.
  Variable rho : sym -> C.

  Definition re_name (n : string) : string := (fst prefix ++ n ++ fst suffix)%string.
  Definition im_name (n : string) : string := (snd prefix ++ n ++ snd suffix)%string.

  Definition parts (s : sym) : C :=
    match sreal s with
    | Some true =>
        match find (fun n => String.eqb (sname s) (re_name n)) (params t) with
        | Some n => RtoC (Re (rho (mksym n None)))
        | None =>
            match find (fun n => String.eqb (sname s) (im_name n)) (params t) with
            | Some n => RtoC (Im (rho (mksym n None)))
            | None => rho s
            end
        end
    | _ => rho s
    end.

  Lemma parts_respects : respects rho -> respects parts.
  Proof.
    intros H s S. unfold parts. rewrite S. destruct (find _ _); [reflexivity|]. destruct (find _ _); [reflexivity|]. exact (H s S).
  Qed.

  Lemma find_found (f : string -> string) (inj : forall x y, f x = f y -> x = y) n l :
    In n l -> find (fun m => String.eqb (f n) (f m)) l = Some n.
  Proof.
    intros I. destruct (find (fun m => String.eqb (f n) (f m)) l) eqn:E.
    - apply find_some in E as [_ E]. apply String.eqb_eq, inj in E. congruence.
    - exfalso. generalize (find_none _ _ E n I). rewrite String.eqb_refl. discriminate.
  Qed.
  Lemma find_absent (f : string -> string) x l : (forall m, In m l -> x <> f m) -> find (fun m => String.eqb x (f m)) l = None.
  Proof.
    intros H. destruct (find (fun m => String.eqb x (f m)) l) eqn:E; [|reflexivity].
    apply find_some in E as [I E]. apply String.eqb_eq in E. destruct (H _ I E).
  Qed.

  Lemma parts_value s : no_clash prefix suffix t -> occurs t s -> with_complex prefix suffix parts s = rho s.
  Proof.
    intros [A B] O. destruct s as [n [b|]]; unfold with_complex; cbn [sreal sname].
    - unfold parts. cbn [sreal sname]. destruct b; [|reflexivity].
      rewrite (find_absent re_name), (find_absent im_name); [reflexivity| |]; intros m I; apply in_params in I; apply (B m n I O).
    - change (fst prefix ++ n ++ fst suffix)%string with (re_name n). change (snd prefix ++ n ++ snd suffix)%string with (im_name n).
      unfold parts. cbn [sreal sname]. pose proof (proj2 (in_params t n) O) as J.
      rewrite (find_found re_name (cancel _ _) n (params t) J).
      rewrite (find_absent re_name (im_name n) (params t)) by (intros m I E; apply in_params in I; exact (A m n I O (eq_sym E))).
      rewrite (find_found im_name (cancel _ _) n (params t) J).
      destruct (rho (mksym n None)) as [a b]. apply injective_projections; cbn; ring.
  Qed.
End Parts.

Lemma complex_respects prefix suffix rho : respects rho -> respects (with_complex prefix suffix rho).
Proof. intros H s S. unfold with_complex. rewrite S. exact (H s S). Qed.

Lemma complex_takes order prefix suffix t u : iterates order ->
  (forall i, fits (shape t) i -> ordinary_params (at_ t i)) ->
  plain_text (fst prefix) -> plain_text (snd prefix) -> plain_text (fst suffix) -> plain_text (snd suffix) ->
  make_tensor_complex order prefix suffix t = Ok u ->
  (forall v, takes u v -> takes t v) /\ (no_clash prefix suffix t -> forall v, takes t v -> takes u v).
Proof.
  intros Ho O P1 P2 S1 S2 E.
  destruct (C34_complex order prefix suffix t Ho O P1 P2 S1 S2) as (u' & E' & Sh & _ & V & _).
  rewrite E in E'. injection E' as <-. split.
  - intros v (rho & H & W). exists (with_complex prefix suffix rho). split; [apply complex_respects, H|].
    intros i F. rewrite <- V by exact F. apply W. rewrite Sh. exact F.
  - intros N v (rho & H & W). exists (parts prefix suffix t rho). split; [apply parts_respects, H|].
    intros i F. rewrite Sh in F. rewrite V by exact F. rewrite <- W by exact F. apply eval_ext.
    intros s I. apply parts_value; [exact N|]. exists i. split; assumption.
Qed.

Lemma complex_all order prefix suffix t : iterates order ->
  (forall i, fits (shape t) i -> ordinary_params (at_ t i)) ->
  plain_text (fst prefix) -> plain_text (snd prefix) -> plain_text (fst suffix) -> plain_text (snd suffix) ->
  no_clash prefix suffix t ->
  exists u, make_tensor_complex order prefix suffix t = Ok u /\ shape u = shape t /\ forall v, takes u v <-> takes t v.
Proof.
  intros Ho O P1 P2 S1 S2 N.
  destruct (C34_complex order prefix suffix t Ho O P1 P2 S1 S2) as (u & E & Sh & _).
  exists u. split; [exact E|]. split; [exact Sh|].
  destruct (complex_takes order prefix suffix t u Ho O P1 P2 S1 S2 E) as [A B]. intros v. split; [apply A|apply B, N].
Qed.

(** *** Real parameters *)

Definition reals (rho : sym -> C) (t : tensor expr) (s : sym) : C :=
  match sreal s with
  | Some true => if existsb (String.eqb (sname s)) (params t) then rho (mksym (sname s) None) else rho s
  | _ => rho s
  end.
Lemma real_all order t : iterates order ->
  (forall i, fits (shape t) i -> ordinary_params (at_ t i)) ->
  (forall n, ~ (occurs t (mksym n None) /\ occurs t (mksym n (Some true)))) ->
  exists u, make_tensor_real order t = Ok u /\ shape u = shape t /\ forall v, takes u v <-> takes_real t v.
Proof.
  intros Ho O N. destruct (C34_real order t Ho O) as (u & E & Sh & _ & V & _).
  exists u. split; [exact E|]. split; [exact Sh|]. intros v. split.
  - intros (rho & H & W). exists (with_real (fun s => match sreal s with Some _ => rho s | None => RtoC 0 end)).
    split; [intros s S; unfold with_real; rewrite S; exact (H s S)|]. split.
    + intros s S. unfold with_real. rewrite S. cbn [sreal]. apply H. reflexivity.
    + intros i F. rewrite <- W by (rewrite Sh; exact F). rewrite V by exact F. apply eval_ext. intros s I.
      unfold with_real. destruct (sreal s); reflexivity.
  - intros (rho & H & R & W). exists (reals rho t). split.
    + intros s S. unfold reals. rewrite S. destruct (existsb _ _); [apply R; reflexivity|exact (H s S)].
    + intros i F. rewrite Sh in F. rewrite V by exact F. rewrite <- W by exact F. apply eval_ext. intros [n r] I.
      assert (Oc : occurs t (mksym n r)) by (exists i; split; assumption).
      unfold with_real, reals. cbn [sreal sname]. destruct r as [[|]|]; cbn [sreal sname]; [|reflexivity|].
      * destruct (existsb (String.eqb n) (params t)) eqn:X; [|reflexivity].
        apply existsb_exists in X as (m & J & X). apply String.eqb_eq in X. subst m. apply in_params in J. destruct (N n (conj J Oc)).
      * destruct (existsb (String.eqb n) (params t)) eqn:X; [reflexivity|].
        exfalso. assert (Y : existsb (String.eqb n) (params t) = true) by (apply existsb_exists; exists n; split; [apply in_params, Oc|apply String.eqb_refl]). congruence.
Qed.
