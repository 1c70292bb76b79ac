(** Proofs for C135. *)
From Coq Require Import String Ascii List Arith ZArith Bool Lia Reals Permutation.
From Coquelicot Require Import Complex.
Import ListNotations.
From Verif Require Import PyBase Expr FDataModel FormModel FitModel SpecFit FitProofs3 DiskModel DiskProofs LibModel LibModel2 SpecLib2 LibProofs LibProofs2 LateModel SpecLate.
Local Open Scope nat_scope.

Lemma rooted_not_dot dir : starts "/" dir = true -> String.eqb dir "." = false.
Proof. intros H. apply starts_slash in H. destruct H as [t ->]. reflexivity. Qed.
Lemma below_rooted dir name : starts "/" dir = true -> below dir name = file_path dir name.
Proof. intros H. unfold below. rewrite (rooted_not_dot dir H). reflexivity. Qed.
Lemma located_rooted cwd dir : starts "/" dir = true -> located cwd dir = dir.
Proof. intros H. unfold located. rewrite (rooted_not_dot dir H). apply starts_slash in H. destruct H as [t ->]. reflexivity. Qed.
Lemma file_path_slash dir name : has_slash (file_path dir name) = true.
Proof. unfold file_path. rewrite slash_app. cbn. apply orb_true_r. Qed.
Lemma dget_keyed {K V} `{Eqb K} (f : K -> V) x l : dget x (map (fun k => (k, f k)) l) = if existsb (eqb x) l then Some (f x) else None.
Proof.
  induction l as [|k l IH]; [reflexivity|]. cbn. destruct (eqb_spec x k) as [<-|N]; [reflexivity|]. exact IH.
Qed.
Lemma dget_listed {V} (l : list (string * V)) n v : NoDup (map fst l) -> In (n, v) l -> dget n l = Some v.
Proof.
  induction l as [|[a b] l IH]; intros N I; [destruct I|]. cbn in N. inversion N; subst. cbn [dget]. destruct (eqb_spec n a) as [->|Na].
  - destruct I as [I|I]; [congruence|]. exfalso. apply H1. apply (in_map fst) in I. exact I.
  - destruct I as [I|I]; [congruence|]. apply IH; assumption.
Qed.

Section Late.
Variable kev : code -> code.
Variable order : list (string * list code) -> list (string * list code).
Variable cwd : string.
Hypothesis Ho : forall l, Permutation (order l) l.

Section Folder.
Variable folder : string.
Variable fs : list (string * list code).
Hypothesis Rt : starts "/" folder = true.
Hypothesis Nd : NoDup (map fst fs).
Notation keeps := (keeps order folder fs).

Lemma order_nodup : NoDup (map fst (order fs)).
Proof. exact (Permutation_NoDup (Permutation_map fst (Permutation_sym (Ho fs))) Nd). Qed.

Lemma open_late_keeps n p : keeps p -> keeps (fst (open_late cwd folder n p)) /\ (forall lib, In (n, lib) (order fs) -> snd (open_late cwd folder n p) = Ok lib).
Proof.
  intros [D C]. unfold open_late. rewrite (below_rooted folder n Rt), (located_rooted cwd folder Rt), file_path_slash, D.
  destruct (dget (file_path folder n) (handles p)) as [l|] eqn:E.
  - split; [split; assumption|]. intros lib I. destruct (C n lib I) as [X|X]; cbn [snd]; congruence.
  - destruct (dget n fs) as [l|] eqn:G; cbn [fst snd].
    + split.
      * split; [exact D|]. intros n' lib' I'. cbn [handles]. destruct (string_dec n' n) as [->|Nn].
        { right. rewrite dget_dset_eq. rewrite <- G. apply dget_listed; [exact Nd|]. apply (Permutation_in _ (Ho fs)). exact I'. }
        rewrite dget_dset_neq by (intros X; apply file_path_inj in X; congruence). apply C. exact I'.
      * intros lib I. assert (X : dget n fs = Some lib) by (apply dget_listed; [exact Nd|]; apply (Permutation_in _ (Ho fs)); exact I). congruence.
    + split; [split; assumption|]. intros lib I. assert (X : dget n fs = Some lib) by (apply dget_listed; [exact Nd|]; apply (Permutation_in _ (Ho fs)); exact I). congruence.
Qed.
Lemma open_all_keeps ns : forall p, keeps p -> keeps (fst (open_all cwd folder ns p)).
Proof.
  induction ns as [|n ns IH]; intros p K; [exact K|]. cbn [open_all]. pose proof (proj1 (open_late_keeps n p K)) as K1.
  destruct (open_late cwd folder n p) as [p1 [lib|e]]; [|exact K1]. cbn [fst] in K1. pose proof (IH p1 K1) as K2. destruct (open_all cwd folder ns p1) as [p2 r]. exact K2.
Qed.
Lemma open_all_found l : incl l (order fs) -> forall p, keeps p -> snd (open_all cwd folder (map fst l) p) = Ok (map snd l).
Proof.
  induction l as [|[n lib] l IH]; intros Inc p K; [reflexivity|]. cbn [open_all map fst snd]. destruct (open_late_keeps n p K) as [K1 E1].
  specialize (E1 lib (Inc _ (or_introl eq_refl))). destruct (open_late cwd folder n p) as [p1 r]. cbn [fst snd] in *. subst r.
  specialize (IH (fun x I => Inc x (or_intror I)) p1 K1). destruct (open_all cwd folder (map fst l) p1) as [p2 r]. cbn [snd] in *. rewrite IH. reflexivity.
Qed.
Lemma late_keeps fd xs k m p : keeps p -> keeps (fst (late_value cwd fd folder xs k m p)).
Proof.
  intros K. unfold late_value. destruct (do row <- dgetr k fd; dgetr m row) as [ri|e]; [|exact K].
  pose proof (open_all_keeps (fst ri) p K) as K1. destruct (open_all cwd folder (fst ri) p) as [p1 [rs|e]]; [|exact K1]. cbn [fst] in K1.
  pose proof (open_all_keeps (snd ri) p1 K1) as K2. destruct (open_all cwd folder (snd ri) p1) as [p2 [is|e]]; exact K2.
Qed.
Lemma late_found F xs k m p q : dget folder (folders p) = Some fs -> keeps q ->
  snd (late_value cwd (load_late order cwd F folder p) folder xs k m q) = model_value (load_model_func F (order fs)) xs k m.
Proof.
  intros Dp K. unfold late_value, model_value, load_late, load_model_func, dgetr.
  rewrite !dget_keyed. destruct (existsb (eqb k) (ff_get_keys F)); [|reflexivity]. cbn [bind]. rewrite !dget_keyed.
  destruct (existsb (eqb m) (freqs (ff_M F))); [|reflexivity]. cbn [bind fst snd].
  assert (X : forall imag, found_names order cwd folder k m imag p = map fst (filter (fun nl => glob_so (stem k m imag) (fst nl)) (order fs))).
  { intros imag. unfold found_names, listing. rewrite (located_rooted cwd folder Rt), Dp. reflexivity. }
  rewrite !X. set (l1 := filter (fun nl => glob_so (stem k m false) (fst nl)) (order fs)). set (l2 := filter (fun nl => glob_so (stem k m true) (fst nl)) (order fs)).
  assert (I1 : incl l1 (order fs)) by (intros x I; apply filter_In in I; apply I). assert (I2 : incl l2 (order fs)) by (intros x I; apply filter_In in I; apply I).
  pose proof (open_all_found l1 I1 q K) as E1. pose proof (open_all_keeps (map fst l1) q K) as K1.
  destruct (open_all cwd folder (map fst l1) q) as [q1 r1]. cbn [fst snd] in *. subst r1.
  pose proof (open_all_found l2 I2 q1 K1) as E2. destruct (open_all cwd folder (map fst l2) q1) as [q2 r2]. cbn [fst snd] in *. subst r2.
  cbn [snd]. unfold load_entry. fold l1 l2. reflexivity.
Qed.
End Folder.

(** Libraries of folders by the side *)
Definition alike (folder : string) (p q : shelf) : Prop := folders q = folders p /\ forall name, dget (file_path folder name) (handles q) = dget (file_path folder name) (handles p).
Lemma alike_refl folder p : alike folder p p.
Proof. split; reflexivity. Qed.
Lemma alike_trans folder p q r : alike folder p q -> alike folder q r -> alike folder p r.
Proof. intros [A B] [A' B']. split; [congruence|]. intros name. rewrite B'. apply B. Qed.
Lemma load_alike F folder f p : apart f folder -> alike folder p (fst (load_model_now order F f p)).
Proof.
  intros A. split; [apply (proj1 (load_mild order F f p))|]. intros name.
  assert (C : forall nl q, dget (file_path folder name) (handles q) = dget (file_path folder name) (handles p) ->
    dget (file_path folder name) (handles (fst (open_file f nl q))) = dget (file_path folder name) (handles p)).
  { intros nl q E. unfold open_file. destruct (dget (file_path f (fst nl)) (handles q)); [exact E|]. cbn [fst handles].
    rewrite dget_dset_neq; [exact E|]. intros X. exact (apart_paths _ _ _ _ A (eq_sym X)). }
  set (P := fun q => dget (file_path folder name) (handles q) = dget (file_path folder name) (handles p)).
  assert (D : forall k m imag q, P q -> P (fst (load_component order f k m imag q))) by (intros k m imag q Pq; apply (each_pres _ P); [exact C|exact Pq]).
  change (P (fst (load_model_now order F f p))). unfold load_model_now. apply (each_pres _ P); [|reflexivity]. intros k q Sq.
  match goal with |- context [each ?g (freqs (ff_M F)) q] => pose proof (each_pres g P (freqs (ff_M F))) as Y;
    assert (Z : forall a p, P p -> P (fst (g a p))) end.
  { intros m q0 S0. pose proof (D k m false q0 S0) as S1. destruct (load_component order f k m false q0) as [p1 r]. cbn [fst] in S1.
    pose proof (D k m true p1 S1) as S2. destruct (load_component order f k m true p1) as [p2 i]. exact S2. }
  specialize (Y Z q Sq). destruct (each _ (freqs (ff_M F)) q) as [p' row]. exact Y.
Qed.
Lemma open_late_alike folder f n p : starts "/" f = true -> apart f folder -> alike folder p (fst (open_late cwd f n p)).
Proof.
  intros R A. unfold open_late. rewrite (below_rooted f n R). destruct (dget (file_path f n) (handles p)); [apply alike_refl|]. destruct (has_slash (file_path f n)); [|apply alike_refl].
  destruct (dget (located cwd f) (folders p)) as [l|]; [|apply alike_refl]. destruct (dget n l); [|apply alike_refl]. split; [reflexivity|]. intros name. cbn [fst handles].
  apply dget_dset_neq. intros X. exact (apart_paths _ _ _ _ A (eq_sym X)).
Qed.
Lemma open_all_alike folder f ns : starts "/" f = true -> apart f folder -> forall p, alike folder p (fst (open_all cwd f ns p)).
Proof.
  intros R A. induction ns as [|n ns IH]; intros p; [apply alike_refl|]. cbn [open_all]. pose proof (open_late_alike folder f n p R A) as K1.
  destruct (open_late cwd f n p) as [p1 [lib|e]]; [|exact K1]. cbn [fst] in K1. pose proof (IH p1) as K2. destruct (open_all cwd f ns p1) as [p2 r].
  exact (alike_trans _ _ _ _ K1 K2).
Qed.
Lemma late_alike folder fd f xs k m p : starts "/" f = true -> apart f folder -> alike folder p (fst (late_value cwd fd f xs k m p)).
Proof.
  intros R A. unfold late_value. destruct (do row <- dgetr k fd; dgetr m row) as [ri|e]; [|apply alike_refl].
  pose proof (open_all_alike folder f (fst ri) R A p) as K1. destruct (open_all cwd f (fst ri) p) as [p1 [rs|e]]; [|exact K1]. cbn [fst] in K1.
  pose proof (open_all_alike folder f (snd ri) R A p1) as K2. destruct (open_all cwd f (snd ri) p1) as [p2 [is|e]]; exact (alike_trans _ _ _ _ K1 K2).
Qed.
Lemma alike_keeps folder fs p q : alike folder p q -> keeps order folder fs p -> keeps order folder fs q.
Proof. intros [A B] [D C]. split; [congruence|]. intros n lib I. rewrite B. apply C. exact I. Qed.

Lemma does_keeps folder fs e p : starts "/" folder = true -> NoDup (map fst fs) -> tidy folder e -> ~ saves_in folder e -> keeps order folder fs p ->
  keeps order folder fs (does kev order cwd p e).
Proof.
  intros Rt Nd T S K. destruct e as [[F n [f|]|F f|]|fd f xs k m]; cbn [does acts tidy saves_in] in *.
  - destruct K as [D C]. split; [|exact C]. cbn [folders]. rewrite disk_others; [exact D|]. congruence.
  - rewrite disk_nothing. destruct p as [a b]. exact K.
  - destruct T as [->|A]; [|exact (alike_keeps _ _ _ _ (load_alike F folder f p A) K)]. apply (load_current order F folder fs p (order_nodup fs Nd) K).
  - destruct K as [D _]. split; [exact D|]. intros n lib _. left. reflexivity.
  - destruct T as [R [->|A]]; [apply late_keeps; assumption|]. exact (alike_keeps _ _ _ _ (late_alike folder fd f xs k m p R A) K).
Qed.
Lemma deeds_keeps folder fs h : starts "/" folder = true -> NoDup (map fst fs) -> (forall e, In e h -> tidy folder e /\ ~ saves_in folder e) -> forall p,
  keeps order folder fs p -> keeps order folder fs (deeds kev order cwd p h).
Proof.
  intros Rt Nd. induction h as [|e h IH]; intros H p K; [exact K|]. cbn [deeds fold_left]. apply IH; [intros e' I; apply H; right; exact I|].
  destruct (H e (or_introl eq_refl)). apply does_keeps; assumption.
Qed.
Lemma deeds_shut folder h : (forall e, In e h -> aside folder e) -> forall p, shut folder p -> shut folder (deeds kev order cwd p h).
Proof.
  induction h as [|e h IH]; intros H p S; [exact S|]. cbn [deeds fold_left]. apply IH; [intros e' I; apply H; right; exact I|].
  pose proof (H e (or_introl eq_refl)) as A. destruct e as [[F n f|F f|]|fd f xs k m]; cbn [does acts aside] in *.
  - exact S.
  - intros name. rewrite (proj2 (load_alike F folder f p A)). apply S.
  - intros name. reflexivity.
  - intros name. destruct A as [R A]. rewrite (proj2 (late_alike folder fd f xs k m p R A)). apply S.
Qed.

(** A model saved, found, and called later *)
Section Saved.
Variables (F : fform) (n : Z) (folder : string).
Variable fd : list (string * list (Z * (list (list code) * list (list code)))).
Variable fs : list (string * list code).
Hypothesis FO : formula_ok F.
Hypothesis Cl : clear_keys (ff_get_keys F).
Hypothesis G : gen_model_func kev F n = Ok (fd, fs).
Hypothesis Rt : starts "/" folder = true.

Lemma late_saved p q xs k m : dget folder (folders p) = Some fs -> keeps order folder fs q ->
  snd (late_value cwd (load_late order cwd F folder p) folder xs k m q) = model_value fd xs k m.
Proof.
  intros D K. rewrite (late_found folder fs Rt (saved_distinct kev F n fd fs G) F xs k m p q D K). apply (reload_same kev F n fd fs (order fs) FO Cl G (Ho fs)).
Qed.
Lemma saved_then p h xs k m : (forall e, In e h -> tidy folder e /\ ~ saves_in folder e) -> shut folder p ->
  let q := does kev order cwd p (Do (GenModel F n (Some folder))) in
  snd (late_value cwd (load_late order cwd F folder q) folder xs k m (deeds kev order cwd q h)) = model_value fd xs k m.
Proof.
  intros H S q. assert (D : dget folder (folders q) = Some fs).
  { unfold q. cbn [does acts]. rewrite (disk_success kev F n folder (folders p) fd fs G). apply dget_dset_eq. }
  apply late_saved; [exact D|]. apply deeds_keeps; [exact Rt|exact (saved_distinct kev F n fd fs G)|exact H|]. split; [exact D|].
  intros name lib _. left. unfold q. cbn [does acts]. rewrite (disk_success kev F n folder (folders p) fd fs G). apply S.
Qed.
Lemma saved_first d h h' xs k m : (forall e, In e h -> aside folder e) -> (forall e, In e h' -> tidy folder e /\ ~ saves_in folder e) ->
  let q := deeds kev order cwd (mkshelf d []) (h ++ [Do (GenModel F n (Some folder))]) in
  snd (late_value cwd (load_late order cwd F folder q) folder xs k m (deeds kev order cwd q h')) = model_value fd xs k m.
Proof.
  intros H H' q. unfold q. unfold deeds at 1 3. rewrite fold_left_app. cbn [fold_left]. apply saved_then; [exact H'|]. apply deeds_shut; [exact H|]. intros name. reflexivity.
Qed.
Lemma saved_worker p h xs k m : (forall e, In e h -> tidy folder e /\ ~ saves_in folder e) ->
  let q := does kev order cwd p (Do (GenModel F n (Some folder))) in
  snd (late_value cwd (load_late order cwd F folder q) folder xs k m (deeds kev order cwd q (Do Afresh :: h))) = model_value fd xs k m.
Proof.
  intros H q. assert (D : dget folder (folders q) = Some fs).
  { unfold q. cbn [does acts]. rewrite (disk_success kev F n folder (folders p) fd fs G). apply dget_dset_eq. }
  apply late_saved; [exact D|]. cbn [deeds fold_left]. apply deeds_keeps; [exact Rt|exact (saved_distinct kev F n fd fs G)|exact H|]. split; [exact D|].
  intros name lib _. left. reflexivity.
Qed.
End Saved.

(** What was called stays. *)
Lemma open_late_extends dir n p : extends p (fst (open_late cwd dir n p)).
Proof.
  intros s lib E. unfold open_late. destruct (dget (below dir n) (handles p)) as [l|] eqn:X; [exact E|]. destruct (has_slash (below dir n)); [|exact E].
  destruct (dget (located cwd dir) (folders p)) as [l|]; [|exact E]. destruct (dget n l); [|exact E]. cbn [fst handles]. rewrite dget_dset_neq; [exact E|]. congruence.
Qed.
Lemma open_all_extends dir ns : forall p, extends p (fst (open_all cwd dir ns p)).
Proof.
  induction ns as [|n ns IH]; intros p; [intros s lib E; exact E|]. cbn [open_all]. pose proof (open_late_extends dir n p) as K1.
  destruct (open_late cwd dir n p) as [p1 [lib|e]]; [|exact K1]. cbn [fst] in K1. pose proof (IH p1) as K2. destruct (open_all cwd dir ns p1) as [p2 r].
  intros s l E. apply K2, K1, E.
Qed.
Lemma late_extends fd dir xs k m p : extends p (fst (late_value cwd fd dir xs k m p)).
Proof.
  unfold late_value. destruct (do row <- dgetr k fd; dgetr m row) as [ri|e]; [|intros s l E; exact E].
  pose proof (open_all_extends dir (fst ri) p) as K1. destruct (open_all cwd dir (fst ri) p) as [p1 [rs|e]]; [|exact K1]. cbn [fst] in K1.
  pose proof (open_all_extends dir (snd ri) p1) as K2. destruct (open_all cwd dir (snd ri) p1) as [p2 [is|e]]; intros s l E; apply K2, K1, E.
Qed.
Lemma does_extends e p : e <> Do Afresh -> extends p (does kev order cwd p e).
Proof.
  intros N. destruct e as [[F n f|F f|]|fd f xs k m]; cbn [does acts]; [intros s l E; exact E|apply load_mild|congruence|apply late_extends].
Qed.
Lemma deeds_extends h : ~ In (Do Afresh) h -> forall p, extends p (deeds kev order cwd p h).
Proof.
  induction h as [|e h IH]; intros N p; [intros s l E; exact E|]. cbn [deeds fold_left]. intros s l E. apply IH; [intros I; apply N; right; exact I|].
  apply does_extends; [intros X; apply N; left; exact X|exact E].
Qed.
Lemma open_late_result dir n p lib : snd (open_late cwd dir n p) = Ok lib -> dget (below dir n) (handles (fst (open_late cwd dir n p))) = Some lib.
Proof.
  unfold open_late. destruct (dget (below dir n) (handles p)) as [l|] eqn:X; [cbn; congruence|]. destruct (has_slash (below dir n)); [|discriminate].
  destruct (dget (located cwd dir) (folders p)) as [l|]; [|discriminate]. destruct (dget n l); [|discriminate]. cbn [fst snd handles]. rewrite dget_dset_eq. congruence.
Qed.
Lemma open_all_again dir ns : forall p q libs, snd (open_all cwd dir ns p) = Ok libs -> extends (fst (open_all cwd dir ns p)) q -> open_all cwd dir ns q = (q, Ok libs).
Proof.
  induction ns as [|n ns IH]; intros p q libs E X; [cbn in E |- *; congruence|]. cbn [open_all] in *.
  pose proof (open_late_result dir n p) as O. destruct (open_late cwd dir n p) as [p1 [lib|e]]; [|discriminate E]. cbn [fst snd] in O. specialize (O lib eq_refl).
  pose proof (IH p1 q) as IH1. pose proof (open_all_extends dir ns p1) as X1. destruct (open_all cwd dir ns p1) as [p2 [ls|e]]; cbn [fst snd bind] in *; [|discriminate E].
  assert (Q : open_late cwd dir n q = (q, Ok lib)) by (unfold open_late; rewrite (X _ _ (X1 _ _ O)); reflexivity).
  rewrite Q, (IH1 ls eq_refl X). cbn. congruence.
Qed.
Lemma late_again fd dir xs k m p q v : snd (late_value cwd fd dir xs k m p) = Ok v -> extends (fst (late_value cwd fd dir xs k m p)) q ->
  forall ys, late_value cwd fd dir ys k m q = (q, snd (late_value cwd fd dir ys k m p)).
Proof.
  intros E X ys. revert E X. unfold late_value. destruct (do row <- dgetr k fd; dgetr m row) as [ri|e]; [|discriminate].
  pose proof (open_all_again dir (fst ri) p q) as A1. destruct (open_all cwd dir (fst ri) p) as [p1 [rs|e]]; [|discriminate]. cbn [fst snd] in A1.
  pose proof (open_all_again dir (snd ri) p1 q) as A2. pose proof (open_all_extends dir (snd ri) p1) as X2.
  destruct (open_all cwd dir (snd ri) p1) as [p2 [is|e]]; [|discriminate]. cbn [fst snd] in *. intros _ X.
  rewrite (A1 rs eq_refl (fun s l H => X s l (X2 s l H))), (A2 is eq_refl X). reflexivity.
Qed.
Lemma late_pinned fd dir xs k m p v h : ~ In (Do Afresh) h -> snd (late_value cwd fd dir xs k m p) = Ok v ->
  forall ys, snd (late_value cwd fd dir ys k m (deeds kev order cwd (fst (late_value cwd fd dir xs k m p)) h)) = snd (late_value cwd fd dir ys k m p).
Proof. intros N E ys. rewrite (late_again fd dir xs k m p _ v E (deeds_extends h N _)). reflexivity. Qed.

(** The working directory *)
Lemma open_late_bare dir n p s : has_slash s = false -> dget s (handles p) = None -> dget s (handles (fst (open_late cwd dir n p))) = None.
Proof.
  intros B E. unfold open_late. destruct (dget (below dir n) (handles p)); [exact E|]. destruct (has_slash (below dir n)) eqn:X; [|exact E].
  destruct (dget (located cwd dir) (folders p)) as [l|]; [|exact E]. destruct (dget n l); [|exact E]. cbn [fst handles]. rewrite dget_dset_neq; [exact E|]. congruence.
Qed.
Lemma open_all_bare dir ns s : has_slash s = false -> forall p, dget s (handles p) = None -> dget s (handles (fst (open_all cwd dir ns p))) = None.
Proof.
  intros B. induction ns as [|n ns IH]; intros p E; [exact E|]. cbn [open_all]. pose proof (open_late_bare dir n p s B E) as K1.
  destruct (open_late cwd dir n p) as [p1 [lib|e]]; [|exact K1]. cbn [fst] in K1. pose proof (IH p1 K1) as K2. destruct (open_all cwd dir ns p1) as [p2 r]. exact K2.
Qed.
Lemma load_bare F f s p : has_slash s = false -> dget s (handles p) = None -> dget s (handles (fst (load_model_now order F f p))) = None.
Proof.
  intros B E0. set (P := fun q => dget s (handles q) = None).
  assert (C : forall nl q, P q -> P (fst (open_file f nl q))).
  { unfold P. intros nl q E. unfold open_file. destruct (dget (file_path f (fst nl)) (handles q)); [exact E|]. cbn [fst handles].
    rewrite dget_dset_neq; [exact E|]. intros X. pose proof (file_path_slash f (fst nl)) as S. congruence. }
  assert (D : forall k m imag q, P q -> P (fst (load_component order f k m imag q))) by (intros k m imag q Pq; apply (each_pres _ P); [exact C|exact Pq]).
  change (P (fst (load_model_now order F f p))). unfold load_model_now. apply (each_pres _ P); [|exact E0]. intros k q Sq.
  match goal with |- context [each ?g (freqs (ff_M F)) q] => pose proof (each_pres g P (freqs (ff_M F))) as Y;
    assert (Z : forall a p, P p -> P (fst (g a p))) end.
  { intros m q0 S0. pose proof (D k m false q0 S0) as S1. destruct (load_component order f k m false q0) as [p1 r]. cbn [fst] in S1.
    pose proof (D k m true p1 S1) as S2. destruct (load_component order f k m true p1) as [p2 i]. exact S2. }
  specialize (Y Z q Sq). destruct (each _ (freqs (ff_M F)) q) as [p' row]. exact Y.
Qed.
Lemma deeds_bare s h : has_slash s = false -> forall p, dget s (handles p) = None -> dget s (handles (deeds kev order cwd p h)) = None.
Proof.
  intros B. induction h as [|e h IH]; intros p E; [exact E|]. cbn [deeds fold_left]. apply IH. destruct e as [[F n f|F f|]|fd f xs k m]; cbn [does acts].
  - exact E.
  - apply load_bare; assumption.
  - reflexivity.
  - unfold late_value. destruct (do row <- dgetr k fd; dgetr m row) as [ri|e]; [|exact E].
    pose proof (open_all_bare f (fst ri) s B p E) as K1. destruct (open_all cwd f (fst ri) p) as [p1 [rs|e]]; [|exact K1]. cbn [fst] in K1.
    pose proof (open_all_bare f (snd ri) s B p1 K1) as K2. destruct (open_all cwd f (snd ri) p1) as [p2 [is|e]]; exact K2.
Qed.
Lemma late_here d h F p xs k m : In k (ff_get_keys F) -> In m (freqs (ff_M F)) -> (forall imag n, In n (found_names order cwd "." k m imag p) -> has_slash n = false) ->
  found_names order cwd "." k m false p <> [] ->
  snd (late_value cwd (load_late order cwd F "." p) "." xs k m (deeds kev order cwd (mkshelf d []) h)) = Raise OSError.
Proof.
  intros Ik Im' B Ne. unfold late_value, load_late, dgetr. rewrite dget_keyed.
  assert (X : existsb (eqb k) (ff_get_keys F) = true) by (apply existsb_exists; exists k; split; [exact Ik|apply eqb_refl]). rewrite X. cbn [bind].
  rewrite dget_keyed. assert (Y : existsb (eqb m) (freqs (ff_M F)) = true) by (apply existsb_exists; exists m; split; [exact Im'|apply eqb_refl]). rewrite Y. cbn [fst snd].
  destruct (found_names order cwd "." k m false p) as [|n ns] eqn:E; [congruence|]. cbn [open_all].
  assert (Bn : has_slash n = false) by (apply (B false n); rewrite E; left; reflexivity).
  unfold open_late. change (below "." n) with n. rewrite (deeds_bare n h Bn (mkshelf d []) eq_refl), Bn. reflexivity.
Qed.
End Late.
