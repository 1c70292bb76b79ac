(** Proofs for C130. *)
From Coq Require Import String List Arith ZArith Bool Lia Permutation.
Import ListNotations.
From Verif Require Import PyBase Expr FDataModel FormModel FitModel SpecFit FitProofs3 DiskModel DiskProofs LibModel2 SpecLib2.
Local Open Scope nat_scope.

Lemma append_inj s : forall a b, (s ++ a)%string = (s ++ b)%string -> a = b.
Proof. induction s as [|c s IH]; cbn; intros a b H; [exact H|]. injection H as H. auto. Qed.
Lemma file_path_inj folder a b : file_path folder a = file_path folder b -> a = b.
Proof. unfold file_path. intros H. apply append_inj in H. injection H as H. exact H. Qed.

(** every library opened from the folder is the one the folder holds *)
Definition current (folder : string) (l : list (string * list code)) (p : shelf) : Prop :=
  forall n lib, In (n, lib) l -> dget (file_path folder n) (handles p) = None \/ dget (file_path folder n) (handles p) = Some lib.

Lemma open_current folder l nl p : NoDup (map fst l) -> current folder l p -> In nl l ->
  snd (open_file folder nl p) = snd nl /\ current folder l (fst (open_file folder nl p)) /\ folders (fst (open_file folder nl p)) = folders p.
Proof.
  intros N C I. destruct nl as [n lib]. unfold open_file. cbn [fst snd].
  destruct (dget (file_path folder n) (handles p)) as [l'|] eqn:E; cbn [fst snd].
  - destruct (C n lib I) as [X|X]; [congruence|]. split; [congruence|]. auto.
  - split; [reflexivity|]. split; [|reflexivity]. intros n' lib' I'. cbn [handles]. destruct (string_dec n' n) as [->|Nn].
    + right. rewrite dget_dset_eq. f_equal. clear - N I I'. induction l as [|[a b] l IH]; [destruct I|]. cbn in N. inversion N; subst.
      destruct I as [I|I], I' as [I'|I']; [congruence| | |auto].
      * injection I as <- <-. exfalso. apply H1. apply (in_map fst) in I'. exact I'.
      * injection I' as <- <-. exfalso. apply H1. apply (in_map fst) in I. exact I.
    + rewrite dget_dset_neq by (intros X; apply file_path_inj in X; congruence). apply C. exact I'.
Qed.
Lemma each_current {A B} (f : A -> shelf -> shelf * B) (g : A -> B) (P : shelf -> Prop) l :
  (forall a p, In a l -> P p -> snd (f a p) = g a /\ P (fst (f a p))) -> forall p, P p -> snd (each f l p) = map g l /\ P (fst (each f l p)).
Proof.
  induction l as [|a l IH]; intros H p Hp; [split; [reflexivity|exact Hp]|]. cbn [each map].
  destruct (H a p (or_introl eq_refl) Hp) as [E1 H1]. destruct (f a p) as [p1 b]. cbn [fst snd] in *.
  destruct (IH (fun a' p' I' => H a' p' (or_intror I')) p1 H1) as [E2 H2]. destruct (each f l p1) as [p2 bs]. cbn [fst snd] in *. subst. auto.
Qed.
Lemma each_pres {A B} (f : A -> shelf -> shelf * B) (P : shelf -> Prop) l : (forall a p, P p -> P (fst (f a p))) -> forall p, P p -> P (fst (each f l p)).
Proof.
  intros H. induction l as [|a l IH]; intros p Hp; [exact Hp|]. cbn [each]. specialize (H a p Hp). destruct (f a p) as [p1 b]. cbn [fst] in H.
  specialize (IH p1 H). destruct (each f l p1) as [p2 bs]. exact IH.
Qed.

Section Shelf.
Variable kev : code -> code.
Variable order : list (string * list code) -> list (string * list code).

Definition keeps folder (fs : list (string * list code)) (p : shelf) : Prop := dget folder (folders p) = Some fs /\ current folder (order fs) p.
Lemma component_current folder fs k m imag p : NoDup (map fst (order fs)) -> keeps folder fs p ->
  snd (load_component order folder k m imag p) = load_entry (order fs) k m imag /\ keeps folder fs (fst (load_component order folder k m imag p)).
Proof.
  intros N K. unfold load_component, load_entry, listing. rewrite (proj1 K).
  apply (each_current _ snd (keeps folder fs)); [|exact K]. intros nl q I [D C]. apply filter_In in I as [I _].
  destruct (open_current folder (order fs) nl q N C I) as (E & C' & F'). split; [exact E|]. split; [rewrite F'; exact D|exact C'].
Qed.
Lemma load_current F folder fs p : NoDup (map fst (order fs)) -> keeps folder fs p ->
  snd (load_model_now order F folder p) = load_model_func F (order fs) /\ keeps folder fs (fst (load_model_now order F folder p)).
Proof.
  intros N K. unfold load_model_now, load_model_func.
  apply (each_current _ (fun k => (k, map (fun m => (m, (load_entry (order fs) k m false, load_entry (order fs) k m true))) (freqs (ff_M F)))) (keeps folder fs)); [|exact K].
  intros k q _ Kq.
  assert (X := each_current (fun m p => let (p1, r) := load_component order folder k m false p in let (p2, i) := load_component order folder k m true p1 in (p2, (m, (r, i))))
    (fun m => (m, (load_entry (order fs) k m false, load_entry (order fs) k m true))) (keeps folder fs) (freqs (ff_M F))).
  assert (Y : forall (a : Z) p, In a (freqs (ff_M F)) -> keeps folder fs p ->
    snd (let (p1, r) := load_component order folder k a false p in let (p2, i) := load_component order folder k a true p1 in (p2, (a, (r, i)))) =
      (a, (load_entry (order fs) k a false, load_entry (order fs) k a true)) /\
    keeps folder fs (fst (let (p1, r) := load_component order folder k a false p in let (p2, i) := load_component order folder k a true p1 in (p2, (a, (r, i)))))).
  { intros a p0 _ K0. destruct (component_current folder fs k a false p0 N K0) as [E1 K1]. destruct (load_component order folder k a false p0) as [p1 r]. cbn [fst snd] in *.
    destruct (component_current folder fs k a true p1 N K1) as [E2 K2]. destruct (load_component order folder k a true p1) as [p2 i]. cbn [fst snd] in *. subst. auto. }
  specialize (X Y q Kq). destruct (each _ (freqs (ff_M F)) q) as [p' row]. cbn [fst snd] in *. destruct X as [-> X]. auto.
Qed.

(** An open library stays. *)
Lemma open_stays folder nl p s lib : dget s (handles p) = Some lib -> dget s (handles (fst (open_file folder nl p))) = Some lib.
Proof.
  intros E. unfold open_file. destruct (dget (file_path folder (fst nl)) (handles p)) as [l|] eqn:X; [exact E|]. cbn [fst handles].
  rewrite dget_dset_neq; [exact E|]. congruence.
Qed.
Lemma load_stays F folder p s lib : dget s (handles p) = Some lib -> dget s (handles (fst (load_model_now order F folder p))) = Some lib.
Proof.
  intros E. unfold load_model_now. apply (each_pres _ (fun p => dget s (handles p) = Some lib)); [|exact E]. clear p E. intros k p E.
  assert (C : forall m imag p, dget s (handles p) = Some lib -> dget s (handles (fst (load_component order folder k m imag p))) = Some lib).
  { intros m imag p0 E0. unfold load_component. apply (each_pres _ (fun p => dget s (handles p) = Some lib)); [|exact E0]. intros nl p1. apply open_stays. }
  assert (Y := each_pres (fun m p => let (p1, r) := load_component order folder k m false p in let (p2, i) := load_component order folder k m true p1 in (p2, (m, (r, i))))
    (fun p => dget s (handles p) = Some lib) (freqs (ff_M F))).
  assert (Z : forall (a : Z) p, dget s (handles p) = Some lib ->
    dget s (handles (fst (let (p1, r) := load_component order folder k a false p in let (p2, i) := load_component order folder k a true p1 in (p2, (a, (r, i)))))) = Some lib).
  { intros a p0 E0. pose proof (C a false p0 E0) as E1. destruct (load_component order folder k a false p0) as [p1 r]. cbn [fst] in E1.
    pose proof (C a true p1 E1) as E2. destruct (load_component order folder k a true p1) as [p2 i]. exact E2. }
  specialize (Y Z p E). destruct (each _ (freqs (ff_M F)) p) as [p' row]. exact Y.
Qed.
Lemma course_stays h : ~ In Afresh h -> forall p s lib, dget s (handles p) = Some lib -> dget s (handles (course kev order p h)) = Some lib.
Proof.
  induction h as [|a h IH]; intros NA p s lib E; [exact E|]. cbn [course fold_left]. apply IH; [intros X; apply NA; right; exact X|].
  destruct a; cbn [acts]; [exact E|apply load_stays; exact E|]. exfalso. apply NA. left. reflexivity.
Qed.

(** What is loaded again *)
Definition holds (folder : string) (q : shelf) (nl : string * list code) (b : list code) : Prop := dget (file_path folder (fst nl)) (handles q) = Some b.
Lemma each_stays folder l p s lib : dget s (handles p) = Some lib -> dget s (handles (fst (each (open_file folder) l p))) = Some lib.
Proof. intros E. apply (each_pres _ (fun p => dget s (handles p) = Some lib)); [|exact E]. intros nl p1. apply open_stays. Qed.
Lemma each_opened folder l : forall p q, (forall s lib, dget s (handles (fst (each (open_file folder) l p))) = Some lib -> dget s (handles q) = Some lib) ->
  Forall2 (holds folder q) l (snd (each (open_file folder) l p)).
Proof.
  induction l as [|nl l IH]; intros p q H; [constructor|]. cbn [each] in *.
  assert (O : dget (file_path folder (fst nl)) (handles (fst (open_file folder nl p))) = Some (snd (open_file folder nl p))).
  { unfold open_file. destruct (dget (file_path folder (fst nl)) (handles p)) as [lib|] eqn:E; cbn [fst snd handles]; [exact E|apply dget_dset_eq]. }
  destruct (open_file folder nl p) as [p1 b]. cbn [fst snd] in O. pose proof (each_stays folder l p1 _ _ O) as O2. pose proof (IH p1 q) as IH1.
  destruct (each (open_file folder) l p1) as [p2 bs]. cbn [fst snd] in *. constructor; [apply H; exact O2|apply IH1; exact H].
Qed.
Lemma each_again folder l bs q : forall l', Forall2 (holds folder q) l bs -> map fst l' = map fst l -> each (open_file folder) l' q = (q, bs).
Proof.
  intros l' H. revert l'. induction H as [|nl b l bs Hb H IH]; intros [|nl' l'] E; try discriminate E; [reflexivity|]. cbn in E. injection E as E1 E2.
  cbn [each]. unfold open_file at 1. unfold holds in Hb. rewrite E1, Hb. rewrite (IH l' E2). reflexivity.
Qed.
Lemma filter_fst (f : string -> bool) : forall l l' : list (string * list code), map fst l' = map fst l ->
  map fst (filter (fun nl => f (fst nl)) l') = map fst (filter (fun nl => f (fst nl)) l).
Proof.
  induction l as [|[a b] l IH]; intros [|[a' b'] l'] E; try discriminate E; [reflexivity|]. cbn in E. injection E as -> E. cbn.
  destruct (f a); cbn; rewrite (IH l' E); reflexivity.
Qed.
Definition extends (p q : shelf) : Prop := forall s lib, dget s (handles p) = Some lib -> dget s (handles q) = Some lib.

Lemma open_folders folder nl p : folders (fst (open_file folder nl p)) = folders p.
Proof. unfold open_file. destruct (dget (file_path folder (fst nl)) (handles p)); reflexivity. Qed.
Lemma component_folders folder k m imag p : folders (fst (load_component order folder k m imag p)) = folders p.
Proof. unfold load_component. apply (each_pres _ (fun q => folders q = folders p)); [|reflexivity]. intros nl q <-. apply open_folders. Qed.
Lemma component_extends folder k m imag p : extends p (fst (load_component order folder k m imag p)).
Proof. intros s lib E. apply each_stays. exact E. Qed.

(** A loop done again on what the first loop opened gives the same. *)
Definition repeats {B} (folder : string) (names : list string) (f : shelf -> shelf * B) : Prop :=
  forall p q, map fst (listing order folder p) = names -> map fst (listing order folder q) = names -> extends (fst (f p)) q -> f q = (q, snd (f p)).
Definition mild {B} (f : shelf -> shelf * B) : Prop := forall p, folders (fst (f p)) = folders p /\ extends p (fst (f p)).
Lemma listing_mild {B} (f : shelf -> shelf * B) folder p : mild f -> listing order folder (fst (f p)) = listing order folder p.
Proof. intros M. unfold listing. rewrite (proj1 (M p)). reflexivity. Qed.
Lemma component_mild folder k m imag : mild (load_component order folder k m imag).
Proof. intros p. split; [apply component_folders|apply component_extends]. Qed.
Lemma component_repeats folder names k m imag : repeats folder names (load_component order folder k m imag).
Proof.
  intros p q Np Nq X. unfold load_component in *. eapply each_again; [apply each_opened; exact X|].
  apply (filter_fst (glob_so (stem k m imag))). congruence.
Qed.
Lemma each_mild {A B} (f : A -> shelf -> shelf * B) l : (forall a, mild (f a)) -> mild (each f l).
Proof.
  intros M. induction l as [|a l IH]; intros p; [split; [reflexivity|intros s lib E; exact E]|]. cbn [each].
  pose proof (M a p) as [F1 X1]. destruct (f a p) as [p1 b]. cbn [fst] in *. pose proof (IH p1) as [F2 X2]. destruct (each f l p1) as [p2 bs]. cbn [fst] in *.
  split; [congruence|]. intros s lib E. apply X2, X1, E.
Qed.
Lemma each_repeats {A B} (f : A -> shelf -> shelf * B) folder names l : (forall a, mild (f a)) -> (forall a, repeats folder names (f a)) -> repeats folder names (each f l).
Proof.
  intros M R. induction l as [|a l IH]; intros p q Np Nq X; [reflexivity|]. cbn [each] in *.
  pose proof (listing_mild (f a) folder p (M a)) as L1. pose proof (R a p q Np Nq) as Ra.
  pose proof (each_mild f l M) as Ml. destruct (f a p) as [p1 b]. cbn [fst snd] in *. pose proof (IH p1 q) as IH1. rewrite L1 in IH1. specialize (IH1 Np Nq).
  pose proof (proj2 (Ml p1)) as X1. destruct (each f l p1) as [p2 bs]. cbn [fst snd] in *.
  rewrite (Ra (fun s lib E => X s lib (X1 s lib E))). rewrite (IH1 X). reflexivity.
Qed.
Lemma entry_mild folder k m : mild (fun p => let (p1, r) := load_component order folder k m false p in let (p2, i) := load_component order folder k m true p1 in (p2, (m, (r, i)))).
Proof.
  intros p. pose proof (component_mild folder k m false p) as [F1 X1]. destruct (load_component order folder k m false p) as [p1 r]. cbn [fst] in *.
  pose proof (component_mild folder k m true p1) as [F2 X2]. destruct (load_component order folder k m true p1) as [p2 i]. cbn [fst] in *.
  split; [congruence|]. intros s lib E. apply X2, X1, E.
Qed.
Lemma entry_repeats folder names k m : repeats folder names (fun p => let (p1, r) := load_component order folder k m false p in let (p2, i) := load_component order folder k m true p1 in (p2, (m, (r, i)))).
Proof.
  intros p q Np Nq X. pose proof (listing_mild _ folder p (component_mild folder k m false)) as L1. pose proof (component_repeats folder names k m false p q Np Nq) as R1.
  destruct (load_component order folder k m false p) as [p1 r]. cbn [fst snd] in *.
  pose proof (component_repeats folder names k m true p1 q) as R2. rewrite L1 in R2. specialize (R2 Np Nq). pose proof (component_extends folder k m true p1) as X2.
  destruct (load_component order folder k m true p1) as [p2 i]. cbn [fst snd] in *.
  rewrite (R1 (fun s lib E => X s lib (X2 s lib E))). rewrite (R2 X). reflexivity.
Qed.
Lemma row_mild F folder k : mild (fun p => let (p', row) := each (fun m p => let (p1, r) := load_component order folder k m false p in
    let (p2, i) := load_component order folder k m true p1 in (p2, (m, (r, i)))) (freqs (ff_M F)) p in (p', (k, row))).
Proof. intros p. pose proof (each_mild _ (freqs (ff_M F)) (entry_mild folder k) p) as X. destruct (each _ (freqs (ff_M F)) p) as [p' row]. exact X. Qed.
Lemma row_repeats F folder names k : repeats folder names (fun p => let (p', row) := each (fun m p => let (p1, r) := load_component order folder k m false p in
    let (p2, i) := load_component order folder k m true p1 in (p2, (m, (r, i)))) (freqs (ff_M F)) p in (p', (k, row))).
Proof.
  intros p q Np Nq X. pose proof (each_repeats _ folder names (freqs (ff_M F)) (entry_mild folder k) (entry_repeats folder names k) p q Np Nq) as R.
  destruct (each _ (freqs (ff_M F)) p) as [p' row]. cbn [fst snd] in *. rewrite (R X). reflexivity.
Qed.
Lemma load_mild F folder : mild (load_model_now order F folder).
Proof. apply each_mild. apply row_mild. Qed.
Lemma load_repeats F folder names : repeats folder names (load_model_now order F folder).
Proof. apply each_repeats; [apply row_mild|apply row_repeats]. Qed.

Lemma again F folder p h : ~ In Afresh h ->
  let q := course kev order (fst (load_model_now order F folder p)) h in
  map fst (listing order folder q) = map fst (listing order folder p) -> snd (load_model_now order F folder q) = snd (load_model_now order F folder p).
Proof.
  intros NA q E. rewrite (load_repeats F folder (map fst (listing order folder p)) p q eq_refl E); [reflexivity|].
  intros s lib H. apply (course_stays h NA). exact H.
Qed.

(** Loads from other folders *)
Definition shut (folder : string) (p : shelf) : Prop := forall name, dget (file_path folder name) (handles p) = None.
Lemma starts_app a : forall b, starts a (a ++ b) = true.
Proof. induction a as [|c a IH]; intros b; [destruct b; reflexivity|]. cbn. rewrite Ascii.eqb_refl. apply IH. Qed.
Lemma starts_either : forall a b x y, (a ++ x)%string = (b ++ y)%string -> starts a b = true \/ starts b a = true.
Proof.
  induction a as [|c a IH]; intros b x y E; [left; destruct b; reflexivity|]. destruct b as [|d b]; [right; reflexivity|].
  cbn in E. injection E as -> E. cbn. rewrite Ascii.eqb_refl. exact (IH b x y E).
Qed.
Lemma append_assoc3 a b : file_path a b = ((a ++ "/") ++ b)%string.
Proof. unfold file_path. induction a as [|c a IH]; [reflexivity|]. cbn. f_equal. exact IH. Qed.
Lemma apart_paths a b n n' : apart a b -> file_path a n <> file_path b n'.
Proof. intros [A B] E. rewrite !append_assoc3 in E. destruct (starts_either _ _ _ _ E); congruence. Qed.
Lemma load_shut F folder folder' p : apart folder' folder -> shut folder p -> shut folder (fst (load_model_now order F folder' p)).
Proof.
  intros A S. assert (C : forall nl p, shut folder p -> shut folder (fst (open_file folder' nl p))).
  { intros nl q Sq name. unfold open_file. destruct (dget (file_path folder' (fst nl)) (handles q)); [apply Sq|]. cbn [fst handles].
    rewrite dget_dset_neq; [apply Sq|]. intros E. exact (apart_paths _ _ _ _ A (eq_sym E)). }
  assert (D : forall k m imag p, shut folder p -> shut folder (fst (load_component order folder' k m imag p))).
  { intros k m imag q Sq. apply (each_pres _ (shut folder)); [exact C|exact Sq]. }
  unfold load_model_now. apply (each_pres _ (shut folder)); [|exact S]. intros k q Sq.
  match goal with |- context [each ?f (freqs (ff_M F)) q] => pose proof (each_pres f (shut folder) (freqs (ff_M F))) as Y;
    assert (Z : forall a p, shut folder p -> shut folder (fst (f a p))) end.
  { intros m q0 S0. pose proof (D k m false q0 S0) as S1. destruct (load_component order folder' k m false q0) as [p1 r]. cbn [fst] in S1.
    pose proof (D k m true p1 S1) as S2. destruct (load_component order folder' k m true p1) as [p2 i]. exact S2. }
  specialize (Y Z q Sq). destruct (each _ (freqs (ff_M F)) q) as [p' row]. exact Y.
Qed.
Lemma course_shut folder h : (forall F f, In (LoadModel F f) h -> apart f folder) -> forall p, shut folder p -> shut folder (course kev order p h).
Proof.
  induction h as [|a h IH]; intros H p S; [exact S|]. cbn [course fold_left]. apply IH; [intros F f I; apply (H F f (or_intror I))|].
  destruct a as [F n f|F f|]; cbn [acts]; [exact S| |intros name; reflexivity]. apply load_shut; [apply (H F f (or_introl eq_refl))|exact S].
Qed.
End Shelf.

Lemma saved_distinct kev F n fd fs : gen_model_func kev F n = Ok (fd, fs) -> NoDup (map fst fs).
Proof.
  unfold gen_model_func. destruct (model_rows kev F n) as [rows|]; cbn [bind]; [|discriminate]. intros E.
  assert (X : fs = model_files rows) by congruence. rewrite X. unfold model_files. apply wf_dict_of.
Qed.
Lemma fresh_model kev order F n folder p fd fs : (forall l, Permutation (order l) l) -> formula_ok F -> clear_keys (ff_get_keys F) -> gen_model_func kev F n = Ok (fd, fs) ->
  (forall name, dget (file_path folder name) (handles p) = None) ->
  forall xs k m, model_value (snd (load_model_now order F folder (acts kev order p (GenModel F n (Some folder))))) xs k m = model_value fd xs k m.
Proof.
  intros Ho FO Cl E U xs k m. cbn [acts]. rewrite (disk_success kev F n folder (folders p) fd fs E). cbn [fst].
  assert (N : NoDup (map fst (order fs))).
  { apply (Permutation_NoDup (Permutation_map fst (Permutation_sym (Ho fs)))). apply (saved_distinct kev F n fd fs E). }
  rewrite (proj1 (load_current order F folder fs (mkshelf (dset folder fs (folders p)) (handles p)) N (conj (dget_dset_eq _ _ _) (fun name lib _ => or_introl (U name))))).
  apply (reload_same kev F n fd fs (order fs) FO Cl E (Ho fs)).
Qed.
Lemma first_model kev order d h F n folder fd fs : (forall l, Permutation (order l) l) -> formula_ok F -> clear_keys (ff_get_keys F) -> gen_model_func kev F n = Ok (fd, fs) ->
  (forall G f, In (LoadModel G f) h -> apart f folder) ->
  forall xs k m, model_value (snd (load_model_now order F folder (course kev order (mkshelf d []) (h ++ [GenModel F n (Some folder)])))) xs k m = model_value fd xs k m.
Proof.
  intros Ho FO Cl E H xs k m. unfold course. rewrite fold_left_app. cbn [fold_left].
  apply (fresh_model kev order F n folder _ fd fs Ho FO Cl E). apply (course_shut kev order folder h H). intros name. reflexivity.
Qed.
Lemma next_model kev order p F n folder fd fs : (forall l, Permutation (order l) l) -> formula_ok F -> clear_keys (ff_get_keys F) -> gen_model_func kev F n = Ok (fd, fs) ->
  forall xs k m, model_value (snd (load_model_now order F folder (course kev order p [GenModel F n (Some folder); Afresh]))) xs k m = model_value fd xs k m.
Proof.
  intros Ho FO Cl E xs k m. exact (fresh_model kev order F n folder (mkshelf (folders p) []) fd fs Ho FO Cl E (fun _ => eq_refl) xs k m).
Qed.
