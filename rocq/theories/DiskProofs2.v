(** A model that could not be finished: the files are those of the pieces before
    the first that fails. *)
From Coq Require Import String List Arith ZArith Bool Lia.
From Verif Require Import PyBase Expr FDataModel FormModel FitModel SpecFit FitProofs3 DiskModel SpecDisk SpecDisk2 DiskProofs.
Import ListNotations.
Local Open Scope nat_scope.

Section Disk.
Variable kev : code -> code.
Variables (F : fform) (n : Z).
Notation job := (string * Z * bool)%type.
Definition chunks (j : job) := model_chunks kev F n (fst (fst j)) (snd (fst j)) (snd j).
Definition jname (j : job) (i : nat) : string := so_name (fst (fst j)) (snd (fst j)) (snd j) i.

Fixpoint steps (js : list job) (fs : list (string * list code)) : list (string * list code) :=
  match js with
  | [] => fs
  | j :: js' => match entry_step kev F n (fst (fst j)) (snd (fst j)) (snd j) fs with (fs1, Ok _) => steps js' fs1 | (fs1, Raise _) => fs1 end
  end.
Definition row_jobs (k : string) (ms : list Z) : list job := flat_map (fun m => [(k, m, false); (k, m, true)]) ms.
Lemma row_steps k ms : forall rest fs, steps (row_jobs k ms ++ rest)%list fs = match row_step kev F n k ms fs with (fs1, Ok _) => steps rest fs1 | (fs1, Raise _) => fs1 end.
Proof.
  induction ms as [|m ms IH]; intros rest fs; [reflexivity|]. cbn [row_jobs flat_map List.app steps row_step fst snd].
  destruct (entry_step kev F n k m false fs) as [fs1 [r|e]]; [|reflexivity]. destruct (entry_step kev F n k m true fs1) as [fs2 [i|e]]; [|reflexivity].
  change (flat_map (fun m0 => [(k, m0, false); (k, m0, true)]) ms) with (row_jobs k ms). rewrite IH. destruct (row_step kev F n k ms fs2) as [fs3 [l|e]]; reflexivity.
Qed.
Lemma rows_steps ks : forall fs, steps (flat_map (fun k => row_jobs k (freqs (ff_M F))) ks) fs = fst (rows_step kev F n ks fs).
Proof.
  induction ks as [|k ks IH]; intros fs; [reflexivity|]. cbn [flat_map rows_step]. rewrite row_steps.
  destruct (row_step kev F n k (freqs (ff_M F)) fs) as [fs1 [r|e]]; [|reflexivity]. rewrite IH. destruct (rows_step kev F n ks fs1) as [fs2 l]. reflexivity.
Qed.

Lemma put_entry k m c i k' m' c' cs : forall fs, dget (so_name k m c i) (put fs (entry_files k' m' c' cs)) =
  if list_eq_dec string_dec [so_name k m c 0] [so_name k' m' c' 0] then match nth_error cs i with Some e => Some [e] | None => dget (so_name k m c i) fs end else dget (so_name k m c i) fs.
Proof.
  assert (G : forall cs s fs, dget (so_name k m c i) (put fs (map (fun ie => (so_name k' m' c' (fst ie), [snd ie])) (combine (seq s (length cs)) cs))) =
    if list_eq_dec string_dec [so_name k m c 0] [so_name k' m' c' 0] then if Nat.ltb i s then dget (so_name k m c i) fs else match nth_error cs (i - s) with Some e => Some [e] | None => dget (so_name k m c i) fs end else dget (so_name k m c i) fs).
  { clear cs. induction cs as [|a cs IH]; intros s fs; cbn [length seq combine map put fold_left].
    - destruct (list_eq_dec _ _ _); [|reflexivity]. destruct (Nat.ltb i s); [reflexivity|]. destruct (i - s); reflexivity.
    - cbn [fst snd]. unfold put in IH. rewrite IH. destruct (list_eq_dec string_dec [so_name k m c 0] [so_name k' m' c' 0]) as [E|E].
      + assert (E' : so_name k m c 0 = so_name k' m' c' 0) by congruence. apply so_name_inj in E' as (-> & -> & -> & _).
        destruct (Nat.lt_trichotomy i s) as [L|[L|L]].
        * rewrite (proj2 (Nat.ltb_lt i (S s))), (proj2 (Nat.ltb_lt i s)) by lia. apply dget_dset_neq. intros X. apply so_name_inj in X. lia.
        * subst s. rewrite (proj2 (Nat.ltb_lt i (S i))), (proj2 (Nat.ltb_ge i i)) by lia. rewrite Nat.sub_diag. apply dget_dset_eq.
        * rewrite (proj2 (Nat.ltb_ge i (S s))), (proj2 (Nat.ltb_ge i s)) by lia. replace (i - s) with (S (i - S s)) by lia. cbn [nth_error].
          destruct (nth_error cs (i - S s)); [reflexivity|]. apply dget_dset_neq. intros X. apply so_name_inj in X. lia.
      + apply dget_dset_neq. intros X. apply so_name_inj in X as (-> & -> & -> & _). apply E. reflexivity. }
  intros fs. unfold entry_files. rewrite G. cbn [Nat.ltb Nat.leb]. rewrite Nat.sub_0_r. reflexivity.
Qed.
Lemma compiled_nth cs : forall i e, nth_error (compiled cs) i = Some e <-> nth_error cs i = Some e /\ forall c, In c (firstn (S i) cs) -> compiles c = true.
Proof.
  induction cs as [|a cs IH]; intros i e.
  - cbn. destruct i; split; [discriminate|intros [X _]; discriminate X|discriminate|intros [X _]; discriminate X].
  - cbn [compiled]. destruct (compiles a) eqn:C.
    + destruct i as [|i].
      * cbn. split; [intros H; split; [exact H|]; intros c [<-|[]]; exact C|tauto].
      * cbn [nth_error]. rewrite IH. change (firstn (S (S i)) (a :: cs)) with (a :: firstn (S i) cs). split; intros [H1 H2]; (split; [exact H1|]).
        { intros c [<-|I]; [exact C|exact (H2 c I)]. }
        { intros c I. apply H2. right. exact I. }
    + split; [destruct i; discriminate|]. intros [_ H]. specialize (H a (or_introl eq_refl)). congruence.
Qed.

Definition due (js : list job) (j : job) (i : nat) (e : code) : Prop :=
  exists before after cs, js = (before ++ j :: after)%list /\ (forall j', In j' before -> finished kev F n j') /\
    chunks j = Ok cs /\ nth_error cs i = Some e /\ forall c, In c (firstn (S i) cs) -> compiles c = true.
Lemma job_eta (j : job) : j = (fst (fst j), snd (fst j), snd j).
Proof. destruct j as [[k m] c]. reflexivity. Qed.
Lemma entry_get j' j i fs : dget (jname j i) (fst (entry_step kev F n (fst (fst j')) (snd (fst j')) (snd j') fs)) =
  match chunks j' with
  | Raise _ => dget (jname j i) fs
  | Ok cs => if list_eq_dec string_dec [jname j 0] [jname j' 0] then match nth_error (compiled cs) i with Some e => Some [e] | None => dget (jname j i) fs end else dget (jname j i) fs
  end.
Proof.
  unfold entry_step, chunks. destruct (model_chunks kev F n (fst (fst j')) (snd (fst j')) (snd j')) as [cs|e]; [|reflexivity]. cbn [fst]. apply put_entry.
Qed.
Lemma entry_ok j fs fs1 cs : entry_step kev F n (fst (fst j)) (snd (fst j)) (snd j) fs = (fs1, Ok cs) -> finished kev F n j.
Proof.
  unfold entry_step, finished. destruct (model_chunks kev F n (fst (fst j)) (snd (fst j)) (snd j)) as [cs'|e]; [|discriminate].
  destruct (forallb compiles cs') eqn:B; [|discriminate]. intros _. exists cs'. split; [reflexivity|]. apply forallb_forall. exact B.
Qed.
Lemma jname_eq j j' : [jname j 0] = [jname j' 0] -> j = j'.
Proof. intros E. assert (E' : jname j 0 = jname j' 0) by congruence. apply so_name_inj in E' as (A & B & C & _). rewrite (job_eta j), (job_eta j'). congruence. Qed.

Lemma steps_only js : forall fs j i lib, dget (jname j i) (steps js fs) = Some lib -> dget (jname j i) fs = Some lib \/ exists e, lib = [e] /\ due js j i e.
Proof.
  induction js as [|j' js IH]; intros fs j i lib H; [left; exact H|]. cbn [steps] in H. pose proof (entry_get j' j i fs) as G. pose proof (fun fs1 cs => entry_ok j' fs fs1 cs) as K.
  assert (One : forall v, dget (jname j i) (fst (entry_step kev F n (fst (fst j')) (snd (fst j')) (snd j') fs)) = Some v ->
    dget (jname j i) fs = Some v \/ exists e, v = [e] /\ due (j' :: js) j i e).
  { intros v Hv. rewrite G in Hv. destruct (chunks j') as [cs|e] eqn:E; [|left; exact Hv]. destruct (list_eq_dec string_dec [jname j 0] [jname j' 0]) as [X|X]; [|left; exact Hv].
    destruct (nth_error (compiled cs) i) as [e|] eqn:Ne; [|left; exact Hv]. right. exists e. split; [congruence|]. apply jname_eq in X. subst j'.
    exists [], js, cs. split; [reflexivity|]. split; [intros j' []|]. split; [exact E|]. apply compiled_nth. exact Ne. }
  destruct (entry_step kev F n (fst (fst j')) (snd (fst j')) (snd j') fs) as [fs1 [cs|e]]; cbn [fst] in One; [|apply One; exact H].
  apply IH in H as [H|(e & -> & before & after & cs' & -> & B & R)]; [apply One; exact H|].
  right. exists e. split; [reflexivity|]. exists (j' :: before), after, cs'. split; [reflexivity|]. split; [|exact R].
  intros x [<-|I]; [apply (K fs1 cs); reflexivity|apply B; exact I].
Qed.
Lemma steps_keep js : forall fs j i e cs, chunks j = Ok cs -> nth_error cs i = Some e -> dget (jname j i) fs = Some [e] -> dget (jname j i) (steps js fs) = Some [e].
Proof.
  induction js as [|j' js IH]; intros fs j i e cs C N H; [exact H|]. cbn [steps]. pose proof (entry_get j' j i fs) as G.
  assert (One : dget (jname j i) (fst (entry_step kev F n (fst (fst j')) (snd (fst j')) (snd j') fs)) = Some [e]).
  { rewrite G. destruct (chunks j') as [cs'|x] eqn:E; [|exact H]. destruct (list_eq_dec string_dec [jname j 0] [jname j' 0]) as [X|X]; [|exact H].
    apply jname_eq in X. subst j'. rewrite C in E. injection E as <-. destruct (nth_error (compiled cs) i) as [e'|] eqn:Ne; [|exact H].
    apply compiled_nth in Ne as [Ne _]. congruence. }
  destruct (entry_step kev F n (fst (fst j')) (snd (fst j')) (snd j') fs) as [fs1 [r|x]]; cbn [fst] in One; [|exact One]. exact (IH fs1 j i e cs C N One).
Qed.
Lemma steps_due before : forall fs j after i e cs, (forall j', In j' before -> finished kev F n j') -> chunks j = Ok cs -> nth_error cs i = Some e ->
  (forall c, In c (firstn (S i) cs) -> compiles c = true) -> dget (jname j i) (steps (before ++ j :: after)%list fs) = Some [e].
Proof.
  induction before as [|b before IH]; intros fs j after i e cs B C N K.
  - cbn [List.app steps]. pose proof (entry_get j j i fs) as G. rewrite C in G. destruct (list_eq_dec string_dec [jname j 0] [jname j 0]) as [_|X]; [|congruence].
    rewrite (proj2 (compiled_nth cs i e) (conj N K)) in G.
    destruct (entry_step kev F n (fst (fst j)) (snd (fst j)) (snd j) fs) as [fs1 [r|x]]; cbn [fst] in G; [|exact G]. exact (steps_keep after fs1 j i e cs C N G).
  - cbn [List.app steps]. destruct (B b (or_introl eq_refl)) as (cb & Eb & Kb). unfold entry_step. rewrite Eb.
    rewrite (proj2 (forallb_forall compiles cb) Kb). apply (IH _ j after i e cs); try assumption. intros j' I. apply B. right. exact I.
Qed.
Lemma disk_reached p d k m imag i lib : (exists fs, dget p (fst (gen_model_disk kev F n (Some p) d)) = Some fs /\ dget (library_name k m imag i) fs = Some lib) <->
  exists e, lib = [e] /\ reached kev F n (k, m, imag) i e.
Proof.
  unfold gen_model_disk. pose proof (rows_steps (ff_get_keys F) []) as S. destruct (rows_step kev F n (ff_get_keys F) []) as [fs r]. cbn [fst] in *. rewrite dget_dset_eq.
  change (flat_map (fun k0 => row_jobs k0 (freqs (ff_M F))) (ff_get_keys F)) with (components F) in S.
  change (library_name k m imag i) with (jname (k, m, imag) i). rewrite <- S. split.
  - intros (fs' & E & H). injection E as <-. apply steps_only in H as [H|H]; [discriminate H|exact H].
  - intros (e & -> & before & after & cs & E & B & C & N & K). exists (steps (components F) []). split; [reflexivity|]. rewrite E.
    exact (steps_due before [] (k, m, imag) after i e cs B C N K).
Qed.
End Disk.
