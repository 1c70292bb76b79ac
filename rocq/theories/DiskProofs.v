(** What a call of gen_model_func leaves on the disk. *)
From Coq Require Import String List Arith ZArith Reals Lia.
From Coquelicot Require Import Complex.
From Verif Require Import PyBase CBase Expr ExprProofs FDataModel FormModel FitModel SpecFData SpecFit FitProofs FitProofs3 DiskModel.
Import ListNotations.
Local Open Scope nat_scope.

Section Disk.
Variable kev : code -> code.
Variables (F : fform) (n : Z).

Lemma put_app fs a b : put fs (a ++ b) = put (put fs a) b.
Proof. apply fold_left_app. Qed.

Lemma compiled_all cs : forallb compiles cs = true -> compiled cs = cs.
Proof. induction cs as [|c cs IH]; [reflexivity|]. cbn [forallb compiled]. destruct (compiles c); [|discriminate]. cbn [andb]. intros E. now rewrite IH. Qed.
Lemma entry_step_Ok k m c cs fs : model_entry kev F n k m c = Ok cs -> entry_step kev F n k m c fs = (put fs (entry_files k m c cs), Ok cs).
Proof. intros E. apply model_entry_Ok in E as (E & C). unfold entry_step. rewrite E, C, compiled_all by exact C. reflexivity. Qed.
Lemma entry_step_result k m c fs : snd (entry_step kev F n k m c fs) = model_entry kev F n k m c.
Proof. unfold entry_step, model_entry. destruct (model_chunks kev F n k m c) as [cs|e]; reflexivity. Qed.

Lemma row_step_model k ms fs :
  match mapM (fun m => do r <- model_entry kev F n k m false; do i <- model_entry kev F n k m true; Ok (m, (r, i))) ms with
  | Ok r => row_step kev F n k ms fs = (put fs (row_files k r), Ok r)
  | Raise e => snd (row_step kev F n k ms fs) = Raise e
  end.
Proof.
  revert fs. induction ms as [|m ms IH]; intros fs; cbn [mapM row_step]; [reflexivity|].
  pose proof (entry_step_result k m false fs) as Ra. destruct (model_entry kev F n k m false) as [r|e] eqn:Er; cbn [bind].
  2:{ destruct (entry_step kev F n k m false fs) as (fs1, x). cbn [snd] in Ra. rewrite Ra. reflexivity. }
  rewrite (entry_step_Ok k m false r fs Er). pose proof (entry_step_result k m true (put fs (entry_files k m false r))) as Rb.
  destruct (model_entry kev F n k m true) as [i|e] eqn:Ei; cbn [bind].
  2:{ destruct (entry_step kev F n k m true _) as (fs1, x). cbn [snd] in Rb. rewrite Rb. reflexivity. }
  rewrite (entry_step_Ok k m true i _ Ei).
  specialize (IH (put (put fs (entry_files k m false r)) (entry_files k m true i))).
  destruct (mapM _ ms) as [l|e]; cbn [bind].
  - rewrite IH. cbn [bind]. f_equal. unfold row_files. cbn [flat_map fst snd]. rewrite !put_app. reflexivity.
  - destruct (row_step kev F n k ms _) as (fs3, r3). cbn [snd] in *. rewrite IH. reflexivity.
Qed.
Lemma rows_step_model ks fs :
  match mapM (fun k => do r <- model_row kev F n k; Ok (k, r)) ks with
  | Ok rows => rows_step kev F n ks fs = (put fs (flat_map (fun kr => row_files (fst kr) (snd kr)) rows), Ok rows)
  | Raise e => snd (rows_step kev F n ks fs) = Raise e
  end.
Proof.
  revert fs. induction ks as [|k ks IH]; intros fs; cbn [mapM rows_step]; [reflexivity|].
  pose proof (row_step_model k (freqs (ff_M F)) fs) as R. unfold model_row. destruct (mapM _ (freqs (ff_M F))) as [r|e]; cbn [bind].
  - rewrite R. specialize (IH (put fs (row_files k r))). unfold model_row in IH. destruct (mapM _ ks) as [l|e]; cbn [bind].
    + rewrite IH. cbn [bind flat_map fst snd]. now rewrite put_app.
    + destruct (rows_step kev F n ks _) as (fs3, r3). cbn [snd] in *. rewrite IH. reflexivity.
  - destruct (row_step kev F n k (freqs (ff_M F)) fs) as (fs1, r1). cbn [snd] in R. rewrite R. reflexivity.
Qed.

Lemma disk_result folder d : snd (gen_model_disk kev F n folder d) = (do x <- gen_model_func kev F n; Ok (fst x)).
Proof.
  unfold gen_model_disk, gen_model_func, model_rows. pose proof (rows_step_model (ff_get_keys F) []) as R.
  destruct (mapM _ (ff_get_keys F)) as [rows|e]; cbn [bind fst].
  - rewrite R. reflexivity.
  - destruct (rows_step kev F n (ff_get_keys F) []) as (fs, r). cbn [snd] in *. rewrite R. reflexivity.
Qed.
Lemma disk_success p d fd fs : gen_model_func kev F n = Ok (fd, fs) -> gen_model_disk kev F n (Some p) d = (dset p fs d, Ok fd).
Proof.
  unfold gen_model_disk, gen_model_func, model_rows. pose proof (rows_step_model (ff_get_keys F) []) as R.
  destruct (mapM _ (ff_get_keys F)) as [rows|e]; cbn [bind]; [|discriminate]. intros E. rewrite R. cbn [bind].
  assert (E1 : model_funcs rows = fd) by congruence. assert (E2 : model_files rows = fs) by congruence. rewrite E1, <- E2. reflexivity.
Qed.
Lemma disk_others folder other d : folder <> Some other -> dget other (fst (gen_model_disk kev F n folder d)) = dget other d.
Proof.
  intros N. unfold gen_model_disk. destruct (rows_step kev F n (ff_get_keys F) []) as (fs, r). cbn [fst]. destruct folder as [p|]; [|reflexivity].
  apply dget_dset_neq. congruence.
Qed.
Lemma disk_nothing d : fst (gen_model_disk kev F n None d) = d.
Proof. unfold gen_model_disk. destruct (rows_step kev F n (ff_get_keys F) []) as (fs, r). reflexivity. Qed.

(** every file is one of the call *)
Definition own_names (ks : list string) (fs : list (string * list code)) : Prop :=
  forall name, In name (map fst fs) -> exists k m imag i, In k ks /\ In m (freqs (ff_M F)) /\ name = so_name k m imag i.
Lemma put_own ks fs ws : own_names ks fs -> own_names ks ws -> own_names ks (put fs ws).
Proof.
  revert fs. induction ws as [|[a b] ws IH]; intros fs A B; cbn [put fold_left]; [exact A|]. apply IH.
  - intros name I. cbn [fst snd] in I. apply (In_dkeys_dset name a b fs) in I as [-> |I]; [|exact (A name I)]. apply B. left. reflexivity.
  - intros name I. apply B. right. exact I.
Qed.
Lemma entry_own ks k m imag cs : In k ks -> In m (freqs (ff_M F)) -> own_names ks (entry_files k m imag cs).
Proof.
  intros Ik Im0 name I. unfold entry_files in I. rewrite map_map in I. apply in_map_iff in I as ((i, e) & E & _). cbn [fst snd] in E.
  exists k, m, imag, i. split; [exact Ik|]. split; [exact Im0|]. congruence.
Qed.
Lemma row_own ks k ms fs : In k ks -> incl ms (freqs (ff_M F)) -> own_names ks fs -> own_names ks (fst (row_step kev F n k ms fs)).
Proof.
  intros Ik. revert fs. induction ms as [|m ms IH]; intros fs J A; cbn [row_step]; [exact A|].
  assert (S : forall c gs, own_names ks gs -> own_names ks (fst (entry_step kev F n k m c gs))).
  { intros c gs B. unfold entry_step. destruct (model_chunks kev F n k m c) as [cs|e]; [|exact B]. cbn [fst].
    apply put_own; [exact B|apply entry_own; [exact Ik|apply J; left; reflexivity]]. }
  pose proof (S false fs A) as A1. destruct (entry_step kev F n k m false fs) as (fs1, [r|e]); cbn [fst] in *; [|exact A1].
  pose proof (S true fs1 A1) as A2. destruct (entry_step kev F n k m true fs1) as (fs2, [i|e]); cbn [fst] in *; [|exact A2].
  specialize (IH _ (fun x I => J x (or_intror I)) A2). destruct (row_step kev F n k ms _) as (fs3, l). exact IH.
Qed.
Lemma rows_own ks0 ks fs : incl ks ks0 -> own_names ks0 fs -> own_names ks0 (fst (rows_step kev F n ks fs)).
Proof.
  revert fs. induction ks as [|k ks IH]; intros fs J A; cbn [rows_step]; [exact A|].
  pose proof (row_own ks0 k (freqs (ff_M F)) fs (J k (or_introl eq_refl)) (incl_refl _) A) as R.
  destruct (row_step kev F n k (freqs (ff_M F)) fs) as (fs1, [r|e]); cbn [fst] in *; [|exact R].
  specialize (IH fs1 (fun x I => J x (or_intror I)) R). destruct (rows_step kev F n ks fs1) as (fs2, l). exact IH.
Qed.
Lemma disk_own p d : exists fs, dget p (fst (gen_model_disk kev F n (Some p) d)) = Some fs /\ own_names (ff_get_keys F) fs.
Proof.
  unfold gen_model_disk. pose proof (rows_own (ff_get_keys F) (ff_get_keys F) [] (incl_refl _)) as A.
  destruct (rows_step kev F n (ff_get_keys F) []) as (fs, r). cbn [fst] in *. exists fs. split; [apply dget_dset_eq|].
  apply A. intros name [].
Qed.
Lemma disk_forgets p d d' : dget p (fst (gen_model_disk kev F n (Some p) d)) = dget p (fst (gen_model_disk kev F n (Some p) d')).
Proof.
  unfold gen_model_disk. destruct (rows_step kev F n (ff_get_keys F) []) as (fs, r). cbn [fst]. now rewrite !dget_dset_eq.
Qed.
End Disk.
