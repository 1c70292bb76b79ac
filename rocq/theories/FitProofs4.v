(** Saved gradients, mismatched orders, fits. *)
From Coq Require Import String Ascii List Arith ZArith Bool Lia Reals QArith Qreals Lra Permutation.
From Coquelicot Require Import Complex.
Import ListNotations.
From Verif Require Import PyBase CBase Expr ExprProofs DataModel FDataModel SpecFData FormModel SpecForm FormProofs2 FitModel SpecFit FitProofs FitProofs2 FitProofs3.
Local Open Scope nat_scope.

(** ** Saved gradients *)
Lemma append_inj_l p a b : (p ++ a)%string = (p ++ b)%string -> a = b.
Proof. induction p as [|c p IH]; cbn [append]; intros E; [exact E|]. injection E as E. auto. Qed.
Lemma grad_name_inj p i j : grad_name p i = grad_name p j -> i = j.
Proof.
  unfold grad_name. intros E. apply append_inj_l in E. change (strn i ++ String "." "so" = strn j ++ String "." "so")%string in E.
  apply (sep_unique ".") in E as (E & _); try (apply has_str; reflexivity). apply strn_inj; exact E.
Qed.
Lemma put_grad_other p n ls : forall i fs, (forall j, i <= j < i + length ls -> n <> grad_name p j) -> dget n (put_grad (Some p) i ls fs) = dget n fs.
Proof.
  induction ls as [|l ls IH]; intros i fs H; [reflexivity|]. cbn [put_grad]. rewrite IH.
  - cbn [option_map save_lib]. apply dget_dset_neq. apply H. cbn [length]. lia.
  - intros j L. apply H. cbn [length]. lia.
Qed.
Lemma put_grad_get p ls : forall i fs j l, nth_error ls j = Some l -> dget (grad_name p (i + j)) (put_grad (Some p) i ls fs) = Some l.
Proof.
  induction ls as [|l0 ls IH]; intros i fs j l E; [destruct j; discriminate|]. cbn [put_grad]. destruct j as [|j].
  - cbn [nth_error] in E. injection E as ->. rewrite Nat.add_0_r. rewrite put_grad_other.
    + cbn [option_map save_lib]. apply dget_dset_eq.
    + intros j L X. apply grad_name_inj in X. lia.
  - cbn [nth_error] in E. replace (i + S j) with (S i + j) by lia. apply IH. exact E.
Qed.

Lemma load_grad_run p fs ls : forall fuel i, length ls < fuel -> (forall j l, nth_error ls j = Some l -> dget (grad_name p (i + j)) fs = Some l) ->
  dget (grad_name p (i + length ls)) fs = None -> load_grad fuel p i fs = ls.
Proof.
  induction ls as [|l ls IH]; intros fuel i L H N; destruct fuel as [|fuel]; try (cbn [length] in L; lia); cbn [load_grad].
  - rewrite Nat.add_0_r in N. rewrite N. reflexivity.
  - pose proof (H 0 l eq_refl) as H0. rewrite Nat.add_0_r in H0. rewrite H0. f_equal. apply IH.
    + cbn [length] in L. lia.
    + intros j l' E. replace (S i + j) with (i + S j) by lia. apply H. exact E.
    + replace (S i + length ls) with (i + length (l :: ls)) by (cbn [length]; lia). exact N.
Qed.
Lemma dkeys_length {K V} (d : list (K * V)) : length (map fst d) = length d.
Proof. apply map_length. Qed.
Lemma enough_files p (fs : list (string * list code)) n : (forall j, j < n -> dget (grad_name p j) fs <> None) -> n <= length fs.
Proof.
  intros H. rewrite <- (seq_length n 0), <- (map_length (grad_name p)), <- (dkeys_length fs).
  apply NoDup_incl_length.
  - apply NoDup_map_inj; [apply grad_name_inj|apply seq_NoDup].
  - intros x I. apply in_map_iff in I as (j & <- & I). apply in_seq in I. apply dget_keys. apply H. lia.
Qed.
(** The loop of the loader stops exactly at the first missing file *)
Lemma load_grad_ok p fs ls : (forall j l, nth_error ls j = Some l -> dget (grad_name p j) fs = Some l) ->
  dget (grad_name p (length ls)) fs = None -> load_grad (S (length fs)) p 0 fs = ls.
Proof.
  intros H N. apply load_grad_run; [|exact H|exact N].
  assert (L : length ls <= length fs); [|lia]. apply (enough_files p). intros j L. apply nth_error_Some in L.
  destruct (nth_error ls j) as [l|] eqn:E; [|congruence]. rewrite (H j l E). discriminate.
Qed.

Lemma energy_files kev F D free chunk save gp fs fs' lib ls : energy_and_denergy kev F D free chunk save gp fs = (fs', Ok (lib, ls)) ->
  fs' = put_grad gp 0 ls (save_lib save lib fs).
Proof.
  unfold energy_and_denergy. destruct chunk; [discriminate|]. destruct (energy_expr kev F D free) as [(e, n)|]; [|discriminate].
  destruct (denergy_expr kev e n) as [ds|]; [|discriminate]. unfold autowrap.
  destruct (save_grad gp 0 ds (save_lib save [e] fs)) as (fs2, [l|x]) eqn:E; cbn [bind]; [|discriminate]. intros X; injection X as <- <- <-.
  apply save_grad_ok in E as (cs & _ & -> & ->). reflexivity.
Qed.

Lemma grad_saves_files kev name p fs n : (forall i, name <> grad_name p i) -> grad_saves kev name p fs n ->
  forall j, dget (grad_name p j) fs <> None <-> j < n.
Proof.
  intros Nn. induction 1 as [fs H|fs n F D free chunk fs' lib ls G IH E]; intros j.
  - rewrite H. split; [congruence|lia].
  - apply energy_files in E as ->. destruct (Nat.lt_ge_cases j (length ls)) as [L|L].
    + split; [lia|]. intros _. apply nth_error_Some in L. destruct (nth_error ls j) as [l|] eqn:El; [|congruence].
      rewrite (put_grad_get p ls 0 _ j l El). discriminate.
    + rewrite put_grad_other by (intros i Li X; apply grad_name_inj in X; lia). cbn [save_lib].
      rewrite dget_dset_neq by (intros X; apply (Nn j); congruence). rewrite IH. lia.
Qed.

Lemma get_cost name p ls lib fs : (forall i, name <> grad_name p i) -> dget name (put_grad (Some p) 0 ls (save_lib (Some name) lib fs)) = Some lib.
Proof. intros Nn. rewrite put_grad_other by (intros j _; apply Nn). cbn [save_lib]. apply dget_dset_eq. Qed.

Lemma grad_reload kev name p fs n F D free chunk fs' lib ls : (forall i, name <> grad_name p i) -> grad_saves kev name p fs n ->
  energy_and_denergy kev F D free chunk (Some name) (Some p) fs = (fs', Ok (lib, ls)) -> n <= length ls ->
  load_energy_and_denergy name p fs' = Ok (lib, ls).
Proof.
  intros Nn G E L. pose proof (grad_saves_files kev name p fs n Nn G) as K. apply energy_files in E as ->.
  unfold load_energy_and_denergy, load_func. rewrite get_cost by exact Nn. cbn [bind].
  rewrite (load_grad_ok p _ ls); [reflexivity| |].
  - intros j l El. apply (put_grad_get p ls 0 _ j l El).
  - rewrite put_grad_other by (intros i Li X; apply grad_name_inj in X; lia). cbn [save_lib].
    rewrite dget_dset_neq by (intros X; apply (Nn (length ls)); congruence).
    destruct (dget (grad_name p (length ls)) fs) eqn:X; [|reflexivity]. exfalso.
    assert (length ls < n) by (apply K; congruence). lia.
Qed.
Lemma grad_stale kev name p fs n F D free chunk fs' lib ls : (forall i, name <> grad_name p i) -> grad_saves kev name p fs n ->
  energy_and_denergy kev F D free chunk (Some name) (Some p) fs = (fs', Ok (lib, ls)) -> length ls < n ->
  exists old, load_energy_and_denergy name p fs' = Ok (lib, ls ++ old)%list /\ length old = n - length ls.
Proof.
  intros Nn G E L. pose proof (grad_saves_files kev name p fs n Nn G) as K.
  pose proof (grad_saves_files kev name p fs' _ Nn (saves_again _ _ _ _ _ _ _ _ _ _ _ _ G E)) as K'. apply energy_files in E as ->.
  set (fs' := put_grad (Some p) 0 ls (save_lib (Some name) lib fs)) in *.
  exists (map (fun j => match dget (grad_name p j) fs' with Some l => l | None => [] end) (seq (length ls) (n - length ls))).
  split; [|rewrite map_length, seq_length; reflexivity].
  unfold load_energy_and_denergy, load_func. unfold fs' at 1. rewrite get_cost by exact Nn. cbn [bind]. f_equal. f_equal.
  apply load_grad_ok.
  - intros j l El. destruct (Nat.lt_ge_cases j (length ls)) as [Lj|Lj].
    + rewrite nth_error_app1 in El by exact Lj. apply (put_grad_get p ls 0 _ j l El).
    + rewrite nth_error_app2 in El by exact Lj. rewrite nth_error_map in El.
      destruct (nth_error (seq (length ls) (n - length ls)) (j - length ls)) as [q|] eqn:Eq; cbn [option_map] in El; [|discriminate].
      assert (Lq : j - length ls < n - length ls) by (rewrite <- (seq_length (n - length ls) (length ls)); apply nth_error_Some; congruence).
      rewrite (nth_error_nth' _ 0), seq_nth in Eq by (rewrite ?seq_length; lia). injection Eq as <-.
      replace (length ls + (j - length ls)) with j in El by lia.
      destruct (dget (grad_name p j) fs') as [l'|] eqn:Ed; [congruence|]. exfalso. apply (proj2 (K' j)); [lia|exact Ed].
  - rewrite app_length, map_length, seq_length. replace (length ls + (n - length ls)) with n by lia.
    destruct (dget (grad_name p n) fs') eqn:X; [|reflexivity]. exfalso. assert (n < Nat.max n (length ls)) by (apply K'; congruence). lia.
Qed.

(** ** Orders *)
Section Orders.
Variable kev : code -> code.
Hypothesis KEV : sound_kev kev.

Lemma nth_firstn_lt {A} (l : list A) n i (d : A) : i < n -> nth i l d = nth i (firstn n l) d.
Proof. revert n i. induction l as [|a l IH]; intros [|n] [|i] L; cbn; try lia; auto. apply IH. lia. Qed.
Lemma term_read F D mp k m : data_ok D -> ff_M F <= fd_M D -> In m (freqs (ff_M F)) ->
  term kev F D mp k m = term kev F (read_with_order (ff_M F) D) mp k m.
Proof.
  intros (W & L) Le Jm. unfold term, fget_pc, dgetr. destruct (ff_get_pc F k) as [fr|]; cbn [bind]; [|reflexivity].
  destruct (py_nth fr (m + Z.of_nat (ff_M F))) as [e|]; cbn [bind]; [|reflexivity].
  unfold read_with_order. cbn [fd_data]. rewrite dget_dmap.
  destruct (dget k (fd_data D)) as [v|] eqn:Ev; cbn [option_map bind]; [|reflexivity].
  apply dget_In in Ev. specialize (L k v Ev).
  rewrite (py_nth_cell v (ff_M F) m (RtoC 0)) by (auto; lia).
  rewrite (py_nth_cell (firstn (2 * ff_M F + 1) v) (ff_M F) m (RtoC 0)) by (auto; rewrite firstn_length; lia). cbn [bind].
  destruct (index_ok (ff_M F) m Jm) as (_ & B).
  rewrite (nth_firstn_lt v (2 * ff_M F + 1)) by exact B. reflexivity.
Qed.
Lemma terms_read F D free : data_ok D -> ff_M F <= fd_M D -> terms kev F D free = terms kev F (read_with_order (ff_M F) D) free.
Proof.
  intros DO Le. unfold terms. destruct (symbols_or F free) as [l|]; cbn [bind]; [|reflexivity].
  assert (X : forall kms, (forall k m, In (k, m) kms -> In m (freqs (ff_M F))) ->
    mapM (fun km => term kev F D (mapping l) (fst km) (snd km)) kms = mapM (fun km => term kev F (read_with_order (ff_M F) D) (mapping l) (fst km) (snd km)) kms).
  { induction kms as [|(k, m) kms IH]; intros H; [reflexivity|]. cbn [mapM fst snd]. rewrite (term_read F D) by (auto; apply (H k); left; reflexivity).
    rewrite IH; [reflexivity|]. intros k' m' I. apply (H k'). right; exact I. }
  rewrite X; [reflexivity|]. intros k m I. apply in_prod_iff in I. tauto.
Qed.
Lemma gen_read F D free chunk save fs : data_ok D -> ff_M F <= fd_M D ->
  gen_cost_func kev F D free chunk save fs = gen_cost_func kev F (read_with_order (ff_M F) D) free chunk save fs.
Proof. intros DO Le. unfold gen_cost_func, energy_expr. rewrite (terms_read F D) by assumption. reflexivity. Qed.
Lemma read_matching F D : formula_ok F -> data_ok D -> ff_M F <= fd_M D -> (forall k, In k (map fst (ff_rows F)) -> In k (map fst (fd_data D))) ->
  matching F (read_with_order (ff_M F) D).
Proof.
  intros FO (W & L) Le K. split; [exact FO|]. split; [|split; [reflexivity|]].
  - split.
    + unfold read_with_order, dmap. cbn [fd_data]. rewrite map_map. cbn [fst]. exact W.
    + intros k v I. unfold read_with_order, dmap in I. cbn [fd_data] in I. apply in_map_iff in I as ((k', v') & E & I). cbn [fst snd] in E. injection E as <- <-.
      rewrite firstn_length, (L k' v' I). cbn [fd_M read_with_order]. lia.
  - intros k I. unfold read_with_order, dmap. cbn [fd_data]. rewrite map_map. cbn [fst]. apply K. exact I.
Qed.
Lemma read_dvalue M D k m : data_ok D -> M <= fd_M D -> In m (freqs M) -> dvalue (read_with_order M D) k m = dvalue D k (m + Z.of_nat M - Z.of_nat (fd_M D))%Z.
Proof.
  intros (W & L) Le Jm. unfold dvalue, read_with_order. cbn [fd_data fd_M]. rewrite dget_dmap. destruct (dget k (fd_data D)) as [v|] eqn:Ev; cbn [option_map]; [|reflexivity].
  apply dget_In in Ev. specialize (L k v Ev). unfold coef. destruct (index_ok M m Jm) as (_ & B).
  replace (m + Z.of_nat M - Z.of_nat (fd_M D) + Z.of_nat (fd_M D))%Z with (m + Z.of_nat M)%Z by lia.
  symmetry. rewrite (nth_firstn_lt v (2 * M + 1)) by exact B. reflexivity.
Qed.

(** Lower order: IndexError *)
Lemma mapM_raise {A B} (f : A -> res B) l x : (exists a, In a l /\ f a = Raise x) -> (forall a y, In a l -> f a = Raise y -> y = x) -> mapM f l = Raise x.
Proof.
  induction l as [|a l IH]; intros (b & I & E) H; [destruct I|]. cbn [mapM]. destruct (f a) as [c|y] eqn:Ea; cbn [bind].
  - destruct I as [->|I]; [congruence|]. rewrite IH; [reflexivity|exists b; auto|]. intros a' y I' E'. apply (H a' y); [right; exact I'|exact E'].
  - f_equal. apply (H a y); [left; reflexivity|exact Ea].
Qed.
Lemma lower_raises F D free chunk save fs : formula_ok F -> data_ok D -> fd_M D < ff_M F -> ff_rows F <> [] ->
  (forall k, In k (map fst (ff_rows F)) -> In k (map fst (fd_data D))) ->
  gen_cost_func kev F D (Some free) chunk save fs = (fs, Raise IndexError).
Proof.
  intros FO (W & L) Lt NE K. pose proof FO as (WF & LF).
  assert (T : terms kev F D (Some free) = Raise IndexError).
  { unfold terms. cbn [symbols_or bind].
    assert (Row : forall k, In k (ff_get_keys F) -> forall m, In m (freqs (ff_M F)) -> exists r v, In (k, r) (ff_rows F) /\ In (k, v) (fd_data D) /\
        term kev F D (mapping free) k m = do d <- py_nth v (m + Z.of_nat (ff_M F));
          Ok (kev (xreplace (mapping free) (kev (KMul [kev (KAdd [embed (fcell (ff_M F) r m); KMul [KNum (RtoC (-1)); KNum d]]); kev (KConj (kev (KAdd [embed (fcell (ff_M F) r m); KMul [KNum (RtoC (-1)); KNum d]])))]))))).
    { intros k Ik m Jm. destruct (row_of_key F k FO Ik) as (r & Ir & Er). pose proof (K k Ik) as Id. apply in_map_iff in Id as ((k', v) & E & Id). cbn [fst] in E. subst k'.
      exists r, v. split; [exact Ir|]. split; [exact Id|]. unfold term, fget_pc, dgetr. rewrite Er. cbn [bind].
      rewrite (py_nth_cell (r_cells r) (ff_M F) m (num 0)) by (auto; rewrite (LF k r Ir); lia). cbn [bind]. rewrite (In_dget k v _ W Id). reflexivity. }
    rewrite mapM_raise with (x := IndexError); [reflexivity| |].
    - destruct (ff_rows F) as [|(k, r) rows] eqn:Er; [congruence|].
      exists (k, (Z.of_nat (ff_M F))). split.
      + apply in_prod_iff. split; [unfold ff_get_keys, dkeys; rewrite Er; left; reflexivity|]. apply In_freqs. lia.
      + cbn [fst snd]. destruct (Row k) with (m := Z.of_nat (ff_M F)) as (r' & v & _ & Iv & ->).
        * unfold ff_get_keys, dkeys. rewrite Er. left; reflexivity.
        * apply In_freqs. lia.
        * rewrite py_nth_err; [reflexivity|]. rewrite (L k v Iv). lia.
    - intros (k, m) y I E. apply in_prod_iff in I as (Ik & Jm). cbn [fst snd] in E. destruct (Row k Ik m Jm) as (r & v & _ & Iv & Et). rewrite Et in E.
      destruct (py_nth v (m + Z.of_nat (ff_M F))) as [d|z] eqn:Ed; cbn [bind] in E; [discriminate|]. injection E as <-.
      revert Ed. unfold py_nth. repeat match goal with |- context [match ?x with _ => _ end] => destruct x; try discriminate end; intros X; injection X as <-; reflexivity. }
  unfold gen_cost_func, energy_expr. rewrite T. destruct chunk; reflexivity.
Qed.
End Orders.

(** ** Fits *)
Lemma x0_of_ok {V} free (g : list (sym * V)) l : x0_of free g = Ok l <-> in_order free g l.
Proof.
  unfold x0_of, in_order. rewrite mapM_Ok. split; intros F; induction F; constructor; auto.
  - unfold dgetr in H. destruct (dget x g); [congruence|discriminate].
  - unfold dgetr. rewrite H. reflexivity.
Qed.
Lemma x0_of_missing {V} free (g : list (sym * V)) s : In s free -> dget s g = None -> x0_of free g = Raise KeyError.
Proof.
  intros I E. apply mapM_raise; [exists s; split; [exact I|unfold dgetr; rewrite E; reflexivity]|].
  intros a y _. unfold dgetr. destruct (dget a g); [discriminate|congruence].
Qed.
Lemma x0_of_total {V} free (g : list (sym * V)) : (forall s, In s free -> dget s g <> None) -> exists l, x0_of free g = Ok l.
Proof. intros H. apply mapM_total. intros s I. specialize (H s I). unfold dgetr. destruct (dget s g); [eauto|congruence]. Qed.
Lemma xdict_combine free x xd : NoDup free -> length x = length free -> xdict_of free x = Ok xd -> xd = combine free x.
Proof.
  intros N L. unfold xdict_of.
  assert (E : mapM (fun ik : nat * sym => do v <- py_nth x (Z.of_nat (fst ik)); Ok (snd ik, v)) (combine (seq 0 (length free)) free) = Ok (combine free x)).
  { apply mapM_Ok.
    assert (H : forall (free : list sym) (x pre : list R) i, length x = length free -> length pre = i ->
      Forall2 (fun (ik : nat * sym) b => (do v <- py_nth (pre ++ x) (Z.of_nat (fst ik)); Ok (snd ik, v)) = Ok b) (combine (seq i (length free)) free) (combine free x)).
    { clear. induction free as [|s free IH]; intros x pre i L Lp; [constructor|]. destruct x as [|v x]; [discriminate|]. cbn [length seq combine]. constructor.
      - cbn [fst snd]. rewrite py_nth_nonneg, Nat2Z.id by lia. rewrite nth_error_app2 by lia. replace (i - length pre) with 0 by lia. reflexivity.
      - replace (pre ++ v :: x)%list with ((pre ++ [v]) ++ x)%list by (rewrite <- app_assoc; reflexivity). apply IH.
        + cbn [length] in L. lia.
        + rewrite app_length. cbn [length]. lia. }
    apply (H free x [] 0 L eq_refl). }
  rewrite E. cbn [bind]. intros X; injection X as <-. apply dict_of_wf. unfold wf_dict, dkeys.
  assert (M : map fst (combine free x) = free).
  { clear - L. revert x L. induction free as [|s free IH]; intros [|v x] L; try discriminate; [reflexivity|]. cbn [combine map fst]. f_equal. apply IH. cbn [length] in L. lia. }
  rewrite M. exact N.
Qed.
Lemma xdict_exists free x : length x = length free -> exists xd, xdict_of free x = Ok xd.
Proof.
  intros L. unfold xdict_of. assert (X : exists ps, mapM (fun ik : nat * sym => do v <- py_nth x (Z.of_nat (fst ik)); Ok (snd ik, v)) (combine (seq 0 (length free)) free) = Ok ps).
  { apply mapM_total. intros (i, s) I. apply in_combine_l in I. apply in_seq in I. cbn [fst snd]. rewrite py_nth_nonneg, Nat2Z.id by lia.
    destruct (nth_error x i) eqn:E; [cbn [bind]; eauto|]. apply nth_error_None in E. lia. }
  destruct X as (ps & ->). cbn [bind]. eauto.
Qed.
