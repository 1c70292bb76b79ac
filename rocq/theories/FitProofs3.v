(** Chunks, model functions and their files. *)
From Coq Require Import String Ascii List Arith ZArith Bool Lia Reals QArith Qreals Lra Permutation.
From Coq Require Import DecimalString DecimalZ Decimal.
From Coquelicot Require Import Complex.
Import ListNotations.
From Verif Require Import PyBase CBase Expr ExprProofs DataModel DataProofs FDataModel SpecFData FormModel SpecForm FormProofs2 FitModel SpecFit FitProofs.
Local Open Scope nat_scope.

(** ** Splitting *)
Lemma firstn_plus {A} (n m : nat) (l : list A) : firstn (n + m) l = (firstn n l ++ firstn m (skipn n l))%list.
Proof. revert l. induction n as [|n IH]; intros [|a l]; cbn [firstn skipn plus]; auto; [destruct m; reflexivity|]. rewrite IH. reflexivity. Qed.
Lemma concat_blocks {A} k (a : list A) c : concat (map (fun n => firstn k (skipn (n * k) a)) (seq 0 c)) = firstn (c * k) a.
Proof.
  induction c as [|c IH]; [reflexivity|]. rewrite seq_S, map_app, concat_app, IH. cbn [plus map concat]. rewrite app_nil_r.
  replace (S c * k) with (c * k + k) by lia. rewrite firstn_plus. reflexivity.
Qed.
Lemma ceil_le n k : 0 < k -> n <= (n + k - 1) / k * k.
Proof. intros P. pose proof (Nat.div_mod (n + k - 1) k ltac:(lia)). pose proof (Nat.mod_upper_bound (n + k - 1) k ltac:(lia)). nia. Qed.
Lemma ceil_lt n k i : 0 < k -> i < (n + k - 1) / k -> i * k < n.
Proof. intros P L. pose proof (Nat.div_mod (n + k - 1) k ltac:(lia)). nia. Qed.
Lemma split_pos {A} (a : list A) n : (0 < n)%Z -> exists ps, split a n = Ok ps /\ split_into (Z.to_nat n) a ps.
Proof.
  intros P. unfold split. replace (n =? 0)%Z with false by (symmetry; apply Z.eqb_neq; lia).
  replace (n <? 0)%Z with false by (symmetry; apply Z.ltb_ge; lia). eexists. split; [reflexivity|]. split.
  - rewrite concat_blocks. apply firstn_all2. apply ceil_le. lia.
  - apply Forall_forall. intros p I. apply in_map_iff in I as (i & <- & I). apply in_seq in I.
    assert (L : i * Z.to_nat n < length a) by (apply ceil_lt; lia). split.
    + intros E. apply (f_equal (@length A)) in E. rewrite firstn_length, skipn_length in E. cbn [length] in E. lia.
    + rewrite firstn_length. lia.
Qed.

(** ** Text *)
Fixpoint has (c : ascii) (s : string) : bool :=
  match s with EmptyString => false | String a s' => Ascii.eqb a c || has c s' end.
Lemma sapp_assoc a b c : ((a ++ b) ++ c)%string = (a ++ b ++ c)%string.
Proof. induction a as [|x a IH]; cbn [append]; congruence. Qed.
Lemma sep_unique c a a' t t' : has c a = false -> has c a' = false -> (a ++ String c t)%string = (a' ++ String c t')%string -> a = a' /\ t = t'.
Proof.
  revert a'. induction a as [|x a IH]; intros [|x' a'] H H' E; cbn [append has] in *.
  - injection E as ->. auto.
  - injection E as -> _. rewrite Ascii.eqb_refl in H'. discriminate.
  - injection E as -> _. rewrite Ascii.eqb_refl in H. discriminate.
  - injection E as -> E. apply orb_false_iff in H as (_ & H), H' as (_ & H'). destruct (IH a' H H' E) as (-> & ->). auto.
Qed.
Lemma sep_cases c k k' t t' : (k ++ String c t)%string = (k' ++ String c t')%string ->
  (k = k' /\ t = t') \/ (exists u, k' = (k ++ String c u)%string) \/ (exists u, k = (k' ++ String c u)%string).
Proof.
  revert k'. induction k as [|x k IH]; intros [|x' k'] E; cbn [append] in *.
  - injection E as ->. auto.
  - injection E as -> E. right; left. exists k'. reflexivity.
  - injection E as -> E. right; right. exists k. reflexivity.
  - injection E as -> E. destruct (IH k' E) as [(-> & ->)|[(u & ->)|(u & ->)]]; [left; auto|right; left; exists u; reflexivity|right; right; exists u; reflexivity].
Qed.

Definition digit_free (c : ascii) : Prop := forallb (fun d => negb (Ascii.eqb d c)) ["0";"1";"2";"3";"4";"5";"6";"7";"8";"9";"-"]%char = true.
Lemma has_uint c u : digit_free c -> has c (NilEmpty.string_of_uint u) = false.
Proof.
  intros D. unfold digit_free in D. cbn [forallb] in D. rewrite !andb_true_iff, !negb_true_iff in D.
  induction u; cbn [NilEmpty.string_of_uint has]; try reflexivity; rewrite IHu, orb_false_r; tauto.
Qed.
Lemma has_str c m : digit_free c -> has c (str m) = false.
Proof.
  intros D. pose proof (has_uint c) as H. unfold str.
  assert (Hz : forall u, has c (NilZero.string_of_uint u) = false).
  { intros u. destruct u; try (apply (H _ D)). unfold digit_free in D. cbn [forallb] in D. rewrite !andb_true_iff, !negb_true_iff in D.
    cbn. rewrite orb_false_r. tauto. }
  destruct (Z.to_int m) as [u|u]; cbn [NilZero.string_of_int]; [apply Hz|]. cbn [has]. rewrite Hz, orb_false_r.
  unfold digit_free in D. cbn [forallb] in D. rewrite !andb_true_iff, !negb_true_iff in D. tauto.
Qed.
Lemma str_inj m m' : str m = str m' -> m = m'.
Proof.
  assert (H : forall m, NilZero.int_of_string (str m) = Some (Z.to_int m)).
  { intros z. unfold str. apply NilZero.isi; intros E; pose proof (of_to z) as O; rewrite E in O; cbn in O; subst z; discriminate E. }
  intros E. apply to_int_inj. apply (f_equal NilZero.int_of_string) in E. rewrite !H in E. injection E as E. exact E.
Qed.
Lemma strn_inj i j : strn i = strn j -> i = j.
Proof. unfold strn. intros E. apply str_inj in E. lia. Qed.
Lemma has_app c a b : has c (a ++ b) = has c a || has c b.
Proof. induction a as [|x a IH]; cbn [append has]; [reflexivity|]. rewrite IH, orb_assoc. reflexivity. Qed.

Lemma starts_iff p s : starts p s = true <-> exists t, s = (p ++ t)%string.
Proof.
  revert s. induction p as [|a p IH]; intros s; cbn [starts append].
  - split; [exists s; reflexivity|reflexivity].
  - destruct s as [|b s]; [split; [discriminate|intros (t & E); discriminate]|].
    rewrite andb_true_iff, Ascii.eqb_eq, IH. split; [intros (-> & t & ->); exists t; reflexivity|intros (t & E); injection E as -> ->; eauto].
Qed.
Lemma drop_app p t : drop (String.length p) (p ++ t) = t.
Proof. induction p as [|a p IH]; [destruct t; reflexivity|]. exact IH. Qed.
Lemma substring_app u n t : substring (String.length u) n (u ++ t) = substring 0 n t.
Proof. induction u as [|a u IH]; [reflexivity|]. exact IH. Qed.
Lemma slength_app a b : String.length (a ++ b) = String.length a + String.length b.
Proof. induction a as [|x a IH]; [reflexivity|]. cbn [append String.length]. rewrite IH. reflexivity. Qed.
Lemma ends_so_app u : ends_so (u ++ ".so") = true.
Proof.
  unfold ends_so. rewrite slength_app. replace (String.length u + String.length ".so" - 3) with (String.length u) by (cbn; lia).
  rewrite substring_app. reflexivity.
Qed.

Lemma component_inj c c' t t' : (component c ++ t)%string = (component c' ++ t')%string -> c = c' /\ t = t'.
Proof. destruct c, c'; cbn; intros E; try discriminate; injection E as ->; auto. Qed.
Lemma glob_own k m c i : glob_so (stem k m c) (so_name k m c i) = true.
Proof.
  unfold glob_so, so_name. rewrite drop_app, andb_true_iff. split; [apply starts_iff; eauto|].
  rewrite <- !sapp_assoc. apply ends_so_app.
Qed.
Lemma stem_starts k k' m m' c c' t i : (so_name k' m' c' i = stem k m c ++ t)%string ->
  (k' = k /\ m' = m /\ c' = c /\ t = ("_" ++ strn i ++ ".so")%string) \/
  (exists u, k' = (k ++ "_" ++ u)%string) \/ (exists u, k = (k' ++ "_" ++ u)%string).
Proof.
  unfold so_name, stem. rewrite !sapp_assoc. intros E.
  apply (sep_cases "_" k' k) in E as [(-> & E)|[(u & ->)|(u & ->)]]; [left|right; right; exists u; reflexivity|right; left; exists u; reflexivity].
  apply (sep_unique "_") in E as (E1 & E2); try (apply has_str; reflexivity). apply str_inj in E1 as ->.
  apply component_inj in E2 as (-> & E3). auto.
Qed.
Lemma glob_other ks k k' m m' c c' i : clear_keys ks -> In k ks -> In k' ks ->
  glob_so (stem k m c) (so_name k' m' c' i) = true -> k' = k /\ m' = m /\ c' = c.
Proof.
  intros Cl I I'. unfold glob_so. rewrite andb_true_iff, starts_iff. intros ((t & E) & _).
  apply stem_starts in E as [(-> & -> & -> & _)|[(u & Eu)|(u & Eu)]]; auto; exfalso.
  - destruct (string_dec k k') as [<-|N].
    + apply (f_equal String.length) in Eu. rewrite slength_app in Eu. cbn in Eu. lia.
    + apply (Cl k k' I I' N u Eu).
  - destruct (string_dec k k') as [<-|N].
    + apply (f_equal String.length) in Eu. rewrite slength_app in Eu. cbn in Eu. lia.
    + apply (Cl k' k I' I (fun X => N (eq_sym X)) u Eu).
Qed.
(** File names are unambiguous whatever the keys *)
Lemma rev_suffix_unique c a a' t t' : has c t = false -> has c t' = false -> (a ++ String c t)%string = (a' ++ String c t')%string -> a = a' /\ t = t'.
Proof.
  revert a'. induction a as [|x a IH]; intros [|x' a'] H H' E; cbn [append] in *.
  - injection E as ->. auto.
  - injection E as -> E. subst t. rewrite has_app in H. cbn [has] in H. rewrite Ascii.eqb_refl, orb_true_r in H. discriminate.
  - injection E as -> E. subst t'. rewrite has_app in H'. cbn [has] in H'. rewrite Ascii.eqb_refl, orb_true_r in H'. discriminate.
  - injection E as -> E. destruct (IH a' H H' E) as (-> & ->). auto.
Qed.
Lemma so_name_inj k m c i k' m' c' i' : so_name k m c i = so_name k' m' c' i' -> k = k' /\ m = m' /\ c = c' /\ i = i'.
Proof.
  unfold so_name, stem. intros E. rewrite !sapp_assoc in E.
  assert (Hi : forall i, has "_" (strn i ++ ".so") = false) by (intros j; rewrite has_app; unfold strn; rewrite has_str by reflexivity; reflexivity).
  assert (Hc : forall c, has "_" (component c) = false) by (intros []; reflexivity).
  assert (E' : ((k ++ "_" ++ str m ++ "_" ++ component c) ++ String "_" (strn i ++ ".so"))%string =
               ((k' ++ "_" ++ str m' ++ "_" ++ component c') ++ String "_" (strn i' ++ ".so"))%string) by (rewrite !sapp_assoc; exact E).
  apply rev_suffix_unique in E' as (E1 & E2); try apply Hi.
  assert (E1' : ((k ++ "_" ++ str m) ++ String "_" (component c))%string = ((k' ++ "_" ++ str m') ++ String "_" (component c'))%string)
    by (rewrite !sapp_assoc; exact E1).
  apply rev_suffix_unique in E1' as (E3 & E4); try apply Hc.
  apply (rev_suffix_unique "_" k k' (str m) (str m')) in E3 as (-> & E5); try (apply has_str; reflexivity).
  apply str_inj in E5. split; [reflexivity|]. split; [exact E5|]. split; [destruct c, c'; auto; discriminate|].
  change (strn i ++ String "." "so" = strn i' ++ String "." "so")%string in E2.
  apply (sep_unique ".") in E2 as (E6 & _); try (apply has_str; reflexivity). apply strn_inj; exact E6.
Qed.

(** ** Lists of files *)
Lemma filter_flat_map {A B} (P : B -> bool) (f : A -> list B) l : filter P (flat_map f l) = flat_map (fun a => filter P (f a)) l.
Proof. induction l as [|a l IH]; [reflexivity|]. cbn [flat_map]. rewrite filter_app, IH. reflexivity. Qed.
Lemma flat_map_nil {A B} (g : A -> list B) l : (forall a, In a l -> g a = []) -> flat_map g l = [].
Proof. induction l as [|a l IH]; intros H; [reflexivity|]. cbn [flat_map]. rewrite (H a) by (left; reflexivity). apply IH. intros b I. apply H. right; exact I. Qed.
Lemma flat_map_single {A K B} (key : A -> K) (g : A -> list B) l a : NoDup (map key l) -> In a l ->
  (forall b, In b l -> key b <> key a -> g b = []) -> flat_map g l = g a.
Proof.
  intros N I H. induction l as [|b l IH]; [destruct I|]. cbn [map] in N. inversion N as [|? ? Nb N']; subst. cbn [flat_map]. destruct I as [->|I].
  - rewrite (flat_map_nil g l); [apply app_nil_r|]. intros x Ix. apply H; [right; exact Ix|]. intros X. apply Nb. rewrite <- X. apply in_map. exact Ix.
  - rewrite (H b) by (try (left; reflexivity); intros X; apply Nb; rewrite X; apply in_map; exact I). cbn [app]. apply IH; auto.
    intros x Ix. apply H. right; exact Ix.
Qed.
Lemma filter_all {A} (P : A -> bool) l : (forall a, In a l -> P a = true) -> filter P l = l.
Proof. induction l as [|a l IH]; intros H; [reflexivity|]. cbn [filter]. rewrite (H a) by (left; reflexivity). f_equal. apply IH. intros b I. apply H. right; exact I. Qed.
Lemma filter_none {A} (P : A -> bool) l : (forall a, In a l -> P a = false) -> filter P l = [].
Proof. induction l as [|a l IH]; intros H; [reflexivity|]. cbn [filter]. rewrite (H a) by (left; reflexivity). apply IH. intros b I. apply H. right; exact I. Qed.
Lemma mapM_total {A B} (f : A -> res B) l : (forall a, In a l -> exists b, f a = Ok b) -> exists bs, mapM f l = Ok bs.
Proof.
  induction l as [|a l IH]; intros H; [exists []; reflexivity|]. destruct (H a (or_introl eq_refl)) as (b & Eb).
  destruct IH as (bs & Ebs); [intros x I; apply H; right; exact I|]. exists (b :: bs). cbn [mapM]. rewrite Eb. cbn [bind]. rewrite Ebs. reflexivity.
Qed.
Lemma perm_filter {A} (P : A -> bool) l l' : Permutation l l' -> Permutation (filter P l) (filter P l').
Proof.
  induction 1 as [|a l l' H IH|a b l|l l' l'' H1 IH1 H2 IH2]; cbn [filter]; auto.
  - destruct (P a); auto.
  - destruct (P a), (P b); auto. apply perm_swap.
  - eapply perm_trans; eauto.
Qed.

Lemma in_entry_files k m c cs n l : In (n, l) (entry_files k m c cs) -> exists i, n = so_name k m c i.
Proof. intros I. apply in_map_iff in I as ((i, e) & E & _). injection E as <- _. exists i. reflexivity. Qed.
Lemma snd_entry_files k m c cs : map snd (entry_files k m c cs) = libs cs.
Proof.
  unfold entry_files, libs. rewrite map_map. cbn [snd].
  assert (H : forall cs j, map (fun x : nat * code => [snd x]) (combine (seq j (length cs)) cs) = map (fun e => [e]) cs).
  { clear. induction cs as [|e cs IH]; intros j; [reflexivity|]. cbn [length seq combine map snd]. rewrite IH. reflexivity. }
  apply H.
Qed.
Lemma fst_entry_files k m c cs : map fst (entry_files k m c cs) = map (so_name k m c) (seq 0 (length cs)).
Proof.
  unfold entry_files. rewrite map_map. cbn [fst].
  assert (H : forall cs j, map (fun x : nat * code => so_name k m c (fst x)) (combine (seq j (length cs)) cs) = map (so_name k m c) (seq j (length cs))).
  { clear. induction cs as [|e cs IH]; intros j; [reflexivity|]. cbn [length seq combine map fst]. rewrite IH. reflexivity. }
  apply H.
Qed.
Lemma NoDup_map_inj {A B} (f : A -> B) l : (forall a b, f a = f b -> a = b) -> NoDup l -> NoDup (map f l).
Proof.
  intros I N. induction N as [|a l Na N IH]; [constructor|]. cbn [map]. constructor; [|exact IH].
  intros X. apply in_map_iff in X as (b & E & X). apply I in E as ->. auto.
Qed.
Lemma NoDup_app_intro {A} (l l' : list A) : NoDup l -> NoDup l' -> (forall a, In a l -> ~ In a l') -> NoDup (l ++ l').
Proof.
  intros N N' H. induction N as [|a l Na N IH]; [exact N'|]. cbn [app]. constructor.
  - intros I. apply in_app_iff in I as [I|I]; [auto|]. apply (H a); [left; reflexivity|exact I].
  - apply IH. intros b I. apply H. right; exact I.
Qed.
Lemma NoDup_flat_map_key {A K B} (key : A -> K) (f : A -> list B) (tag : B -> K -> Prop) l : NoDup (map key l) ->
  (forall a, In a l -> NoDup (f a)) -> (forall a b, In a l -> In b (f a) -> tag b (key a)) ->
  (forall b k k', tag b k -> tag b k' -> k = k') -> NoDup (flat_map f l).
Proof.
  intros N H T U. induction l as [|a l IH]; [constructor|]. cbn [map] in N. inversion N as [|? ? Na N']; subst. cbn [flat_map].
  apply NoDup_app_intro.
  - apply H. left; reflexivity.
  - apply IH; auto; [intros b I; apply H; right; exact I|intros b x I; apply T; right; exact I].
  - intros x Ix I. apply in_flat_map in I as (b & Ib & Ixb). apply Na.
    rewrite (U x (key a) (key b)); [apply in_map; exact Ib|apply T; [left; reflexivity|exact Ix]|apply T; [right; exact Ib|exact Ixb]].
Qed.

Definition rows_ok (F : fform) (rows : list (string * list (Z * (list code * list code)))) : Prop :=
  map fst rows = ff_get_keys F /\ forall k r, In (k, r) rows -> map fst r = freqs (ff_M F).

Lemma names_row k r : NoDup (map fst r) -> NoDup (map fst (row_files k r)).
Proof.
  intros N. unfold row_files. rewrite flat_map_concat_map, concat_map, map_map, <- flat_map_concat_map.
  apply (NoDup_flat_map_key fst _ (fun n m => exists c i, n = so_name k m c i) r N).
  - intros (m, (re, im)) _. cbn [fst snd]. rewrite map_app, !fst_entry_files. apply NoDup_app_intro.
    + apply NoDup_map_inj; [intros a b E; apply so_name_inj in E; tauto|apply seq_NoDup].
    + apply NoDup_map_inj; [intros a b E; apply so_name_inj in E; tauto|apply seq_NoDup].
    + intros n I I'. apply in_map_iff in I as (i & <- & _), I' as (j & E & _). apply so_name_inj in E as (_ & _ & E & _). discriminate.
  - intros (m, (re, im)) n _. cbn [fst snd]. rewrite map_app, in_app_iff, !fst_entry_files, !in_map_iff.
    intros [(i & <- & _)|(i & <- & _)]; eauto.
  - intros n m m' (c & i & ->) (c' & i' & E). apply so_name_inj in E. tauto.
Qed.
Lemma names_all rows : NoDup (map fst rows) -> (forall k r, In (k, r) rows -> NoDup (map fst r)) ->
  NoDup (map fst (flat_map (fun kr => row_files (fst kr) (snd kr)) rows)).
Proof.
  intros N H. rewrite flat_map_concat_map, concat_map, map_map, <- flat_map_concat_map.
  apply (NoDup_flat_map_key fst _ (fun n k => exists m c i, n = so_name k m c i) rows N).
  - intros (k, r) I. cbn [fst snd]. apply names_row. apply (H k r I).
  - intros (k, r) n _. cbn [fst snd]. unfold row_files. rewrite in_map_iff. intros ((n', l) & <- & I). cbn [fst].
    apply in_flat_map in I as ((m, (re, im)) & _ & I). cbn [fst snd] in I. apply in_app_iff in I as [I|I]; apply in_entry_files in I as (i & ->); eauto.
  - intros n k k' (m & c & i & ->) (m' & c' & i' & E). apply so_name_inj in E. tauto.
Qed.
Lemma model_files_plain rows : NoDup (map fst rows) -> (forall k r, In (k, r) rows -> NoDup (map fst r)) ->
  model_files rows = flat_map (fun kr => row_files (fst kr) (snd kr)) rows.
Proof. intros N H. apply dict_of_wf. apply names_all; assumption. Qed.

(** Loading an entry finds exactly its files *)
Lemma load_entry_ok rows listing k r m re im c : NoDup (map fst rows) -> (forall k r, In (k, r) rows -> NoDup (map fst r)) ->
  clear_keys (map fst rows) -> In (k, r) rows -> In (m, (re, im)) r ->
  Permutation listing (model_files rows) -> Permutation (load_entry listing k m c) (libs (if c then im else re)).
Proof.
  intros N H Cl Ik Im P. rewrite model_files_plain in P by assumption. unfold load_entry.
  eapply perm_trans; [apply Permutation_map; apply perm_filter; exact P|].
  assert (Hk : In k (map fst rows)) by (apply (in_map fst) in Ik; exact Ik).
  assert (No : forall k' m' c' cs, In k' (map fst rows) -> (k', m', c') <> (k, m, c) ->
            filter (fun nl => glob_so (stem k m c) (fst nl)) (entry_files k' m' c' cs) = []).
  { intros k' m' c' cs Ik' Ne. apply filter_none. intros (n, l) I. apply in_entry_files in I as (i & ->). cbn [fst].
    destruct (glob_so (stem k m c) (so_name k' m' c' i)) eqn:G; [|reflexivity]. exfalso. apply Ne.
    destruct (glob_other _ k k' m m' c c' i Cl Hk Ik' G) as (-> & -> & ->). reflexivity. }
  rewrite filter_flat_map, (flat_map_single fst _ rows (k, r) N Ik).
  2:{ intros (k', r') I' Ne. cbn [fst snd] in *. unfold row_files. rewrite filter_flat_map. apply flat_map_nil. intros (m', (a, b)) _.
      cbn [fst snd]. rewrite filter_app. apply (in_map fst) in I'. rewrite !No by (auto; congruence). reflexivity. }
  cbn [fst snd]. unfold row_files. rewrite filter_flat_map, (flat_map_single fst _ r (m, (re, im)) (H k r Ik) Im).
  2:{ intros (m', (a, b)) I' Ne. cbn [fst snd] in *. rewrite filter_app, !No by (auto; congruence). reflexivity. }
  cbn [fst snd]. rewrite filter_app.
  assert (Yes : forall cs, filter (fun nl => glob_so (stem k m c) (fst nl)) (entry_files k m c cs) = entry_files k m c cs).
  { intros cs. apply filter_all. intros (n, l) I. apply in_entry_files in I as (i & ->). apply glob_own. }
  destruct c.
  - rewrite (No k m false re Hk) by congruence. rewrite Yes. rewrite app_nil_l, snd_entry_files. apply Permutation_refl.
  - rewrite (No k m true im Hk) by congruence. rewrite Yes, app_nil_r, snd_entry_files. apply Permutation_refl.
Qed.

Lemma sum_calls_perm xs ls ls' : Permutation ls ls' -> sum_calls ls xs = sum_calls ls' xs.
Proof.
  induction 1 as [|a l l' H IH|a b l|l l' l'' H1 IH1 H2 IH2]; cbn [sum_calls]; auto.
  - rewrite IH. reflexivity.
  - destruct (call a xs), (call b xs), (sum_calls l xs); auto. f_equal. ring.
  - congruence.
Qed.

Lemma dget_fun {K V} `{Eqb K} (g : K -> V) ks k : dget k (map (fun k => (k, g k)) ks) = if existsb (eqb k) ks then Some (g k) else None.
Proof.
  induction ks as [|a ks IH]; [reflexivity|]. cbn [map dget existsb]. rewrite IH.
  destruct (eqb_spec k a) as [->|N]; cbn [orb]; reflexivity.
Qed.
Lemma existsb_In {K} `{Eqb K} (k : K) ks : existsb (eqb k) ks = true <-> In k ks.
Proof.
  rewrite existsb_exists. split; [intros (x & I & E); destruct (eqb_spec k x); [subst; exact I|discriminate]|].
  intros I. exists k. split; [exact I|apply eqb_refl].
Qed.

Lemma model_rows_ok kev F n rows : model_rows kev F n = Ok rows -> rows_ok F rows /\
  forall k r m re im, In (k, r) rows -> In (m, (re, im)) r -> model_entry kev F n k m false = Ok re /\ model_entry kev F n k m true = Ok im.
Proof.
  intros E. apply mapM_Ok in E.
  assert (H1 : map fst rows = ff_get_keys F).
  { induction E as [|k kr ks rs Ek E IH]; [reflexivity|]. cbn [map]. rewrite IH. f_equal.
    destruct (model_row kev F n k); cbn [bind] in Ek; [|discriminate]. injection Ek as <-. reflexivity. }
  assert (H2 : forall k r, In (k, r) rows -> model_row kev F n k = Ok r).
  { clear H1. induction E as [|k kr ks rs Ek E IH]; intros k' r I; [destruct I|]. destruct I as [->|I]; [|apply IH; exact I].
    destruct (model_row kev F n k) eqn:X; cbn [bind] in Ek; [|discriminate]. injection Ek as <- <-. exact X. }
  assert (H3 : forall k r, model_row kev F n k = Ok r -> map fst r = freqs (ff_M F) /\
     forall m re im, In (m, (re, im)) r -> model_entry kev F n k m false = Ok re /\ model_entry kev F n k m true = Ok im).
  { intros k r Er. apply mapM_Ok in Er. induction Er as [|m x ms xs Em Er IH]; [split; [reflexivity|intros ? ? ? []]|].
    destruct (model_entry kev F n k m false) as [a|] eqn:Ea; cbn [bind] in Em; [|discriminate].
    destruct (model_entry kev F n k m true) as [b|] eqn:Eb; cbn [bind] in Em; [|discriminate]. injection Em as <-.
    destruct IH as (IH1 & IH2). split; [cbn [map fst]; rewrite IH1; reflexivity|]. intros m' re im [X|X]; [injection X as <- <- <-; auto|apply IH2; exact X]. }
  split; [split; [exact H1|]|].
  - intros k r I. apply (H3 k r (H2 k r I)).
  - intros k r m re im I Im. apply (H3 k r (H2 k r I)). exact Im.
Qed.

Lemma dget_model_funcs rows k : dget k (model_funcs rows) =
  option_map (map (fun mri => (fst mri, (libs (fst (snd mri)), libs (snd (snd mri)))))) (dget k rows).
Proof.
  unfold model_funcs. induction rows as [|(k', r) rows IH]; [reflexivity|]. cbn [map dget fst snd]. destruct (eqb k k'); [reflexivity|exact IH].
Qed.
Lemma dget_row r m : dget m (map (fun mri : Z * (list code * list code) => (fst mri, (libs (fst (snd mri)), libs (snd (snd mri))))) r) =
  option_map (fun ri => (libs (fst ri), libs (snd ri))) (dget m r).
Proof. induction r as [|(m', ri) r IH]; [reflexivity|]. cbn [map dget fst snd]. destruct (eqb m m'); [reflexivity|exact IH]. Qed.

(** Saved and reloaded *)
Lemma reload_same kev F n fd fs listing : formula_ok F -> clear_keys (ff_get_keys F) -> gen_model_func kev F n = Ok (fd, fs) ->
  Permutation listing fs -> forall xs k m, model_value (load_model_func F listing) xs k m = model_value fd xs k m.
Proof.
  intros FO Cl E P xs k m. unfold gen_model_func in E. destruct (model_rows kev F n) as [rows|] eqn:Er; cbn [bind] in E; [|discriminate]. injection E as <- <-.
  apply model_rows_ok in Er as ((Hk & Hm) & _). pose proof FO as (N & _).
  assert (Nr : NoDup (map fst rows)) by (rewrite Hk; exact N).
  assert (Nm : forall k r, In (k, r) rows -> NoDup (map fst r)) by (intros k' r I; rewrite (Hm k' r I); apply NoDup_zrange).
  rewrite <- Hk in Cl.
  unfold model_value, dgetr. rewrite dget_model_funcs. unfold load_model_func. rewrite dget_fun, <- Hk.
  destruct (dget k rows) as [r|] eqn:Ek; cbn [option_map].
  2:{ apply dget_None in Ek. destruct (existsb (eqb k) (map fst rows)) eqn:X; [|reflexivity]. apply existsb_In in X. exfalso. apply Ek. exact X. }
  apply dget_In in Ek. rewrite (proj2 (existsb_In k (map fst rows))) by (apply (in_map fst) in Ek; exact Ek). cbn [bind].
  rewrite dget_row, dget_fun, <- (Hm k r Ek).
  destruct (dget m r) as [(re, im)|] eqn:Em; cbn [option_map].
  2:{ apply dget_None in Em. destruct (existsb (eqb m) (map fst r)) eqn:X; [|reflexivity]. apply existsb_In in X. exfalso. apply Em. exact X. }
  apply dget_In in Em. rewrite (proj2 (existsb_In m (map fst r))) by (apply (in_map fst) in Em; exact Em). cbn [bind fst snd].
  rewrite (sum_calls_perm xs _ _ (load_entry_ok rows listing k r m re im false Nr Nm Cl Ek Em P)).
  rewrite (sum_calls_perm xs _ _ (load_entry_ok rows listing k r m re im true Nr Nm Cl Ek Em P)). reflexivity.
Qed.

(** ** Expressions that compile *)
Section code_ind.
Variable P : code -> Prop.
Hypotheses (HN : forall z, P (KNum z)) (HS : forall s, P (KSym s)) (HV : forall i, P (KVar i))
  (HA : forall l, Forall P l -> P (KAdd l)) (HM : forall l, Forall P l -> P (KMul l)) (HP : forall b n, P b -> P (KPow b n))
  (Hc : forall e, P e -> P (KCos e)) (Hs : forall e, P e -> P (KSin e)) (HC : forall e, P e -> P (KConj e))
  (HR : forall e, P e -> P (KRe e)) (HI : forall e, P e -> P (KIm e)).
Fixpoint code_deep (e : code) : P e :=
  let fix all l : Forall P l := match l with [] => Forall_nil _ | a :: l' => Forall_cons _ (code_deep a) (all l') end in
  match e with
  | KNum z => HN z | KSym s => HS s | KVar i => HV i | KAdd l => HA l (all l) | KMul l => HM l (all l)
  | KPow b n => HP b n (code_deep b) | KCos e => Hc e (code_deep e) | KSin e => Hs e (code_deep e)
  | KConj e => HC e (code_deep e) | KRe e => HR e (code_deep e) | KIm e => HI e (code_deep e)
  end.
End code_ind.
Lemma compiles_iff e : compiles e = true <-> no_parts e.
Proof.
  induction e as [z|s|i|l F|l F|b n IH|e IH|e IH|e IH|e IH|e IH] using code_deep; cbn [compiles no_parts]; try tauto; try (split; [discriminate|tauto]).
  - induction F as [|a l A F IH]; cbn [forallb fold_right]; [tauto|]. rewrite andb_true_iff, A, IH. tauto.
  - induction F as [|a l A F IH]; cbn [forallb fold_right]; [tauto|]. rewrite andb_true_iff, A, IH. tauto.
Qed.
(** nothing is lost by splitting *)
Lemma split_compiles e n cs : (0 < n)%Z -> split_expr e n = Ok cs -> forallb compiles cs = compiles e.
Proof.
  intros P E. destruct e; cbn [split_expr] in E; try (injection E as <-; cbn [forallb]; apply andb_true_r).
  destruct (split_pos l n P) as (ps & Es & Co & _). rewrite Es in E. cbn [bind] in E. injection E as <-. cbn [compiles]. rewrite <- Co.
  clear. induction ps as [|p ps IH]; [reflexivity|]. cbn [map forallb concat compiles]. rewrite forallb_app, IH. reflexivity.
Qed.
Lemma model_entry_Ok kev F n k m c cs : model_entry kev F n k m c = Ok cs <-> model_chunks kev F n k m c = Ok cs /\ forallb compiles cs = true.
Proof.
  unfold model_entry. destruct (model_chunks kev F n k m c) as [cs'|e]; cbn [bind]; [|split; [discriminate|intros (X & _); discriminate]].
  destruct (forallb compiles cs') eqn:X; split; intros H; try discriminate H.
  - split; [exact H|]. congruence.
  - tauto.
  - destruct H as (H & Y). congruence.
Qed.

(** ** Values of the model function *)
Section Model.
Variable kev : code -> code.
Hypothesis KEV : sound_kev kev.

Lemma free_argument_list F free : ff_free_symbols F = Ok free -> argument_list F free.
Proof.
  intros E. split.
  - unfold ff_free_symbols in E. destruct (all_cells (ff_rows F)); cbn [bind] in E; [|discriminate]. injection E as <-. apply NoDup_symbol_list.
  - intros s I. apply (free_symbols_in F free s E). exact I.
Qed.
Lemma symbolic_free F : symbolic F -> exists free, ff_free_symbols F = Ok free.
Proof. intros S. unfold ff_free_symbols. rewrite all_cells_symbolic by exact S. cbn [bind]. eauto. Qed.

Lemma sum_calls_chunks n e free v cs xs rho : (0 < n)%Z -> good free e v -> split_expr e n = Ok cs -> length free <= length xs -> assigns free xs rho ->
  sum_calls (libs cs) xs = Some (Re (v rho)).
Proof.
  intros P G E L A.
  assert (One : forall e, good free e v -> sum_calls (libs [e]) xs = Some (Re (v rho))).
  { intros e' G'. unfold libs. cbn [map sum_calls]. rewrite (call_one free e' v xs rho G' L A). f_equal. ring. }
  destruct e; cbn [split_expr] in E; try (injection E as <-; apply One; exact G).
  destruct (split_pos l n P) as (ps & Ep & Ec & _). rewrite Ep in E. cbn [bind] in E. injection E as <-.
  destruct G as (S & V & W). rewrite <- (W xs rho _ zero_respects A). rewrite <- Ec in S, V |- *. clear - S V L.
  unfold libs. rewrite map_map. induction ps as [|p ps IH]; [reflexivity|].
  cbn [map sum_calls concat] in *.
  assert (Sp : ksyms (KAdd p) = [] /\ ksyms (KAdd (concat ps)) = []).
  { cbn [ksyms] in *. rewrite flat_map_app in S. apply app_eq_nil in S. exact S. }
  assert (Vp : (forall i, In i (kvars (KAdd p)) -> i < length free) /\ (forall i, In i (kvars (KAdd (concat ps))) -> i < length free)).
  { cbn [kvars] in *. rewrite flat_map_app in V. split; intros i I; apply V; apply in_app_iff; auto. }
  rewrite IH by tauto. unfold call. cbn [forallb]. rewrite callable_intro by (try tauto; intros i I; apply Vp in I; lia). cbn [andb map fold_right].
  f_equal. cbn [keval]. rewrite map_app.
  assert (FA : forall a b, fold_right Cplus (RtoC 0) (a ++ b) = Cplus (fold_right Cplus (RtoC 0) a) (fold_right Cplus (RtoC 0) b)).
  { clear. induction a as [|x a IH]; intros b; simpl; [ring|]. rewrite IH. ring. }
  rewrite FA. unfold Re. cbn. ring.
Qed.

Lemma model_expr_good F free k r m c : formula_ok F -> ff_free_symbols F = Ok free -> In (k, r) (ff_rows F) -> In m (freqs (ff_M F)) ->
  exists e, model_expr kev F k m c None = Ok e /\ good free e (fun rho => RtoC ((if c then Im else Re) (eval rho (fcell (ff_M F) r m)))).
Proof.
  intros FO Ef I Jm. pose proof FO as (W & L). destruct (free_argument_list F free Ef) as (N & S).
  unfold model_expr, symbols_or. rewrite Ef. cbn [bind]. unfold ff_get_pc, dgetr. rewrite (In_dget k r (ff_rows F) W I). cbn [bind].
  rewrite (py_nth_cell (r_cells r) (ff_M F) m (num 0)) by (auto; rewrite (L k r I); lia). cbn [bind]. eexists. split; [reflexivity|].
  fold (fcell (ff_M F) r m). set (e := fcell (ff_M F) r m).
  assert (Ie : incl (syms e) free).
  { intros s Is. apply S. exists k, r, e. split; [exact I|]. split; [|exact Is]. apply (fcell_In F k r m FO I Jm). }
  apply (good_xreplace kev KEV); auto.
  - intros s Is. apply (kev_syms kev KEV) in Is. apply Ie. destruct c; cbn [ksyms] in Is; rewrite ksyms_embed in Is; exact Is.
  - apply incl_l_nil. intros i Ii. apply (kev_vars kev KEV) in Ii. destruct c; cbn [kvars] in Ii; rewrite kvars_embed in Ii; exact Ii.
  - intros rho xs R. rewrite (kev_val kev KEV) by exact R. destruct c; cbn [keval]; rewrite keval_embed; reflexivity.
  - intros rho rho' X. f_equal. f_equal. apply eval_ext. intros s Is. apply X. apply Ie. exact Is.
Qed.

Lemma parts_expr F k r m c e : formula_ok F -> parts_taken kev F -> In (k, r) (ff_rows F) -> In m (freqs (ff_M F)) ->
  model_expr kev F k m c None = Ok e -> no_parts e.
Proof.
  intros FO Pt I Jm E. pose proof FO as (W & L). unfold model_expr in E. destruct (symbols_or F None) as [fr|]; cbn [bind] in E; [|discriminate].
  unfold ff_get_pc, dgetr in E. rewrite (In_dget k r (ff_rows F) W I) in E. cbn [bind] in E.
  rewrite (py_nth_cell (r_cells r) (ff_M F) m (num 0)) in E by (auto; rewrite (L k r I); lia). cbn [bind] in E. injection E as <-.
  destruct (Pt k r (fcell (ff_M F) r m) (mapping fr) I (fcell_In F k r m FO I Jm)) as (A & B). destruct c; [exact B|exact A].
Qed.

Lemma model_ok F n free : (0 < n)%Z -> formula_ok F -> parts_taken kev F -> ff_free_symbols F = Ok free ->
  exists fd fs, gen_model_func kev F n = Ok (fd, fs) /\
    forall k r m xs rho, In (k, r) (ff_rows F) -> In m (freqs (ff_M F)) -> length free <= length xs -> assigns free xs rho ->
      model_value fd xs k m = Ok (Some (eval rho (fcell (ff_M F) r m))).
Proof.
  intros P FO Pt Ef. pose proof FO as (W & L).
  assert (He : forall k r m c, In (k, r) (ff_rows F) -> In m (freqs (ff_M F)) -> exists cs, model_entry kev F n k m c = Ok cs /\
     forall xs rho, length free <= length xs -> assigns free xs rho -> sum_calls (libs cs) xs = Some ((if c then Im else Re) (eval rho (fcell (ff_M F) r m)))).
  { intros k r m c I Jm. destruct (model_expr_good F free k r m c FO Ef I Jm) as (e & Ee & G). 
    assert (X : exists cs, split_expr e n = Ok cs).
    { destruct e; cbn [split_expr]; eauto. destruct (split_pos l n P) as (ps & -> & _). cbn [bind]. eauto. }
    destruct X as (cs & Ec). exists cs. split.
    { apply model_entry_Ok. unfold model_chunks. rewrite Ee. cbn [bind]. split; [exact Ec|]. rewrite (split_compiles e n cs P Ec).
      apply compiles_iff. exact (parts_expr F k r m c e FO Pt I Jm Ee). } intros xs rho Lx A. rewrite (sum_calls_chunks n e free _ cs xs rho P G Ec Lx A). reflexivity. }
  assert (Hr : forall k r, In (k, r) (ff_rows F) -> exists row, model_row kev F n k = Ok row).
  { intros k r I. unfold model_row. apply mapM_total. intros m Jm.
    destruct (He k r m false I Jm) as (a & -> & _). cbn [bind]. destruct (He k r m true I Jm) as (b & -> & _). cbn [bind]. eauto. }
  assert (Hs : exists rows, model_rows kev F n = Ok rows).
  { unfold model_rows. apply mapM_total. intros k I. destruct (row_of_key F k FO I) as (r & Ir & _). destruct (Hr k r Ir) as (row & ->). cbn [bind]. eauto. }
  destruct Hs as (rows & Er). unfold gen_model_func. rewrite Er. cbn [bind]. exists (model_funcs rows), (model_files rows). split; [reflexivity|].
  intros k r m xs rho I Jm Lx A. apply model_rows_ok in Er as ((Hk & Hm) & Hv).
  unfold model_value, dgetr. rewrite dget_model_funcs.
  destruct (dget k rows) as [row|] eqn:Ek; cbn [option_map bind].
  2:{ exfalso. apply dget_None in Ek. apply Ek. unfold dkeys. rewrite Hk. apply (in_map fst) in I. exact I. }
  apply dget_In in Ek. rewrite dget_row. destruct (dget m row) as [(re, im)|] eqn:Em; cbn [option_map bind].
  2:{ exfalso. apply dget_None in Em. apply Em. unfold dkeys. rewrite (Hm k row Ek). exact Jm. }
  apply dget_In in Em. destruct (Hv k row m re im Ek Em) as (Ea & Eb). cbn [fst snd].
  destruct (He k r m false I Jm) as (a & Ea' & Va). rewrite Ea in Ea'. injection Ea' as <-.
  destruct (He k r m true I Jm) as (b & Eb' & Vb). rewrite Eb in Eb'. injection Eb' as <-.
  rewrite (Va xs rho Lx A), (Vb xs rho Lx A). f_equal. f_equal. destruct (eval rho (fcell (ff_M F) r m)); reflexivity.
Qed.
End Model.

(** A folder without files *)
Lemma load_empty F k m xs : In k (ff_get_keys F) -> In m (freqs (ff_M F)) -> model_value (load_model_func F []) xs k m = Ok (Some (RtoC 0)).
Proof.
  intros Ik Jm. unfold model_value, dgetr, load_model_func. rewrite dget_fun, (proj2 (existsb_In k _) Ik). cbn [bind].
  rewrite dget_fun, (proj2 (existsb_In m _) Jm). reflexivity.
Qed.
