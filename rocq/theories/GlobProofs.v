(** Patterns without special characters match literally. *)
From Coq Require Import String Ascii List Arith ZArith Bool Lia DecimalString.
From Verif Require Import PyBase Expr FDataModel FormModel FitModel SpecFit FitProofs3 GlobModel SpecGlob.
Import ListNotations.
Local Open Scope nat_scope.

Lemma not_special c : special c = false -> Ascii.eqb c star = false /\ Ascii.eqb c quest = false /\ Ascii.eqb c opening = false.
Proof. unfold special. intros H. apply orb_false_iff in H as [H H3]. apply orb_false_iff in H as [H1 H2]. auto. Qed.

Lemma parts_literal p : forall rest n, forallb (fun c => negb (special c)) p = true ->
  parts (length p + n) (p ++ rest) = map Lit p ++ parts n rest.
Proof.
  induction p as [|c p IH]; intros rest n H; [reflexivity|]. cbn [forallb] in H. apply andb_true_iff in H as [H1 H].
  apply negb_true_iff in H1. destruct (not_special c H1) as (A & B & C). cbn [length Nat.add List.app map parts]. rewrite A, B, C, IH by exact H. reflexivity.
Qed.

Definition so : list part := [Any; Lit "."%char; Lit "s"%char; Lit "o"%char].
Lemma matches_literal p : forall ps s, matches (map Lit p ++ ps) s =
  (starts (string_of_list_ascii p) (string_of_list_ascii s) && matches ps (skipn (length p) s)).
Proof.
  induction p as [|c p IH]; intros ps s; [reflexivity|]. destruct s as [|a s]; cbn [map List.app matches string_of_list_ascii starts length skipn]; [reflexivity|].
  rewrite IH. rewrite (Ascii.eqb_sym a c). apply andb_assoc.
Qed.

Definition last3 (s : list ascii) : bool := String.eqb (string_of_list_ascii (skipn (length s - 3) s)) ".so".
Lemma matches_so s : matches so s = last3 s.
Proof.
  assert (T : forall s, length s <= 3 -> matches [Lit "."%char; Lit "s"%char; Lit "o"%char] s = String.eqb (string_of_list_ascii s) ".so").
  { intros t L. destruct t as [|a [|b [|c [|e t]]]]; cbn [length] in L; try lia; cbn [matches string_of_list_ascii String.eqb].
    - reflexivity.
    - destruct (Ascii.eqb a "."); reflexivity.
    - destruct (Ascii.eqb a "."), (Ascii.eqb b "s"); reflexivity.
    - destruct (Ascii.eqb a "."), (Ascii.eqb b "s"), (Ascii.eqb c "o"); reflexivity. }
  assert (U : forall s, 3 < length s -> matches [Lit "."%char; Lit "s"%char; Lit "o"%char] s = false).
  { intros t L. destruct t as [|a [|b [|c [|e t]]]]; cbn [length] in L; try lia; cbn [matches]. now rewrite !andb_false_r. }
  induction s as [|a s IH]; [reflexivity|].
  change (matches so (a :: s)) with (matches [Lit "."%char; Lit "s"%char; Lit "o"%char] (a :: s) || matches so s). rewrite IH.
  destruct (le_lt_dec (length (a :: s)) 3) as [L|L].
  - rewrite T by exact L. unfold last3. cbn [length] in L. replace (length (a :: s) - 3) with 0 by (cbn [length]; lia). cbn [skipn].
    replace (length s - 3) with 0 by lia. cbn [skipn]. destruct (String.eqb_spec (string_of_list_ascii (a :: s)) ".so") as [E|E]; [reflexivity|].
    cbn [orb]. destruct (String.eqb_spec (string_of_list_ascii s) ".so") as [E'|E']; [|reflexivity].
    apply (f_equal String.length) in E'. rewrite <- (list_ascii_of_string_of_list_ascii s) in L.
    assert (Q : forall u, length (list_ascii_of_string u) = String.length u) by (induction u; cbn; auto). rewrite Q, E' in L. cbn in L. lia.
  - rewrite U by exact L. unfold last3. cbn [length] in *. replace (S (length s) - 3) with (S (length s - 3)) by lia. reflexivity.
Qed.

Lemma string_length s : length (list_ascii_of_string s) = String.length s.
Proof. induction s; cbn; auto. Qed.
Lemma drop_skipn n s : drop n s = string_of_list_ascii (skipn n (list_ascii_of_string s)).
Proof.
  revert s. induction n as [|n IH]; intros s; [cbn; now rewrite string_of_list_ascii_of_string|]. destruct s as [|a s]; [reflexivity|]. apply IH.
Qed.
Lemma substring_rest s : forall n, substring n (String.length s - n) s = drop n s.
Proof.
  induction s as [|a s IH]; intros n; [destruct n; reflexivity|]. destruct n as [|n]; cbn [String.length Nat.sub].
  - cbn [substring drop]. f_equal. specialize (IH 0). rewrite Nat.sub_0_r in IH. rewrite IH. destruct s; reflexivity.
  - cbn [substring drop]. apply IH.
Qed.
Lemma ends_so_last3 s : ends_so s = last3 (list_ascii_of_string s).
Proof.
  unfold ends_so, last3. rewrite string_length. f_equal. rewrite <- drop_skipn, <- substring_rest.
  destruct (le_lt_dec 3 (String.length s)) as [L|L]; [f_equal; lia|].
  replace (String.length s - 3) with 0 by lia. rewrite Nat.sub_0_r.
  destruct s as [|a [|b [|c s]]]; cbn [String.length] in L; try lia; reflexivity.
Qed.

Lemma list_ascii_app a b : list_ascii_of_string (a ++ b) = (list_ascii_of_string a ++ list_ascii_of_string b)%list.
Proof. induction a; cbn; [reflexivity|]. now rewrite IHa. Qed.

Lemma glob_literal p s : forallb (fun c => negb (special c)) (list_ascii_of_string p) = true -> glob (p ++ "*.so") s = glob_so p s.
Proof.
  intros H. unfold glob. rewrite list_ascii_app, app_length, parts_literal by exact H.
  change (parts _ (list_ascii_of_string "*.so")) with so. rewrite matches_literal, matches_so. unfold glob_so.
  rewrite !string_of_list_ascii_of_string. f_equal. rewrite ends_so_last3. f_equal.
  rewrite drop_skipn, list_ascii_of_string_of_list_ascii, string_length. reflexivity.
Qed.

(** numerals are plain *)
Definition plainb (s : string) : bool := forallb (fun c => negb (special c)) (list_ascii_of_string s).
Lemma plainb_app a b : plainb (a ++ b) = plainb a && plainb b.
Proof. unfold plainb. rewrite list_ascii_app. apply forallb_app. Qed.
Lemma uint_plain u : plainb (NilEmpty.string_of_uint u) = true.
Proof. induction u; cbn [NilEmpty.string_of_uint]; [reflexivity|..]; unfold plainb in *; cbn [list_ascii_of_string forallb]; rewrite IHu; reflexivity. Qed.
Lemma str_plain m : plainb (str m) = true.
Proof.
  unfold str, NilZero.string_of_int, NilZero.string_of_uint. destruct (Z.to_int m) as [u|u].
  - destruct u; try exact (uint_plain _); reflexivity.
  - unfold plainb. cbn [list_ascii_of_string forallb]. change (negb (special "-"%char)) with true. cbn [andb].
    destruct u; try exact (uint_plain _); reflexivity.
Qed.
Lemma stem_plain k m c : plainb k = true -> plainb (stem k m c) = true.
Proof. intros H. unfold stem. rewrite !plainb_app, H, str_plain. destruct c; reflexivity. Qed.

Lemma load_plain F listing : (forall k, In k (ff_get_keys F) -> plain_key k) -> load_model_glob F listing = load_model_func F listing.
Proof.
  intros H. unfold load_model_glob, load_model_func. apply map_ext_in. intros k I.
  assert (P : plainb k = true).
  { unfold plainb. apply forallb_forall. intros c J. apply negb_true_iff. exact (H k I c J). }
  f_equal. apply map_ext. intros m. f_equal.
  assert (E : forall c, load_entry_glob listing k m c = load_entry listing k m c).
  { intros c. unfold load_entry_glob, load_entry. f_equal. apply filter_ext. intros nl. apply glob_literal. apply (stem_plain k m c P). }
  now rewrite !E.
Qed.

Lemma ends_so_iff s : ends_so s = true <-> exists t, s = (t ++ ".so")%string.
Proof.
  split; [|intros [t ->]; apply ends_so_app]. rewrite ends_so_last3. unfold last3. intros H. apply String.eqb_eq in H.
  exists (string_of_list_ascii (firstn (length (list_ascii_of_string s) - 3) (list_ascii_of_string s))).
  rewrite <- H. rewrite <- (string_of_list_ascii_of_string s) at 1. rewrite <- (firstn_skipn (length (list_ascii_of_string s) - 3) (list_ascii_of_string s)) at 1.
  generalize (firstn (length (list_ascii_of_string s) - 3) (list_ascii_of_string s)). intros l. induction l as [|a l IH]; cbn; [reflexivity|]. now rewrite IH.
Qed.
Lemma drop_app p : forall t, drop (String.length p) (p ++ t) = t.
Proof. induction p as [|a p IH]; intros t; [destruct t; reflexivity|]. apply IH. Qed.
Lemma glob_iff p name : plain_key p -> (glob (p ++ "*.so") name = true <-> exists t, name = (p ++ t ++ ".so")%string).
Proof.
  intros P. rewrite glob_literal.
  2:{ apply forallb_forall. intros c J. apply negb_true_iff. exact (P c J). }
  unfold glob_so. rewrite andb_true_iff, starts_iff, ends_so_iff. split.
  - intros [[t ->] [u E]]. rewrite drop_app in E. exists u. now rewrite E.
  - intros [t ->]. split; [now exists (t ++ ".so")%string|]. exists t. apply drop_app.
Qed.
