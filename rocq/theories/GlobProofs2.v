(** Patterns with special characters, one after the other. *)
From Coq Require Import String Ascii List Arith ZArith Bool Lia.
From Verif Require Import PyBase Expr FDataModel FormModel FitModel SpecFit FitProofs3 GlobModel SpecGlob GlobProofs.
Import ListNotations.
Local Open Scope nat_scope.

Lemma upto_length s : forall a b, upto s = Some (a, b) -> length b < length s.
Proof.
  induction s as [|c s IH]; cbn; intros a b E; [discriminate|]. destruct (Ascii.eqb c closing); [injection E as <- <-; lia|].
  destruct (upto s) as [[a' b']|]; [|discriminate]. injection E as <- <-. specialize (IH a' b' eq_refl). lia.
Qed.
Lemma bracket_length s neg cs rest : bracket s = Some (neg, cs, rest) -> length rest < length s.
Proof.
  unfold bracket. destruct s as [|c s]; [discriminate|]. destruct (Ascii.eqb c bang).
  - destruct s as [|c' s]; [discriminate|]. destruct (upto s) as [[a b]|] eqn:E; [|discriminate]. intros X. injection X as <- <- <-. apply upto_length in E. cbn. lia.
  - destruct (upto s) as [[a b]|] eqn:E; [|discriminate]. intros X. injection X as <- <- <-. apply upto_length in E. cbn. lia.
Qed.
Lemma parts_fuel n : forall m s, length s <= n -> length s <= m -> parts n s = parts m s.
Proof.
  induction n as [|n IH]; intros m s L M.
  - destruct s; [|cbn in L; lia]. destruct m; reflexivity.
  - destruct m as [|m]; [destruct s; [reflexivity|cbn in M; lia]|]. destruct s as [|c s]; [reflexivity|]. cbn [parts]. cbn [length] in L, M.
    rewrite (IH m s) by lia. destruct (bracket s) as [[[neg cs] rest]|] eqn:E; [|reflexivity].
    apply bracket_length in E. rewrite (IH m rest) by lia. reflexivity.
Qed.
Definition las := list_ascii_of_string.
Definition compile (p : string) : list part := parts (length (las p)) (las p).
Lemma glob_compile p s : glob p s = matches (compile p) (las s).
Proof. reflexivity. Qed.
Lemma compile_plain p q : plain_key p -> compile (p ++ q) = (map Lit (las p) ++ compile q)%list.
Proof.
  intros P. unfold compile, las. rewrite list_ascii_app, app_length. apply parts_literal. apply forallb_forall. intros c I. apply negb_true_iff. exact (P c I).
Qed.
Lemma compile_star q : compile (String star q) = Any :: compile q.
Proof. reflexivity. Qed.
Lemma compile_quest q : compile (String quest q) = One :: compile q.
Proof. reflexivity. Qed.
Lemma las_app a b : las (a ++ b) = (las a ++ las b)%list.
Proof. apply list_ascii_app. Qed.
Lemma las_inj a b : las a = las b -> a = b.
Proof. intros E. apply (f_equal string_of_list_ascii) in E. unfold las in E. rewrite !string_of_list_ascii_of_string in E. exact E. Qed.
Lemma matches_plain p ps s : matches (map Lit (las p) ++ ps) (las s) = true <-> exists t, s = (p ++ t)%string /\ matches ps (las t) = true.
Proof.
  rewrite matches_literal, andb_true_iff. unfold las. rewrite !string_of_list_ascii_of_string, starts_iff. split.
  - intros [[t ->] H]. exists t. split; [reflexivity|]. rewrite list_ascii_app, skipn_app, skipn_all, Nat.sub_diag in H. exact H.
  - intros (t & -> & H). split; [exists t; reflexivity|]. rewrite list_ascii_app, skipn_app, skipn_all, Nat.sub_diag. exact H.
Qed.
Lemma matches_any ps s : matches (Any :: ps) s = true <-> exists u t, s = (u ++ t)%list /\ matches ps t = true.
Proof.
  split.
  - induction s as [|a s IH]; intros H.
    + exists [], []. split; [reflexivity|]. cbn in H. rewrite orb_false_r in H. exact H.
    + change (matches ps (a :: s) || matches (Any :: ps) s = true) in H. apply orb_true_iff in H as [H|H]; [exists [], (a :: s); auto|].
      destruct (IH H) as (u & t & -> & Ht). exists (a :: u), t. auto.
  - intros (u & t & -> & H). induction u as [|a u IH].
    + destruct t as [|b t]; [cbn; rewrite H; reflexivity|]. change (matches ps (b :: t) || matches (Any :: ps) t = true). rewrite H. reflexivity.
    + change (matches ps (a :: u ++ t) || matches (Any :: ps) (u ++ t) = true). rewrite IH. apply orb_true_r.
Qed.

Lemma glob_plain p q name : plain_key p -> (glob (p ++ q) name = true <-> exists t, name = (p ++ t)%string /\ glob q t = true).
Proof. intros P. rewrite glob_compile, compile_plain by exact P. apply matches_plain. Qed.
Lemma glob_nil name : glob "" name = true <-> name = ""%string.
Proof. destruct name; cbn; split; intros H; try reflexivity; discriminate. Qed.
Lemma glob_star q name : glob ("*" ++ q) name = true <-> exists u t, name = (u ++ t)%string /\ glob q t = true.
Proof.
  rewrite glob_compile. change ("*" ++ q)%string with (String star q). rewrite compile_star, matches_any. split.
  - intros (u & t & E & H). exists (string_of_list_ascii u), (string_of_list_ascii t). split.
    + apply las_inj. rewrite las_app. unfold las. rewrite !list_ascii_of_string_of_list_ascii. exact E.
    + rewrite glob_compile. unfold las. rewrite list_ascii_of_string_of_list_ascii. exact H.
  - intros (u & t & -> & H). exists (las u), (las t). split; [apply las_app|exact H].
Qed.
Lemma glob_quest q name : glob ("?" ++ q) name = true <-> exists c t, name = String c t /\ glob q t = true.
Proof.
  rewrite glob_compile. change ("?" ++ q)%string with (String quest q). rewrite compile_quest. destruct name as [|a s].
  - split; [discriminate|]. intros (c & t & E & _). discriminate E.
  - change (matches (One :: compile q) (las (String a s))) with (glob q s). split; [intros H; exists a, s; auto|]. intros (c & t & E & H). injection E as -> ->. exact H.
Qed.

(** brackets *)
Lemma upto_app a b : ~ In closing a -> upto (a ++ closing :: b) = Some (a, b).
Proof.
  induction a as [|c a IH]; intros N; [reflexivity|]. cbn [List.app upto]. destruct (Ascii.eqb_spec c closing) as [->|Nc]; [exfalso; apply N; left; reflexivity|].
  rewrite IH by (intros X; apply N; right; exact X). reflexivity.
Qed.
Lemma upto_none s : ~ In closing s -> upto s = None.
Proof.
  induction s as [|c s IH]; intros N; [reflexivity|]. cbn [upto]. destruct (Ascii.eqb_spec c closing) as [->|Nc]; [exfalso; apply N; left; reflexivity|].
  rewrite IH by (intros X; apply N; right; exact X). reflexivity.
Qed.
Lemma bracket_some c a b : c <> bang -> ~ In closing a -> bracket (c :: a ++ closing :: b) = Some (false, c :: a, b).
Proof. intros B N. unfold bracket. destruct (Ascii.eqb_spec c bang) as [X|_]; [contradiction|]. rewrite upto_app by exact N. reflexivity. Qed.
Lemma bracket_neg c a b : ~ In closing a -> bracket (bang :: c :: a ++ closing :: b) = Some (true, c :: a, b).
Proof. intros N. unfold bracket. change (Ascii.eqb bang bang) with true. cbn iota. rewrite upto_app by exact N. reflexivity. Qed.
Lemma bracket_none s : ~ In closing s -> bracket s = None.
Proof.
  intros N. unfold bracket. destruct s as [|c s]; [reflexivity|]. assert (N' : ~ In closing s) by (intros X; apply N; right; exact X).
  destruct (Ascii.eqb c bang); [|rewrite upto_none by exact N'; reflexivity]. destruct s as [|c' s]; [reflexivity|].
  rewrite upto_none by (intros X; apply N'; right; exact X). reflexivity.
Qed.
Lemma in_class_dashless cs c : ~ In dash cs -> in_class (length cs) cs c = existsb (Ascii.eqb c) cs.
Proof.
  induction cs as [|a cs IH]; intros N; [reflexivity|].
  assert (N' : ~ In dash cs) by (intros X; apply N; right; exact X). specialize (IH N').
  cbn [length existsb]. rewrite <- IH, (Ascii.eqb_sym c a). destruct cs as [|d [|b cs]]; [reflexivity|reflexivity|].
  cbn [length]. change (in_class (S (S (S (length cs)))) (a :: d :: b :: cs) c) with
    (if Ascii.eqb d dash then (Nat.leb (nat_of_ascii a) (nat_of_ascii c) && Nat.leb (nat_of_ascii c) (nat_of_ascii b)) || in_class (S (S (length cs))) cs c
     else Ascii.eqb a c || in_class (S (S (length cs))) (d :: b :: cs) c).
  destruct (Ascii.eqb_spec d dash) as [->|Nd]; [exfalso; apply N'; left; reflexivity|]. reflexivity.
Qed.
Lemma glob_class neg c a q name : (neg = false -> c <> bang) -> ~ In "]"%char (las a) -> ~ In "-"%char (las (String c a)) ->
  (glob ((if neg then "[!" else "[") ++ String c a ++ "]" ++ q) name = true <->
   exists d t, name = String d t /\ (if neg then ~ In d (las (String c a)) else In d (las (String c a))) /\ glob q t = true).
Proof.
  intros B N D.
  assert (K : compile ((if neg then "[!" else "[") ++ String c a ++ "]" ++ q) = Class neg (las (String c a)) :: compile q).
  { unfold compile. assert (L : las ((if neg then "[!" else "[") ++ String c a ++ "]" ++ q) = opening :: (if neg then [bang] else []) ++ c :: las a ++ closing :: las q).
    { rewrite las_app. change (String c a ++ "]" ++ q)%string with (String c (a ++ String closing q)). destruct neg; cbn [las list_ascii_of_string List.app]; f_equal; [f_equal|]; f_equal; apply list_ascii_app. }
    rewrite L. cbn [length parts]. change (Ascii.eqb opening star) with false. change (Ascii.eqb opening quest) with false. change (Ascii.eqb opening opening) with true. cbn iota.
    assert (Br : bracket ((if neg then [bang] else []) ++ c :: las a ++ closing :: las q) = Some (neg, c :: las a, las q)).
    { destruct neg; cbn [List.app]; [apply bracket_neg; exact N|apply bracket_some; [apply B; reflexivity|exact N]]. }
    rewrite Br. f_equal. apply parts_fuel; [|lia]. rewrite !app_length. cbn [length]. rewrite app_length. cbn [length]. lia. }
  rewrite glob_compile, K. destruct name as [|d s]; [split; [discriminate|]; intros (d & t & E & _); discriminate E|].
  change (matches (Class neg (las (String c a)) :: compile q) (las (String d s))) with (xorb neg (in_class (length (las (String c a))) (las (String c a)) d) && glob q s).
  rewrite in_class_dashless by exact D. rewrite andb_true_iff.
  assert (X : xorb neg (existsb (Ascii.eqb d) (las (String c a))) = true <-> (if neg then ~ In d (las (String c a)) else In d (las (String c a)))).
  { assert (Y : existsb (Ascii.eqb d) (las (String c a)) = true <-> In d (las (String c a))).
    { rewrite existsb_exists. split; [intros (x & I & E); apply Ascii.eqb_eq in E; congruence|intros I; exists d; split; [exact I|apply Ascii.eqb_refl]]. }
    destruct neg; [|rewrite xorb_false_l; exact Y]. rewrite xorb_true_l, negb_true_iff, <- Y. destruct (existsb _ _); split; intros; congruence. }
  rewrite X. split; [intros [H1 H2]; exists d, s; auto|]. intros (d' & t & E & H1 & H2). injection E as -> ->. auto.
Qed.
Lemma glob_range lo hi q name : lo <> "!"%char -> hi <> "]"%char ->
  (glob ("[" ++ String lo (String "-" (String hi ("]" ++ q)))) name = true <->
   exists d t, name = String d t /\ nat_of_ascii lo <= nat_of_ascii d <= nat_of_ascii hi /\ glob q t = true).
Proof.
  intros B Nh.
  assert (K : compile ("[" ++ String lo (String "-" (String hi ("]" ++ q)))) = Class false [lo; dash; hi] :: compile q).
  { unfold compile. change (las ("[" ++ String lo (String "-" (String hi ("]" ++ q))))) with (opening :: lo :: [dash; hi] ++ closing :: las q).
    change (length (opening :: lo :: [dash; hi] ++ closing :: las q)) with (S (length (lo :: [dash; hi] ++ closing :: las q))).
    set (w := length (lo :: [dash; hi] ++ closing :: las q)).
    cbn [parts]. change (Ascii.eqb opening star) with false. change (Ascii.eqb opening quest) with false. change (Ascii.eqb opening opening) with true. cbn iota.
    rewrite bracket_some; [|exact B|intros [X|[X|[]]]; [discriminate X|exact (Nh X)]]. f_equal. apply parts_fuel; [|lia]. unfold w. cbn [length]. rewrite app_length. cbn [length]. lia. }
  rewrite glob_compile, K. destruct name as [|d s]; [split; [discriminate|]; intros (d & t & E & _); discriminate E|].
  change (matches (Class false [lo; dash; hi] :: compile q) (las (String d s))) with
    (xorb false ((Nat.leb (nat_of_ascii lo) (nat_of_ascii d) && Nat.leb (nat_of_ascii d) (nat_of_ascii hi)) || false) && glob q s).
  rewrite xorb_false_l, orb_false_r, !andb_true_iff, !Nat.leb_le. split; [intros [[H1 H2] H3]; exists d, s; auto|].
  intros (d' & t & E & [H1 H2] & H3). injection E as -> ->. auto.
Qed.
Lemma glob_open q name : ~ In "]"%char (las q) -> (glob ("[" ++ q) name = true <-> exists t, name = String "[" t /\ glob q t = true).
Proof.
  intros N. assert (K : compile ("[" ++ q) = Lit opening :: compile q).
  { unfold compile. change (las ("[" ++ q)) with (opening :: las q). cbn [length parts].
    change (Ascii.eqb opening star) with false. change (Ascii.eqb opening quest) with false. change (Ascii.eqb opening opening) with true. cbn iota.
    rewrite bracket_none by exact N. reflexivity. }
  rewrite glob_compile, K. destruct name as [|d s]; [split; [discriminate|]; intros (t & E & _); discriminate E|].
  change (matches (Lit opening :: compile q) (las (String d s))) with (Ascii.eqb d opening && glob q s). rewrite andb_true_iff, Ascii.eqb_eq.
  split; [intros [-> H]; exists s; auto|]. intros (t & E & H). injection E as -> ->. auto.
Qed.

(** a key without an opening bracket finds its own files *)
Lemma glob_self : forall k q t, ~ In "["%char (las k) -> glob q t = true -> glob (k ++ q) (k ++ t) = true.
Proof.
  induction k as [|c k IH]; intros q t N H; [exact H|]. assert (N' : ~ In "["%char (las k)) by (intros X; apply N; right; exact X).
  specialize (IH q t N' H). cbn [append]. destruct (Ascii.ascii_dec c "*") as [->|N1].
  - apply (glob_star (k ++ q)). exists "*"%string, (k ++ t)%string. split; [reflexivity|exact IH].
  - destruct (Ascii.ascii_dec c "?") as [->|N2].
    + apply (glob_quest (k ++ q)). exists "?"%char, (k ++ t)%string. split; [reflexivity|exact IH].
    + assert (P : plain_key (String c "")).
      { intros x [<-|[]]. unfold special. rewrite (proj2 (Ascii.eqb_neq c "*") N1), (proj2 (Ascii.eqb_neq c "?") N2).
        rewrite (proj2 (Ascii.eqb_neq c "[")); [reflexivity|]. intros ->. apply N. left. reflexivity. }
      apply (glob_plain (String c "") (k ++ q) _ P). exists (k ++ t)%string. split; [reflexivity|exact IH].
Qed.
