(** Lists of points with rounded angles. *)
From Coq Require Import Reals ZArith List Lia Lra Permutation Sorted.
From Flocq Require Import Core.
From Verif Require Import PyBase RMod PiBounds SpecFloat FloatModel FloatProofs FloatProofs2.
Import ListNotations.
Local Open Scope R_scope.

Lemma two_pi64_pos : 0 < two_pi64.
Proof. pose proof two_pi64_range. lra. Qed.
Lemma mem_Reqb x l : mem Reqb x l = true <-> In x l.
Proof.
  unfold mem. rewrite existsb_exists. split.
  - intros (y & I & E). apply Reqb_true in E. subst. exact I.
  - intros I. exists x. split; [exact I|]. apply Reqb_true. reflexivity.
Qed.

Lemma remove_dups_In seen l p : In p (remove_dups64 seen l) -> In p l.
Proof.
  revert seen. induction l as [|[x y] l IH]; intros seen; [intros []|]. cbn [remove_dups64].
  destruct (mem _ _ _); intros H; [right; eapply IH; exact H|]. destruct H as [H|H]; [left; exact H|right; eapply IH; exact H].
Qed.
Definition reduce (p : R * R) : R * R := (mod64 (fst p) two_pi64, snd p).
Lemma load64_inv l l' : load64 l = Ok l' -> remove_dups64 [] l <> [] /\ l' = isort (map reduce (remove_dups64 [] l)).
Proof.
  unfold load64. fold reduce. destruct (remove_dups64 [] l) as [|p r]; [discriminate|]. intros E. split; [discriminate|].
  change (Ok (isort (map reduce (p :: r))) = Ok l') in E. congruence.
Qed.
Lemma load64_Ok l : remove_dups64 [] l <> [] -> load64 l = Ok (isort (map reduce (remove_dups64 [] l))).
Proof. unfold load64. fold reduce. destruct (remove_dups64 [] l); [congruence|reflexivity]. Qed.
Lemma load64_In l l' q : load64 l = Ok l' -> In q l' -> exists p, In p l /\ q = (mod64 (fst p) two_pi64, snd p).
Proof.
  intros E I. destruct (load64_inv l l' E) as [_ ->]. rewrite isort_In, in_map_iff in I.
  destruct I as (p & <- & I). exists p. split; [|reflexivity]. apply (remove_dups_In []). exact I.
Qed.

Lemma sorted_fst l : StronglySorted Rle (map fst (isort l)).
Proof.
  induction (isort_sorted l) as [|p r S IH F]; cbn [map]; constructor; [exact IH|].
  apply Forall_map. eapply Forall_impl; [|exact F]. intros q H. exact H.
Qed.
Lemma mod64_ok x : is64 x -> double (mod64 x two_pi64) /\ 0 <= mod64 x two_pi64 <= two_pi64.
Proof.
  intros X. destruct (mod64_range x two_pi64 X is64_two_pi two_pi64_pos) as [A B]. split; [apply double_iff; exact A|exact B].
Qed.
Lemma load64_ok l l' : Forall double (map fst l) -> load64 l = Ok l' -> l' <> [] /\ angles_ok two_pi64 l'.
Proof.
  intros F E. split.
  - destruct (load64_inv l l' E) as [N ->]. intros M. apply (f_equal (@length _)) in M. rewrite isort_length, map_length in M.
    destruct (remove_dups64 [] l); [congruence|discriminate].
  - split.
    + destruct (load64_inv l l' E) as [_ ->]. apply sorted_fst.
    + apply Forall_forall. intros x I. apply in_map_iff in I. destruct I as (q & <- & I).
      destruct (load64_In l l' q E I) as (p & Ip & ->). cbn [fst]. apply mod64_ok. apply double_iff.
      rewrite Forall_forall in F. apply F. apply in_map. exact Ip.
Qed.
Lemma radians64_double l : Forall double (map fst (radians64 l)).
Proof.
  apply Forall_forall. intros x I. unfold radians64 in I. rewrite map_map in I. apply in_map_iff in I.
  destruct I as (p & <- & _). apply double_iff. apply rnd_is64.
Qed.
Lemma phase_shift_ok a l : angles_ok two_pi64 (phase_shift64 a l).
Proof.
  split; [apply sorted_fst|]. apply Forall_forall. intros x I. apply in_map_iff in I. destruct I as (q & <- & I).
  unfold phase_shift64 in I. rewrite isort_In, in_map_iff in I. destruct I as (p & <- & _). cbn [fst]. apply mod64_ok. apply rnd_is64.
Qed.

(** Turning. *)
Lemma phase_shift_turned a l : angles_ok two_pi64 l -> turned_by a ((Rabs a + 10) * (2 / 10 ^ 16)) l (phase_shift64 a l).
Proof.
  intros [_ F]. unfold phase_shift64. eexists. split; [apply Permutation_sym, isort_perm|].
  induction l as [|p l IH]; cbn [map]; constructor.
  - split; [reflexivity|]. cbn [fst]. apply shift_direction. inversion F; subst. tauto.
  - apply IH. inversion F; assumption.
Qed.
Lemma direction_weaken t b b' x y : b <= b' -> direction t b x y -> direction t b' x y.
Proof. intros L (k & H). exists k. lra. Qed.
Lemma direction_trans t b b' x y s z : direction t b x y -> direction t b' (y + s) z -> direction t (b + b') (x + s) z.
Proof.
  intros (k & H) (k' & H'). exists (k + k')%Z. rewrite plus_IZR.
  replace (z - (x + s - t * (IZR k + IZR k'))) with ((z - (y + s - t * IZR k')) + (y - (x - t * IZR k))) by ring.
  eapply Rle_trans; [apply Rabs_triang|]. lra.
Qed.
Lemma Forall2_perm {A B} (P : A -> B -> Prop) l1 l1' : Permutation l1 l1' -> forall l2, Forall2 P l1 l2 ->
  exists l2', Permutation l2 l2' /\ Forall2 P l1' l2'.
Proof.
  induction 1 as [|x l l' Pm IH|x y l|l l' l'' P1 IH1 P2 IH2]; intros l2 F.
  - inversion F; subst. exists []. auto.
  - inversion F as [|? b ? r Hb Hr]; subst. destruct (IH r Hr) as (r' & Q & G). exists (b :: r'). auto.
  - inversion F as [|? b ? r Hb Hr]; subst. inversion Hr as [|? b' ? r' Hb' Hr']; subst. exists (b' :: b :: r'). split; [apply perm_swap|]. auto.
  - destruct (IH1 _ F) as (r & Q & G). destruct (IH2 _ G) as (r' & Q' & G'). exists r'. split; [eapply perm_trans; eassumption|exact G'].
Qed.
Lemma Forall2_chain {A B C} (P : A -> B -> Prop) (Q : B -> C -> Prop) (S : A -> C -> Prop) :
  (forall a b c, P a b -> Q b c -> S a c) -> forall l1 l2 l3, Forall2 P l1 l2 -> Forall2 Q l2 l3 -> Forall2 S l1 l3.
Proof.
  intros H l1 l2 l3 F. revert l3. induction F; intros l3 G; inversion G; subst; constructor; eauto.
Qed.
Lemma turned_trans s b s' b' l l' l'' : turned_by s b l l' -> turned_by s' b' l' l'' -> turned_by (s + s') (b + b') l l''.
Proof.
  intros (m & Pm & F) (m' & Pm' & F'). destruct (Forall2_perm _ _ _ Pm _ F') as (n & Q & G).
  exists n. split; [eapply perm_trans; eassumption|].
  eapply Forall2_chain; [|exact F|exact G]. cbv beta. intros p q r (E & D) (E' & D'). split; [congruence|].
  rewrite <- Rplus_assoc. eapply direction_trans; [exact D|exact D'].
Qed.
Lemma turned_zero b l : 0 <= b -> turned_by 0 b l l.
Proof.
  intros B. exists l. split; [apply Permutation_refl|]. induction l; constructor; [|assumption].
  split; [reflexivity|]. exists 0%Z. rewrite Rmult_0_r. replace (fst a - (fst a + 0 - 0)) with 0 by ring. rewrite Rabs_R0. exact B.
Qed.
Lemma turned_weaken s s' b b' l l' : Rabs (s - s') + b <= b' -> turned_by s b l l' -> turned_by s' b' l l'.
Proof.
  intros L (m & Pm & F). exists m. split; [exact Pm|]. clear Pm. induction F as [|p q l r H F IH]; constructor; [|exact IH].
  destruct H as (E & k & D). split; [exact E|]. exists k.
  replace (fst q - (fst p + s' - 2 * PI * IZR k)) with ((fst q - (fst p + s - 2 * PI * IZR k)) + (s - s')) by ring.
  eapply Rle_trans; [apply Rabs_triang|]. lra.
Qed.

(** Duplicates. *)
Lemma dups_kept seen l :
  (forall x, In x (map fst l) -> ~ In (mod64 x two_pi64) seen) ->
  (forall l1 p l2 q l3, l = l1 ++ p :: l2 ++ q :: l3 -> mod64 (fst q) two_pi64 <> fst p) ->
  remove_dups64 seen l = l.
Proof.
  revert seen. induction l as [|[x y] l IH]; intros seen S A; [reflexivity|]. cbn [remove_dups64].
  destruct (mem Reqb (mod64 x two_pi64) seen) eqn:M.
  { apply mem_Reqb in M. exfalso. exact (S x (or_introl eq_refl) M). }
  f_equal. apply IH.
  - intros z I J. apply in_app_or in J. destruct J as [J|[J|[]]].
    + exact (S z (or_intror I) J).
    + apply in_map_iff in I. destruct I as (q & <- & I). apply in_split in I. destruct I as (l2 & l3 & ->).
      apply (A [] (x, y) l2 q l3 eq_refl). symmetry. exact J.
  - intros l1 p l2 q l3 ->. apply (A ((x, y) :: l1) p l2 q l3). reflexivity.
Qed.

Lemma remove_dups_app seen l l' : remove_dups64 seen (l ++ l') = remove_dups64 seen l ++ remove_dups64 (seen ++ map fst (remove_dups64 seen l)) l'.
Proof.
  revert seen. induction l as [|[x y] l IH]; intros seen; cbn [remove_dups64 app map].
  - rewrite app_nil_r. reflexivity.
  - destruct (mem _ _ _); [apply IH|]. cbn [app map fst]. rewrite IH, <- app_assoc. reflexivity.
Qed.

(** Angles already reduced: the first point at each angle is kept. *)
Lemma dups_first seen l : Forall (fun x => 0 <= x < two_pi64) (map fst l) ->
  forall p, In p (remove_dups64 seen l) <-> ~ In (fst p) seen /\ first_at l p.
Proof.
  revert seen. induction l as [|[x y] l IH]; intros seen F p.
  { split; [intros []|]. intros (_ & l1 & l2 & E & _). destruct l1; discriminate. }
  inversion F as [|? ? X F']; subst. cbn [remove_dups64]. cbn [fst map] in X, F'. rewrite (mod64_small x two_pi64 X).
  assert (T : first_at ((x, y) :: l) p <-> p = (x, y) \/ fst p <> x /\ first_at l p).
  { split.
    - intros (l1 & l2 & E & N). destruct l1 as [|q l1]; injection E as E1 E2; [left; congruence|right]. subst q. cbn [map fst] in N.
      split; [intros E; apply N; left; symmetry; exact E|]. exists l1, l2. split; [exact E2|]. intros I. apply N. right. exact I.
    - intros [->|(N & l1 & l2 & -> & M)]; [exists [], l; split; [reflexivity|intros []]|].
      exists ((x, y) :: l1), l2. split; [reflexivity|]. cbn [map fst]. intros [E|E]; [apply N; symmetry; exact E|exact (M E)]. }
  destruct (mem Reqb x seen) eqn:M.
  - apply mem_Reqb in M. rewrite (IH seen F' p), T. split; [intros (A & B)|intros (A & [->|(N & B)])].
    + split; [exact A|]. right. split; [intros E; apply A; rewrite E; exact M|exact B].
    + contradiction.
    + split; assumption.
  - assert (M' : ~ In x seen) by (rewrite <- mem_Reqb, M; discriminate).
    cbn [In]. rewrite (IH (seen ++ [x]) F' p), T, in_app_iff. split.
    + intros [<-|(A & B)]; [split; [exact M'|left; reflexivity]|]. split; [tauto|]. right. split; [|exact B].
      intros E. apply A. right. left. symmetry. exact E.
    + intros (A & [->|(N & B)]); [left; reflexivity|]. right. split; [|exact B]. intros [I|[I|[]]]; [exact (A I)|exact (N (eq_sym I))].
Qed.
Lemma dups_nodup seen l : Forall (fun x => 0 <= x < two_pi64) (map fst l) -> NoDup (map fst (remove_dups64 seen l)).
Proof.
  revert seen. induction l as [|[x y] l IH]; intros seen F; [constructor|].
  inversion F as [|? ? X F']; subst. cbn [remove_dups64]. cbn [fst map] in X, F'. rewrite (mod64_small x two_pi64 X).
  destruct (mem Reqb x seen); [apply IH; exact F'|]. cbn [map fst]. constructor; [|apply IH; exact F'].
  intros I. apply in_map_iff in I. destruct I as (q & E & I). apply dups_first in I; [|exact F'].
  apply (proj1 I). apply in_or_app. right. left. symmetry. exact E.
Qed.
