(** C61: traces that use only copying accessors follow value semantics. *)
From Coq Require Import String List Bool Arith Lia.
From Verif Require Import PyBase HeapModel SpecHeap.
Import ListNotations.

Lemma set_nth_length {B} (l : list B) : forall i b, length (set_nth l i b) = length l.
Proof. induction l; intros [|i] b; simpl; auto. Qed.
Lemma set_nth_same {B} (l : list B) : forall i b, i < length l -> nth_error (set_nth l i b) i = Some b.
Proof. induction l; intros [|i] b L; simpl in *; try lia; auto. apply IHl. lia. Qed.
Lemma set_nth_other {B} (l : list B) : forall i j b, i <> j -> nth_error (set_nth l i b) j = nth_error l j.
Proof. induction l; intros [|i] [|j] b N; simpl; auto; try lia. Qed.
Lemma set_nth_out {B} (l : list B) : forall i b, length l <= i -> set_nth l i b = l.
Proof. induction l; intros [|i] b L; simpl in *; auto; try lia. f_equal. apply IHl. lia. Qed.

Section P.
  Context {A Op : Type}.
  Variable mk : list (string * A) -> res (dict string A).
  Variable method : Op -> dict string A -> dict string A.
  Variable deg : A -> A.
  Notation world := (world A).

  Definition points_to (h : list A) (l : nat) (x : A) := nth_error h l = Some x.
  Definition holds (h : list A) (ls : dict string nat) (d : dict string A) :=
    Forall2 (fun kl kv => fst kl = fst kv /\ points_to h (snd kl) (snd kv)) ls d.
  Definition internal (w : world) : list nat := flat_map dvals (conts A w).
  Definition sim (w : world) (s : values A) : Prop :=
    Forall2 (points_to (heap A w)) (known A w) (mine s) /\
    Forall2 (holds (heap A w)) (conts A w) (theirs s) /\
    NoDup (known A w ++ internal w).

  Lemma points_app h e l x : points_to h l x -> points_to (h ++ e) l x.
  Proof. unfold points_to. intros H. rewrite nth_error_app1; auto. apply nth_error_Some. congruence. Qed.
  Lemma points_lt h l x : points_to h l x -> l < length h.
  Proof. intros H. apply nth_error_Some. unfold points_to in H. congruence. Qed.
  Lemma holds_app h e ls d : holds h ls d -> holds (h ++ e) ls d.
  Proof. unfold holds. induction 1; constructor; auto. destruct H; split; auto. apply points_app; auto. Qed.
  Lemma known_app h e ls d : Forall2 (points_to h) ls d -> Forall2 (points_to (h ++ e)) ls d.
  Proof. induction 1; constructor; auto. apply points_app; auto. Qed.
  Lemma conts_app h e ls d : Forall2 (holds h) ls d -> Forall2 (holds (h ++ e)) ls d.
  Proof. induction 1; constructor; auto. apply holds_app; auto. Qed.

  Lemma holds_read h ls d : holds h ls d -> read A h ls = Ok d.
  Proof.
    induction 1 as [|[k l] [k' x] ls d [E P] F IH]; auto. unfold read in *. simpl in *. rewrite P. simpl.
    rewrite IH. simpl. now rewrite E.
  Qed.
  Lemma F2_nth {X Y} (P : X -> Y -> Prop) l1 l2 : Forall2 P l1 l2 -> forall i,
    match nth_error l1 i, nth_error l2 i with Some a, Some b => P a b | None, None => True | _, _ => False end.
  Proof. induction 1; intros [|i]; simpl; auto. apply IHForall2. Qed.
  Lemma deref_sim w s c : sim w s -> deref A w c = get_theirs s c.
  Proof.
    intros (_ & C & _). unfold deref, get_theirs. pose proof (F2_nth _ _ _ C c) as H.
    destruct (nth_error (conts A w) c), (nth_error (theirs s) c); try tauto. apply holds_read; auto.
  Qed.
  Lemma merged_sim w s mapping : sim w s -> forall cs i, merged A w cs i mapping = vmerged s cs i mapping.
  Proof. intros S. induction cs as [|c cs IH]; intros i; simpl; auto. rewrite (deref_sim _ _ _ S), IH. reflexivity. Qed.

  Lemma alloc_holds h d : holds (h ++ dvals d) (alloc A (length h) d) d.
  Proof.
    revert h. induction d as [|[k x] d IH]; intros h; simpl; constructor.
    - split; auto. simpl. unfold points_to. rewrite nth_error_app2, Nat.sub_diag; auto.
    - replace (h ++ x :: dvals d) with ((h ++ [x]) ++ dvals d) by (rewrite <- app_assoc; auto).
      replace (S (length h)) with (length (h ++ [x])) by (rewrite app_length; simpl; lia). apply IH.
  Qed.
  Lemma alloc_locs n d : dvals (alloc A n d) = seq n (length d).
  Proof. revert n. induction d as [|[k x] d IH]; intros n; simpl; auto. unfold dvals in *. simpl. now rewrite IH. Qed.

  Lemma known_lt w s l : sim w s -> In l (known A w) -> l < length (heap A w).
  Proof.
    intros (K & _) I. apply In_nth_error in I as [i I]. pose proof (F2_nth _ _ _ K i) as H. rewrite I in H.
    destruct (nth_error (mine s) i); [|tauto]. eapply points_lt; eauto.
  Qed.
  Lemma holds_locs_lt h ls d l : holds h ls d -> In l (dvals ls) -> l < length h.
  Proof.
    induction 1 as [|kl kv ls d [_ P] F IH]; simpl; [tauto|]. intros [<-|I]; auto. eapply points_lt; eauto.
  Qed.
  Lemma internal_lt w s l : sim w s -> In l (internal w) -> l < length (heap A w).
  Proof.
    intros (_ & C & _) I. apply in_flat_map in I as [ls [J I]]. apply In_nth_error in J as [i J].
    pose proof (F2_nth _ _ _ C i) as H. rewrite J in H. destruct (nth_error (theirs s) i); [|tauto].
    eapply holds_locs_lt; eauto.
  Qed.

  Lemma NoDup_app_iff {X} (a b : list X) : NoDup (a ++ b) <-> NoDup a /\ NoDup b /\ forall x, In x a -> ~ In x b.
  Proof.
    induction a as [|x a IH]; simpl.
    - split; [intros N; repeat split; auto; constructor|tauto].
    - split.
      + intros N. inversion N as [|? ? I N']; subst. apply IH in N' as (Na & Nb & D).
        split; [constructor; auto; intros J; apply I, in_or_app; auto|]. split; auto.
        intros y [->|J] K; [apply I, in_or_app; auto|eapply D; eauto].
      + intros (Na & Nb & D). inversion Na; subst. constructor.
        * intros J. apply in_app_or in J as [J|J]; auto. eapply D; eauto.
        * apply IH. repeat split; auto.
  Qed.

  Lemma sim_give w s l : sim w s -> sim (give_fresh A w l) (give s l).
  Proof.
    intros S. pose proof S as (K & C & N). unfold give_fresh, give. split; [|split]; simpl.
    - apply Forall2_app; [apply known_app; auto|].
      clear. generalize (heap A w) as h. induction l as [|x l IH]; intros h; simpl; constructor.
      + unfold points_to. rewrite nth_error_app2, Nat.sub_diag; auto.
      + replace (h ++ x :: l) with ((h ++ [x]) ++ l) by (rewrite <- app_assoc; auto).
        replace (Datatypes.S (length h)) with (length (h ++ [x])) by (rewrite app_length; simpl; lia). apply IH.
    - apply conts_app; auto.
    - unfold internal. simpl. fold (internal w). apply NoDup_app_iff in N as (N1 & N2 & D).
      apply NoDup_app_iff. split; [|split; auto].
      + apply NoDup_app_iff. split; auto. split; [apply seq_NoDup|].
        intros x I J. apply (known_lt _ _ _ S) in I. apply in_seq in J. lia.
      + intros x I J. apply in_app_or in I as [I|I]; [eapply D; eauto|].
        apply (internal_lt _ _ _ S) in J. apply in_seq in I. lia.
  Qed.

  Lemma sim_add w s d : sim w s -> sim (add_container A w d) (add s d).
  Proof.
    intros S. pose proof S as (K & C & N). unfold add_container, add. split; [|split]; simpl.
    - apply known_app; auto.
    - apply Forall2_app; [apply conts_app; auto|]. constructor; [|constructor]. apply alloc_holds.
    - unfold internal. simpl. rewrite flat_map_app. fold (internal w). simpl. rewrite app_nil_r, alloc_locs.
      rewrite app_assoc. apply NoDup_app_iff. split; auto. split; [apply seq_NoDup|].
      intros x I J. apply in_seq in J. apply in_app_or in I as [I|I].
      + apply (known_lt _ _ _ S) in I. lia.
      + apply (internal_lt _ _ _ S) in I. lia.
  Qed.

  Lemma flat_set_nth l c ls : forall ls0 : dict string nat, nth_error l c = Some ls0 ->
    exists a b, flat_map dvals l = a ++ dvals ls0 ++ b /\ flat_map dvals (set_nth l c ls) = a ++ dvals ls ++ b.
  Proof.
    revert c. induction l as [|x l IH]; intros [|c] ls0 E; simpl in E; try discriminate.
    - injection E as ->. exists [], (flat_map dvals l). auto.
    - destruct (IH c ls0 E) as (a & b & E1 & E2). exists (dvals x ++ a), b. simpl. rewrite E1, E2, <- !app_assoc. auto.
  Qed.

  Lemma F2_set_nth {X Y} (P : X -> Y -> Prop) l1 l2 c a b : Forall2 P l1 l2 -> P a b ->
    Forall2 P (set_nth l1 c a) (set_nth l2 c b).
  Proof. intros F Pab. revert c. induction F; intros [|c]; simpl; constructor; auto. Qed.

  (** replacing a container, keeping its old arrays for the caller or not *)
  Lemma sim_replace w s c ls d d' (keep : bool) : sim w s ->
    nth_error (conts A w) c = Some ls -> nth_error (theirs s) c = Some d ->
    sim (replace_container A (mkworld A (heap A w) (known A w ++ (if keep then dvals ls else [])) (conts A w)) c d')
        (mkvalues (mine s ++ (if keep then dvals d else [])) (set_nth (theirs s) c d')).
  Proof.
    intros S E Ed. pose proof S as (K & C & N). unfold replace_container. split; [|split]; simpl.
    - apply known_app. apply Forall2_app; auto. destruct keep; [|constructor].
      pose proof (F2_nth _ _ _ C c) as H. rewrite E, Ed in H. clear -H.
      induction H as [|kl kv ls d [_ P] F IH]; simpl; constructor; auto.
    - apply F2_set_nth; [apply conts_app; auto|]. apply alloc_holds.
    - unfold internal. simpl. destruct (flat_set_nth (conts A w) c (alloc A (length (heap A w)) d') ls E) as (a & b & E1 & E2).
      rewrite E2, alloc_locs. unfold internal in N. rewrite E1 in N.
      assert (LT : forall x, In x (known A w ++ a ++ dvals ls ++ b) -> x < length (heap A w)).
      { intros x I. apply in_app_or in I as [I|I]; [apply (known_lt _ _ _ S I)|].
        apply (internal_lt _ _ _ S). unfold internal. rewrite E1. auto. }
      apply NoDup_app_iff in N as (N1 & N2 & D). apply NoDup_app_iff in N2 as (Na & N3 & D2).
      apply NoDup_app_iff in N3 as (Nl & Nb & D3).
      assert (Fr : forall x, In x (seq (length (heap A w)) (length d')) -> ~ x < length (heap A w)).
      { intros x I. apply in_seq in I. lia. }
      apply NoDup_app_iff. split; [|split].
      + apply NoDup_app_iff. split; auto. split; [destruct keep; auto; constructor|].
        intros x I J. destruct keep; [|destruct J]. apply (D x I). apply in_or_app. right. apply in_or_app. auto.
      + apply NoDup_app_iff. split; auto. split.
        * apply NoDup_app_iff. split; [apply seq_NoDup|]. split; auto.
          intros x I J. apply (Fr x I). apply LT. do 2 (apply in_or_app; right). apply in_or_app; auto.
        * intros x I J. apply in_app_or in J as [J|J].
          -- apply (Fr x J). apply LT. apply in_or_app; right. apply in_or_app; auto.
          -- apply (D2 x I). apply in_or_app; auto.
      + intros x I J. apply in_app_or in I as [I|I].
        * apply in_app_or in J as [J|J]; [apply (D x I); apply in_or_app; auto|].
          apply in_app_or in J as [J|J]; [apply (Fr x J), LT, in_or_app; auto|].
          apply (D x I). apply in_or_app; right. apply in_or_app; auto.
        * destruct keep; [|destruct I].
          apply in_app_or in J as [J|J]; [apply (D2 x J); apply in_or_app; auto|].
          apply in_app_or in J as [J|J].
          -- apply (Fr x J), LT. do 2 (apply in_or_app; right). apply in_or_app; auto.
          -- apply (D3 x I J).
  Qed.

  Lemma sim_write w s i x : sim w s ->
    sim (act_step A mk Op method deg w (AWrite A Op i x)) (value_step mk method deg s (AWrite A Op i x)).
  Proof.
    intros S. pose proof S as (K & C & N). simpl.
    destruct (nth_error (known A w) i) as [l|] eqn:E.
    2:{ apply nth_error_None in E. pose proof (F2_nth _ _ _ K) as H.
        assert (length (mine s) = length (known A w)) by (clear -K; induction K; simpl; auto).
        rewrite set_nth_out by lia. destruct s; exact S. }
    assert (L : l < length (heap A w)) by (apply (known_lt _ _ _ S), (nth_error_In _ _ E)).
    split; [|split]; simpl; auto.
    - assert (Nk : NoDup (known A w)) by (apply NoDup_app_iff in N; tauto). clear -K E L Nk.
      revert i E Nk. induction K as [|l' y ls ys P F IH]; intros [|i] E Nk; simpl in *; try discriminate.
      + injection E as ->. inversion Nk; subst. constructor.
        * unfold points_to. apply set_nth_same; auto.
        * clear -F H1. induction F; constructor.
          -- unfold points_to. rewrite set_nth_other; auto. intros ->. apply H1; left; auto.
          -- apply IHF. intros I; apply H1; right; auto.
      + inversion Nk; subst. constructor; [|apply IH; auto].
        unfold points_to. rewrite set_nth_other; auto. intros ->. apply H1. eapply nth_error_In; eauto.
    - assert (D : ~ In l (internal w)).
      { apply NoDup_app_iff in N as (_ & _ & D). apply D. eapply nth_error_In; eauto. }
      unfold internal in D. clear -C D. induction C as [|ls d lss ds H F IH]; constructor.
      + simpl in D. assert (D' : ~ In l (dvals ls)) by (intros I; apply D, in_or_app; auto).
        clear -H D'. induction H as [|kl kv ls d [Ek P] F IH]; constructor.
        * split; auto. unfold points_to. rewrite set_nth_other; auto. intros ->. apply D'; left; auto.
        * apply IH. intros I; apply D'; right; auto.
      + apply IH. intros I. apply D. simpl. apply in_or_app; auto.
  Qed.

  Lemma sim_items w s items : sim w s ->
    mapM (fun kl : string * nat => match nth_error (known A w) (snd kl) with
                              | Some l => match nth_error (heap A w) l with
                                          | Some x => Ok (fst kl, x)
                                          | None => Raise IndexError
                                          end
                              | None => Raise IndexError
                              end) items =
    mapM (fun kl => match nth_error (mine s) (snd kl) with Some x => Ok (fst kl, x) | None => Raise IndexError end) items.
  Proof.
    intros (K & _). induction items as [|[k i] items IH]; simpl; auto. rewrite IH.
    pose proof (F2_nth _ _ _ K i) as H. destruct (nth_error (known A w) i), (nth_error (mine s) i); try tauto.
    unfold points_to in H. rewrite H. reflexivity.
  Qed.

  Lemma get_theirs_both w s c d : sim w s -> get_theirs s c = Ok d ->
    nth_error (theirs s) c = Some d /\ exists ls, nth_error (conts A w) c = Some ls.
  Proof.
    intros (_ & C & _) E. unfold get_theirs in E. pose proof (F2_nth _ _ _ C c) as H.
    destruct (nth_error (theirs s) c); [|discriminate]. injection E as ->. split; auto.
    destruct (nth_error (conts A w) c); [eauto|tauto].
  Qed.

  Lemma sim_step w s a : sim w s -> safe a = true ->
    sim (act_step A mk Op method deg w a) (value_step mk method deg s a).
  Proof.
    intros S Sf. destruct a; try discriminate; [| apply sim_write; auto | | | | | |]; simpl.
    - apply sim_give; auto.
    - rewrite (sim_items w s _ S). destruct (mapM _ items); auto. destruct (mk a); auto. apply sim_add; auto.
    - rewrite (deref_sim _ _ _ S). destruct (get_theirs s c) as [d|] eqn:E; auto.
      destruct (get_theirs_both _ _ _ _ S E) as (Ed & ls & El).
      pose proof (sim_replace w s c ls d (method o d) false S El Ed) as R. rewrite !app_nil_r in R. destruct w; exact R.
    - rewrite (merged_sim _ _ _ S). destruct (vmerged s cs 0 mapping); auto. destruct (mk a); auto. apply sim_add; auto.
    - rewrite (deref_sim _ _ _ S). destruct (get_theirs s c) as [d|]; auto. destruct (dget k d); auto. apply sim_give; auto.
    - rewrite (deref_sim _ _ _ S). destruct (get_theirs s c) as [d|]; auto. apply sim_give; auto.
    - rewrite (deref_sim _ _ _ S). destruct (get_theirs s c) as [d|] eqn:E.
      + destruct (get_theirs_both _ _ _ _ S E) as (Ed & ls & El). rewrite El.
        apply (sim_replace w s c ls d (method o d) true S El Ed).
      + destruct (nth_error (conts A w) c); auto.
  Qed.

  Lemma sim_run l : forall w s, sim w s -> forallb safe l = true ->
    sim (act_run A mk Op method deg w l) (value_run mk method deg s l).
  Proof.
    induction l as [|a l IH]; simpl; intros w s S F; auto. apply andb_true_iff in F as [F1 F2].
    apply IH; auto. apply sim_step; auto.
  Qed.

  Lemma sim_empty : sim (empty_world A) (mkvalues [] []).
  Proof. split; [|split]; simpl; constructor. Qed.
End P.
