(** Lemmas about sums, index tuples, contractions and transformations. *)
From Coq Require Import List Arith Bool Lia Permutation.
Import ListNotations.
From Verif Require Import PyBase TensorModel SpecTensor.

(** ** Sums *)
Section Sums.
  Context {A : Type} `{S : Sig A} `{L : @CSR A S}.

  Lemma add_0_r (a : A) : add a zero = a.
  Proof. rewrite add_C; apply add_0. Qed.
  Lemma mul_0_r (a : A) : mul a zero = zero.
  Proof. rewrite mul_C; apply mul_0. Qed.
  Lemma mul_1_r (a : A) : mul a one = a.
  Proof. rewrite mul_C; apply mul_1. Qed.
  Lemma mul_D_r (a b c : A) : mul (add a b) c = add (mul a c) (mul b c).
  Proof. rewrite mul_C, mul_D, (mul_C c a), (mul_C c b); auto. Qed.

  Lemma sumv_app (l1 l2 : list A) : sumv (l1 ++ l2) = add (sumv l1) (sumv l2).
  Proof.
    induction l1 as [|a l1 IH]; simpl; [rewrite add_0; auto|].
    rewrite IH. apply add_A.
  Qed.

  Lemma sum_ext_in {X} (f g : X -> A) l :
    (forall x, In x l -> f x = g x) -> sumv (map f l) = sumv (map g l).
  Proof. intros E; rewrite (map_ext_in _ _ _ E); auto. Qed.

  Lemma sum_add {X} (f g : X -> A) l :
    sumv (map (fun x => add (f x) (g x)) l) = add (sumv (map f l)) (sumv (map g l)).
  Proof.
    induction l as [|x l IH]; simpl; [rewrite add_0; auto|].
    rewrite IH. rewrite !add_A. f_equal. rewrite <- !add_A. f_equal. apply add_C.
  Qed.

  Lemma sum_mul_l {X} c (f : X -> A) l :
    sumv (map (fun x => mul c (f x)) l) = mul c (sumv (map f l)).
  Proof.
    induction l as [|x l IH]; simpl; [rewrite mul_0_r; auto|].
    rewrite IH, mul_D; auto.
  Qed.

  Lemma sum_mul_r {X} c (f : X -> A) l :
    sumv (map (fun x => mul (f x) c) l) = mul (sumv (map f l)) c.
  Proof. rewrite mul_C, <- sum_mul_l. apply sum_ext_in; intros; apply mul_C. Qed.

  Lemma sum_0 {X} (l : list X) : sumv (map (fun _ => zero) l) = zero.
  Proof. induction l as [|x l IH]; simpl; auto. rewrite IH, add_0; auto. Qed.

  Lemma sum_0_in {X} (f : X -> A) l : (forall x, In x l -> f x = zero) -> sumv (map f l) = zero.
  Proof. intros E. rewrite (sum_ext_in f (fun _ => zero)); auto. apply sum_0. Qed.

  Lemma sum_swap {X Y} (f : X -> Y -> A) l1 l2 :
    sumv (map (fun x => sumv (map (f x) l2)) l1) = sumv (map (fun y => sumv (map (fun x => f x y) l1)) l2).
  Proof.
    induction l1 as [|x l1 IH]; simpl; [rewrite sum_0; auto|].
    rewrite IH, <- sum_add. auto.
  Qed.

  Lemma sumv_perm (l1 l2 : list A) : Permutation l1 l2 -> sumv l1 = sumv l2.
  Proof.
    induction 1 as [|x l1 l2 P IH|x y l|]; simpl; auto; try congruence.
    rewrite !add_A. f_equal. apply add_C.
  Qed.

  Lemma sum_filter {X} (P : X -> bool) (f : X -> A) l :
    sumv (map f (filter P l)) = sumv (map (fun x => if P x then f x else zero) l).
  Proof.
    induction l as [|x l IH]; simpl; auto.
    destruct (P x); simpl; rewrite IH; auto. rewrite add_0; auto.
  Qed.

  Lemma sum_flat_map {X Y} (f : Y -> A) (g : X -> list Y) l :
    sumv (map f (flat_map g l)) = sumv (map (fun x => sumv (map f (g x))) l).
  Proof.
    induction l as [|x l IH]; simpl; auto.
    rewrite map_app, sumv_app, IH; auto.
  Qed.

  (** Exactly one element of a duplicate-free list satisfies the test. *)
  Lemma sum_pick {X} (P : X -> bool) (f : X -> A) l x :
    NoDup l -> In x l -> (forall y, In y l -> P y = true <-> y = x) ->
    sumv (map (fun y => if P y then f y else zero) l) = f x.
  Proof.
    intros N I E. induction l as [|y l IH]; simpl; [destruct I|].
    inversion N as [|? ? NI N']; subst.
    destruct I as [->|I].
    - rewrite (proj2 (E x (or_introl eq_refl)) eq_refl).
      rewrite sum_0_in, add_0_r; auto.
      intros z Iz. destruct (P z) eqn:Ez; auto.
      apply E in Ez; [|right; auto]. subst; contradiction.
    - destruct (P y) eqn:Ey.
      + apply E in Ey; [|left; auto]. subst; contradiction.
      + rewrite add_0. apply IH; auto. intros z Iz. apply E; right; auto.
  Qed.

  Lemma sum_none {X} (P : X -> bool) (f : X -> A) l :
    (forall y, In y l -> P y = false) -> sumv (map (fun y => if P y then f y else zero) l) = zero.
  Proof. intros E; apply sum_0_in; intros x I; rewrite E; auto. Qed.

  (** Change of summation variable. *)
  Lemma sum_bij {X Y} (P : X -> bool) (g : Y -> X) (f : X -> A) (l : list X) (l' : list Y) :
    NoDup l -> NoDup l' ->
    (forall y, In y l' -> In (g y) l /\ P (g y) = true) ->
    (forall y z, In y l' -> In z l' -> g y = g z -> y = z) ->
    (forall x, In x l -> P x = true -> exists y, In y l' /\ g y = x) ->
    sumv (map f (filter P l)) = sumv (map (fun y => f (g y)) l').
  Proof.
    intros N N' HI HJ HS.
    rewrite <- (map_map g f l'). apply sumv_perm, Permutation_map.
    apply NoDup_Permutation.
    - apply NoDup_filter; auto.
    - clear HI HS. induction l' as [|y l' IH]; simpl; [constructor|].
      inversion N' as [|? ? NI N'']; subst. constructor.
      + intros I. apply in_map_iff in I as (z & E & Iz). apply NI.
        rewrite (HJ y z); auto; simpl; auto.
      + apply IH; auto. intros; apply HJ; simpl; auto.
    - intros x. rewrite filter_In, in_map_iff. split.
      + intros [I E]. destruct (HS x I E) as (y & Iy & Ey). exists y; auto.
      + intros (y & <- & Iy). apply HI; auto.
  Qed.
End Sums.

(** ** Index tuples *)
Lemma in_indices sh i : In i (indices sh) <-> fits sh i.
Proof.
  unfold fits. revert i; induction sh as [|d sh IH]; intros i; simpl.
  - split; [intros [<-|[]]; constructor|]. intros F; inversion F; auto.
  - rewrite in_flat_map. split.
    + intros (x & Ix & I). apply in_map_iff in I as (j & <- & Ij).
      constructor; [apply in_seq in Ix; lia|apply IH; auto].
    + intros F; inversion F as [|x ? j ? Hx Hj]; subst.
      exists x; split; [apply in_seq; lia|]. apply in_map, IH; auto.
Qed.

Lemma fits_length sh i : fits sh i -> length i = length sh.
Proof. unfold fits; induction 1; simpl; auto. Qed.

Lemma NoDup_indices sh : NoDup (indices sh).
Proof.
  induction sh as [|d sh IH]; simpl; [repeat constructor; auto|].
  assert (G : forall l, NoDup l -> NoDup (flat_map (fun i => map (cons i) (indices sh)) l)).
  { induction l as [|x l IHl]; simpl; intros N; [constructor|].
    inversion N as [|? ? NI N']; subst.
    assert (D : forall j, In j (map (cons x) (indices sh)) ->
                ~ In j (flat_map (fun i => map (cons i) (indices sh)) l)).
    { intros j Ij Il. apply in_map_iff in Ij as (j' & <- & _).
      apply in_flat_map in Il as (z & Iz & Il). apply in_map_iff in Il as (j'' & E & _).
      injection E as -> _. contradiction. }
    assert (N1 : NoDup (map (cons x) (indices sh))).
    { apply FinFun.Injective_map_NoDup; auto. intros a b E; congruence. }
    specialize (IHl N'). clear -D N1 IHl.
    induction (map (cons x) (indices sh)) as [|j js IHj]; simpl; auto.
    inversion N1; subst. constructor.
    - rewrite in_app_iff. intros [I|I]; [contradiction|]. apply (D j); simpl; auto.
    - apply IHj; auto. intros k Ik; apply D; simpl; auto. }
  apply G, seq_NoDup.
Qed.

Lemma lists_eqb_spec a b : lists_eqb a b = true <-> a = b.
Proof.
  unfold lists_eqb. destruct (list_eq_dec Nat.eq_dec a b); split; congruence.
Qed.

Lemma fits_app s1 s2 i : fits (s1 ++ s2) i <->
  fits s1 (firstn (length s1) i) /\ fits s2 (skipn (length s1) i).
Proof.
  unfold fits. revert i; induction s1 as [|d s1 IH]; intros i; simpl.
  - split; [split; auto; constructor|tauto].
  - destruct i as [|x i]; simpl.
    + split; [intros F; inversion F|intros [F _]; inversion F].
    + split.
      * intros F; inversion F; subst. apply IH in H4 as [? ?]. split; auto.
      * intros [F1 F2]; inversion F1; subst. constructor; auto. apply IH; auto.
Qed.

Lemma fits_app2 s1 s2 i j : length i = length s1 -> fits (s1 ++ s2) (i ++ j) <-> fits s1 i /\ fits s2 j.
Proof.
  intros E. rewrite fits_app, <- E.
  rewrite firstn_app, firstn_all, Nat.sub_diag, skipn_app, skipn_all, Nat.sub_diag. simpl.
  rewrite app_nil_r. tauto.
Qed.

Lemma fits_nth sh i a : fits sh i -> a < length sh -> nth a i 0 < nth a sh 0.
Proof.
  unfold fits. intros F; revert a; induction F; intros a L; simpl in *; [lia|].
  destruct a; auto. apply IHF; lia.
Qed.

Lemma fits_of_nth sh i : length i = length sh -> (forall a, a < length sh -> nth a i 0 < nth a sh 0) -> fits sh i.
Proof.
  unfold fits. revert i; induction sh as [|d sh IH]; intros [|x i] E Hn; simpl in *; try lia; constructor.
  - apply (Hn 0); lia.
  - apply IH; [lia|]. intros a La. apply (Hn (S a)); lia.
Qed.

Lemma pick_fits sh J axes : fits sh J -> Forall (fun a => a < length sh) axes -> fits (pick axes sh) (pick axes J).
Proof.
  intros F; unfold pick. induction 1 as [|a axes L FA IH]; simpl; constructor; auto.
  apply fits_nth; auto.
Qed.

(** ** Inserting and deleting positions *)
Lemma ins_length {A} p (v : A) l : length (ins p v l) = S (length l).
Proof.
  unfold ins. rewrite app_length; simpl. rewrite firstn_length, skipn_length. lia.
Qed.

Lemma del_length {A} p (l : list A) : p < length l -> length (del p l) = length l - 1.
Proof. intros. unfold del. rewrite app_length, firstn_length, skipn_length. lia. Qed.

Lemma ins_del {A} p (v d : A) l o : p < length l -> (l = ins p v o /\ p <= length o <-> nth p l d = v /\ del p l = o).
Proof.
  revert l o; induction p as [|p IH]; intros [|x l] o Lp; simpl in Lp; try lia; unfold ins, del; simpl.
  - split.
    + intros [E _]. injection E as <- <-. auto.
    + intros [-> ->]. split; auto; lia.
  - destruct o as [|y o]; simpl.
    + split; [intros [? ?]; lia|]. intros [_ E]. discriminate.
    + specialize (IH l o ltac:(lia)). unfold ins, del in IH. split.
      * intros [E Lo]. injection E as -> E. destruct (proj1 IH) as [E1 E2]; [split; auto; lia|].
        split; auto. f_equal; auto.
      * intros [E1 E2]. injection E2 as -> E2. destruct (proj2 IH) as [E3 E4]; auto.
        split; [f_equal; auto|lia].
Qed.

Lemma del_map {A B} (f : A -> B) p l : del p (map f l) = map f (del p l).
Proof. unfold del. rewrite firstn_map, skipn_map, map_app; auto. Qed.

Lemma nth_del_lt {A} p q (l : list A) d : p < q -> nth p (del q l) d = nth p l d.
Proof.
  revert q l; induction p as [|p IH]; intros q l Lpq; (destruct q as [|q]; [lia|]);
    (destruct l as [|x l]; [reflexivity|]); unfold del; cbn [firstn skipn app nth]; auto.
  apply (IH q l); lia.
Qed.

Lemma nth_del : forall r (z : list nat) k, r < length z ->
  nth k (del r z) 0 = nth (if k <? r then k else S k) z 0.
Proof.
  induction r as [|r IH]; intros [|x z] k Lr; simpl in Lr; try lia.
  - reflexivity.
  - destruct k as [|k]; [reflexivity|].
    change (nth (S k) (del (S r) (x :: z)) 0) with (nth k (del r z) 0).
    rewrite IH by lia. change (S k <? S r) with (k <? r). destruct (k <? r); reflexivity.
Qed.

Lemma NoDup_del_filter p l x : NoDup l -> p < length l -> nth p l 0 = x -> del p l = filter (fun y => negb (y =? x)) l.
Proof.
  revert l; induction p as [|p IH]; intros [|y l] N Lp E; simpl in *; try lia; inversion N as [|? ? NI N']; subst.
  - unfold del; simpl. rewrite Nat.eqb_refl; simpl. symmetry.
    clear N N' Lp. induction l as [|z l IHl]; simpl; auto.
    destruct (Nat.eqb_spec z x) as [->|Nz]; [exfalso; apply NI; simpl; auto|].
    simpl. f_equal. apply IHl. intros I; apply NI; simpl; auto.
  - unfold del; simpl. destruct (Nat.eqb_spec y (nth p l 0)) as [E|E].
    + exfalso. apply NI. rewrite E. apply nth_In; lia.
    + simpl. f_equal. apply IH; auto; lia.
Qed.

Lemma index_of_Some x l p : index_of x l = Some p -> p < length l /\ nth p l 0 = x.
Proof.
  revert p; induction l as [|y l IH]; simpl; intros p E; [discriminate|].
  destruct (Nat.eqb_spec x y) as [->|N].
  - injection E as <-. split; [lia|auto].
  - destruct (index_of x l) as [q|]; [|discriminate]. injection E as <-.
    destruct (IH q eq_refl). split; [lia|auto].
Qed.

Lemma index_of_None x l : index_of x l = None <-> ~ In x l.
Proof.
  induction l as [|y l IH]; simpl; [tauto|].
  destruct (Nat.eqb_spec x y) as [->|N]; [split; [discriminate|tauto]|].
  destruct (index_of x l); simpl.
  - split; [discriminate|]. intros E. exfalso. apply E. right.
    destruct (in_dec Nat.eq_dec x l) as [I|I]; auto. apply IH in I; discriminate.
  - split; auto. intros _ [E|E]; [congruence|]. apply IH in E; auto.
Qed.

Lemma index_of_In x l : In x l -> exists p, index_of x l = Some p /\ p < length l /\ nth p l 0 = x.
Proof.
  intros I. destruct (index_of x l) as [p|] eqn:E.
  - exists p. split; auto. apply index_of_Some; auto.
  - apply index_of_None in E; contradiction.
Qed.

(** ** Contraction *)
Lemma filter_comm {A} (P Q : A -> bool) l : filter P (filter Q l) = filter Q (filter P l).
Proof.
  induction l as [|x l IH]; simpl; auto.
  destruct (Q x) eqn:EQ, (P x) eqn:EP; simpl; rewrite ?EQ, ?EP, ?IH; auto.
Qed.

Lemma filter_filter {A} (P Q : A -> bool) l : filter P (filter Q l) = filter (fun x => Q x && P x) l.
Proof.
  induction l as [|x l IH]; simpl; auto.
  destruct (Q x); simpl; [destruct (P x)|]; simpl; rewrite ?IH; auto.
Qed.

Lemma free_axes_snoc r done a b :
  free_axes r (done ++ [(a, b)]) =
  filter (fun y => negb (y =? b)) (filter (fun y => negb (y =? a)) (free_axes r done)).
Proof.
  unfold free_axes. rewrite !filter_filter. apply filter_ext. intros x.
  rewrite existsb_app; simpl. rewrite orb_false_r, !negb_orb, andb_assoc. auto.
Qed.

Lemma NoDup_free_axes r pairs : NoDup (free_axes r pairs).
Proof. apply NoDup_filter, seq_NoDup. Qed.

Lemma in_free_axes r pairs a : In a (free_axes r pairs) <-> a < r /\ ~ In a (axes_of pairs).
Proof.
  unfold free_axes. rewrite filter_In, in_seq.
  assert (E : existsb (fun p => (a =? fst p) || (a =? snd p)) pairs = true <-> In a (axes_of pairs)).
  { unfold axes_of. rewrite existsb_exists, in_flat_map. split; intros (p & I & Hp); exists p; split; auto.
    - apply orb_true_iff in Hp as [Hp|Hp]; apply Nat.eqb_eq in Hp; simpl; auto.
    - simpl in Hp. apply orb_true_iff. rewrite !Nat.eqb_eq. intuition. }
  destruct (existsb _ _) eqn:EE; simpl.
  - split; [intros [_ ?]; discriminate|]. intros [_ N]; exfalso; apply N, E; auto.
  - split; intros [L _]; (split; [lia|]); auto. intros I; apply E in I; discriminate.
Qed.

Lemma Forall_free_axes r pairs : Forall (fun a => a < r) (free_axes r pairs).
Proof. apply Forall_forall. intros a I. apply in_free_axes in I; tauto. Qed.

Lemma nth_pick axes J p : p < length axes -> nth p (pick axes J) 0 = nth (nth p axes 0) J 0.
Proof.
  intros L. unfold pick. rewrite (nth_indep _ 0 (nth 0 J 0)); [|rewrite map_length; auto].
  exact (map_nth (fun a => nth a J 0) axes 0 p).
Qed.

Lemma pick_length axes J : length (pick axes J) = length axes.
Proof. apply map_length. Qed.

(** Removing the two positions of [a] and [b]. *)
Lemma del_two idx p q a b :
  NoDup idx -> p < length idx -> q < length idx -> p <> q -> nth p idx 0 = a -> nth q idx 0 = b ->
  del (min p q) (del (max p q) idx) = filter (fun y => negb (y =? b)) (filter (fun y => negb (y =? a)) idx).
Proof.
  intros N Lp Lq D Ea Eb.
  assert (G : forall p q a b, p < q -> q < length idx -> nth p idx 0 = a -> nth q idx 0 = b ->
    del p (del q idx) = filter (fun y => negb (y =? a)) (filter (fun y => negb (y =? b)) idx)).
  { clear - N. intros p q a b Lpq Lq Ea Eb.
    rewrite <- (NoDup_del_filter q idx b N Lq Eb).
    apply NoDup_del_filter.
    - rewrite (NoDup_del_filter q idx b N Lq Eb). apply NoDup_filter; auto.
    - rewrite del_length; lia.
    - rewrite nth_del_lt; auto. }
  destruct (Nat.lt_ge_cases p q) as [L|L].
  - rewrite Nat.min_l, Nat.max_r by lia. rewrite (G p q a b); auto. apply filter_comm.
  - rewrite Nat.min_r, Nat.max_l by lia. apply G; auto; lia.
Qed.

Lemma ins_two l p q v o :
  p < length l -> q < length l -> p <> q -> length l = S (S (length o)) ->
  (l = ins (max p q) v (ins (min p q) v o) <->
   nth p l 0 = v /\ nth q l 0 = v /\ del (min p q) (del (max p q) l) = o).
Proof.
  intros Lp Lq D Lo.
  set (lo := min p q). set (hi := max p q).
  assert (Hlh : lo < hi) by (unfold lo, hi; lia).
  assert (Hh : hi < length l) by (unfold hi; lia).
  pose proof (ins_del hi v 0 l (ins lo v o) Hh) as H1.
  assert (Hd : lo < length (del hi l)) by (rewrite del_length; lia).
  pose proof (ins_del lo v 0 (del hi l) o Hd) as H2.
  rewrite (nth_del_lt lo hi) in H2 by auto.
  assert (Hn : (nth lo l 0 = v /\ nth hi l 0 = v) <-> (nth p l 0 = v /\ nth q l 0 = v)).
  { unfold lo, hi. destruct (Nat.lt_ge_cases p q).
    - rewrite Nat.min_l, Nat.max_r by lia. tauto.
    - rewrite Nat.min_r, Nat.max_l by lia. tauto. }
  split.
  - intros E. destruct (proj1 H1) as [E1 E2]; [split; auto; rewrite ins_length; lia|].
    destruct (proj1 H2) as [E3 E4]; [split; auto; lia|]. tauto.
  - intros (E1 & E2 & E3). apply H1. split; [tauto|]. apply H2. tauto.
Qed.

Lemma list_remove_ok x l : NoDup l -> In x l -> list_remove x l = Ok (filter (fun y => negb (y =? x)) l).
Proof.
  intros N I. unfold list_remove. destruct (index_of_In x l I) as (p & -> & Lp & Ep).
  rewrite (NoDup_del_filter p l x N Lp Ep); auto.
Qed.

Section Contract.
  Context {A : Type} `{S : Sig A} `{L : @CSR A S}.

  Definition contracted (t ans : tensor A) (done : list (nat * nat)) : Prop :=
    shape ans = pick (free_axes (rank t) done) (shape t) /\
    forall o, fits (shape ans) o -> at_ ans o = contraction t done o.

  Lemma contracted_nil t : contracted t t [].
  Proof.
    assert (E : forall J, length J = rank t -> pick (free_axes (rank t) []) J = J).
    { intros J E. assert (F : free_axes (rank t) [] = seq 0 (rank t)).
      { unfold free_axes; simpl. induction (seq 0 (rank t)); simpl; congruence. }
      rewrite F. unfold pick. rewrite <- E. apply nth_ext with (d := 0) (d' := 0).
      - rewrite map_length, seq_length; auto.
      - intros n Ln. rewrite map_length, seq_length in Ln.
        rewrite (nth_indep _ 0 (nth 0 J 0)) by (rewrite map_length, seq_length; auto).
        rewrite (map_nth (fun a => nth a J 0)), seq_nth; auto. }
    split; [rewrite E; auto|].
    intros o F. unfold contraction.
    rewrite (filter_ext_in (contributes [] o) (fun J => lists_eqb J o)).
    - rewrite sum_filter. symmetry. apply sum_pick.
      + apply NoDup_indices.
      + apply in_indices; auto.
      + intros; apply lists_eqb_spec.
    - intros J I. apply in_indices in I. unfold contributes; simpl.
      apply fits_length in I. rewrite I. fold (rank t). rewrite E; auto.
  Qed.

  Lemma contracted_step t ans done p q a b :
    contracted t ans done ->
    let idx := free_axes (rank t) done in
    p < length idx -> q < length idx -> p <> q -> nth p idx 0 = a -> nth q idx 0 = b ->
    exists ans', trace ans p q = Ok ans' /\ contracted t ans' (done ++ [(a, b)]).
  Proof.
    intros [Hs Ha] idx Lp Lq D Ea Eb.
    assert (Lsh : length (shape ans) = length idx) by (rewrite Hs; apply pick_length).
    assert (Eidx : del (min p q) (del (max p q) idx) = free_axes (rank t) (done ++ [(a, b)])).
    { rewrite free_axes_snoc. apply del_two; auto. apply NoDup_free_axes. }
    unfold trace. unfold rank at 1 2. rewrite Lsh.
    rewrite (proj2 (Nat.ltb_lt _ _) Lp), (proj2 (Nat.ltb_lt _ _) Lq), (proj2 (Nat.eqb_neq _ _) D). simpl.
    eexists; split; [reflexivity|].
    assert (Esh : del (min p q) (del (max p q) (shape ans)) = pick (free_axes (rank t) (done ++ [(a, b)])) (shape t)).
    { rewrite Hs. unfold pick at 1. rewrite !del_map. rewrite <- Eidx. reflexivity. }
    split; [exact Esh|].
    simpl shape. simpl at_. intros o Fo.
    assert (Lo : length idx = Datatypes.S (Datatypes.S (length o))).
    { pose proof (fits_length _ _ Fo) as E. rewrite E, !del_length; rewrite ?del_length; lia. }
    assert (Lr : Forall (fun x => x < rank t) idx) by apply Forall_free_axes.
    assert (La : a < rank t).
    { rewrite <- Ea. apply (proj1 (Forall_forall _ _) Lr). apply nth_In; auto. }
    assert (Lb : b < rank t).
    { rewrite <- Eb. apply (proj1 (Forall_forall _ _) Lr). apply nth_In; auto. }
    assert (Eda : nth p (shape ans) 0 = nth a (shape t) 0) by (rewrite Hs; fold idx; rewrite nth_pick, Ea; auto).
    assert (Edb : nth q (shape ans) 0 = nth b (shape t) 0) by (rewrite Hs; fold idx; rewrite nth_pick, Eb; auto).
    rewrite Eda, Edb.
    set (m := min (nth a (shape t) 0) (nth b (shape t) 0)).
    (* entries of ans *)
    rewrite (sum_ext_in _ (fun v => sumv (map (fun J => if contributes done (ins (max p q) v (ins (min p q) v o)) J
                                                        then at_ t J else zero) (indices (shape t))))).
    2: { intros v Iv. apply in_seq in Iv. rewrite Ha.
         - unfold contraction. rewrite sum_filter. auto.
         - assert (F2 : forall x, fits (shape ans) x <-> length x = length idx /\
                     forall c, c < length idx -> nth c x 0 < nth c (shape ans) 0).
           { intros x. split.
             - intros F. rewrite (fits_length _ _ F). split; auto. intros c Lc. apply fits_nth; auto. lia.
             - intros [E G]. apply fits_of_nth; [lia|]. intros; apply G; lia. }
           set (x := ins (max p q) v (ins (min p q) v o)).
           assert (Lx : length x = length idx) by (unfold x; rewrite !ins_length; lia).
           destruct (proj1 (ins_two x p q v o ltac:(lia) ltac:(lia) D ltac:(lia)) eq_refl) as (Np & Nq & Ed).
           (* the shape with v inserted back *)
           apply fits_of_nth; [lia|]. rewrite Lsh. intros c Lc.
           destruct (Nat.eq_dec c p) as [->|Ncp]; [unfold m in Iv; lia|].
           destruct (Nat.eq_dec c q) as [->|Ncq]; [unfold m in Iv; lia|].
           assert (G : forall (l l' : list nat), length l = length idx -> length l' = length idx ->
                       fits (del (min p q) (del (max p q) l')) (del (min p q) (del (max p q) l)) ->
                       nth c l 0 < nth c l' 0).
           { clear - Lp Lq D Lc Ncp Ncq. intros l l' E E' F.
             assert (G2 : forall (y : list nat), length y = length idx -> exists k, k < length idx - 2 /\
                      (forall y' : list nat, length y' = length idx -> nth c y' 0 = nth k (del (min p q) (del (max p q) y')) 0)).
             { intros _ _.
               pose proof nth_del as Hdel.
               set (hi := max p q) in *. set (lo := min p q) in *.
               assert (Hhi : hi < length idx) by (unfold hi; lia).
               assert (Hlo : lo < hi) by (unfold lo, hi; lia).
               assert (Hcl : c <> lo) by (unfold lo; lia). assert (Hch : c <> hi) by (unfold hi; lia).
               exists (if c <? lo then c else if c <? hi then c - 1 else c - 2).
               split.
               - destruct (Nat.ltb_spec c lo), (Nat.ltb_spec c hi); lia.
               - intros y' Ly'. rewrite !Hdel by (rewrite ?del_length; lia).
                 f_equal. destruct (Nat.ltb_spec c lo) as [L1|L1].
                 + rewrite (proj2 (Nat.ltb_lt c lo) L1). rewrite (proj2 (Nat.ltb_lt c hi)); lia.
                 + destruct (Nat.ltb_spec c hi) as [L2|L2].
                   * rewrite (proj2 (Nat.ltb_ge (c - 1) lo)) by lia.
                     rewrite (proj2 (Nat.ltb_lt (Datatypes.S (c - 1)) hi)); lia.
                   * rewrite (proj2 (Nat.ltb_ge (c - 2) lo)) by lia.
                     rewrite (proj2 (Nat.ltb_ge (Datatypes.S (c - 2)) hi)); lia. }
             destruct (G2 l E) as (k & Lk & Ek). rewrite (Ek l E), (Ek l' E').
             apply fits_nth; auto. rewrite !del_length; rewrite ?del_length; lia. }
           apply G; auto. rewrite Ed. exact Fo. }
    rewrite sum_swap. unfold contraction. rewrite sum_filter.
    apply sum_ext_in. intros J IJ. apply in_indices in IJ.
    pose proof (fits_length _ _ IJ) as LJ. fold (rank t) in LJ.
    assert (K : forall v, contributes done (ins (max p q) v (ins (min p q) v o)) J = true <->
               forallb (fun c => nth (fst c) J 0 =? nth (snd c) J 0) done = true /\
               nth a J 0 = v /\ nth b J 0 = v /\ pick (free_axes (rank t) (done ++ [(a, b)])) J = o).
    { intros v. unfold contributes. rewrite LJ. fold idx. rewrite andb_true_iff, lists_eqb_spec.
      rewrite (ins_two (pick idx J) p q v o); rewrite ?pick_length; auto.
      rewrite !nth_pick, Ea, Eb by auto.
      assert (E : del (min p q) (del (max p q) (pick idx J)) = pick (free_axes (rank t) (done ++ [(a, b)])) J).
      { unfold pick at 1. rewrite !del_map. rewrite Eidx. reflexivity. }
      rewrite E. tauto. }
    destruct (contributes (done ++ [(a, b)]) o J) eqn:EC.
    - unfold contributes in EC. rewrite LJ, forallb_app, !andb_true_iff, lists_eqb_spec in EC.
      simpl in EC. rewrite andb_true_r, Nat.eqb_eq in EC. destruct EC as [[E1 E2] E3].
      apply (sum_pick (fun v => contributes done (ins (max p q) v (ins (min p q) v o)) J) (fun _ => at_ t J) (seq 0 m) (nth a J 0)).
      + apply seq_NoDup.
      + apply in_seq. unfold m. pose proof (fits_nth _ _ a IJ La). pose proof (fits_nth _ _ b IJ Lb). lia.
      + intros v Iv. rewrite K. split; [intros (_ & ? & _); auto|]. intros ->. repeat split; auto.
    - apply (sum_none (fun v => contributes done (ins (max p q) v (ins (min p q) v o)) J) (fun _ => at_ t J)).
      intros v _. destruct (contributes done _ J) eqn:EK; auto.
      apply K in EK as (E1 & E2 & E3 & E4).
      unfold contributes in EC. rewrite LJ, forallb_app, E1 in EC. simpl in EC.
      rewrite E2, E3, Nat.eqb_refl in EC. simpl in EC.
      rewrite (proj2 (lists_eqb_spec _ _) E4) in EC. discriminate.
  Qed.

  Lemma remove_both (t : tensor A) done a b :
    In a (free_axes (rank t) done) -> In b (free_axes (rank t) done) -> a <> b ->
    fold_left (fun acc x => do l <- acc; list_remove x l) [a; b] (Ok (free_axes (rank t) done))
    = Ok (free_axes (rank t) (done ++ [(a, b)])).
  Proof.
    intros Ia Ib D. pose proof (NoDup_free_axes (rank t) done) as N.
    cbn [fold_left bind]. rewrite (list_remove_ok a) by auto. cbn [bind].
    rewrite list_remove_ok.
    - rewrite free_axes_snoc; auto.
    - apply NoDup_filter; auto.
    - apply filter_In; split; auto. apply negb_true_iff, Nat.eqb_neq; auto.
  Qed.

  Lemma contract_loop_ok t pairs : forall ans done,
    contracted t ans done -> disjoint_pairs (rank t) (done ++ pairs) ->
    exists ans', contract_loop ans (free_axes (rank t) done) (to_lists pairs) = Ok ans' /\
                 contracted t ans' (done ++ pairs).
  Proof.
    induction pairs as [|[a b] pairs IH]; intros ans done C D.
    - exists ans. rewrite app_nil_r. auto.
    - assert (Da : ~ In a (axes_of done) /\ ~ In b (axes_of done) /\ a <> b /\ a < rank t /\ b < rank t).
      { destruct D as [N F]. unfold axes_of in *. rewrite flat_map_app in N, F.
        apply Forall_app in F as [_ F]. simpl in F. inversion F as [|? ? F1 F2]; subst.
        inversion F2 as [|? ? F3 F4]; subst. simpl in N. split; [|split; [|split]].
        - intros I. apply NoDup_remove_2 in N. apply N, in_or_app; auto.
        - intros I. change (a :: b :: flat_map (fun p => [fst p; snd p]) pairs)
            with ([a] ++ b :: flat_map (fun p => [fst p; snd p]) pairs) in N.
          rewrite app_assoc in N. apply NoDup_remove_2 in N. apply N, in_or_app. left.
          apply in_or_app; auto.
        - apply NoDup_remove_2 in N. intros ->. apply N, in_or_app. simpl; auto.
        - auto. }
      destruct Da as (Na & Nb & Nab & La & Lb).
      assert (Ia : In a (free_axes (rank t) done)) by (apply in_free_axes; auto).
      assert (Ib : In b (free_axes (rank t) done)) by (apply in_free_axes; auto).
      cbn [to_lists map contract_loop fst snd]. unfold mapM, list_index.
      destruct (index_of_In a _ Ia) as (p & Ep & Lp & Hp). destruct (index_of_In b _ Ib) as (q & Eq & Lq & Hq).
      rewrite Ep, Eq. cbn [bind].
      assert (Dpq : p <> q) by congruence.
      destruct (contracted_step t ans done p q a b C Lp Lq Dpq Hp Hq) as (ans1 & -> & C1). cbn [bind].
      rewrite remove_both by auto. cbn [bind].
      destruct (IH ans1 (done ++ [(a, b)]) C1) as (ans2 & E2 & C2).
      { rewrite <- app_assoc. auto. }
      rewrite <- app_assoc in C2. exists ans2; auto.
  Qed.

  Lemma contract_ok t pairs : disjoint_pairs (rank t) pairs ->
    exists ans, tensor_contract t (to_lists pairs) = Ok ans /\ contracted t ans pairs.
  Proof.
    intros D. destruct (contract_loop_ok t pairs t [] (contracted_nil t) D) as (ans & E & C).
    exists ans; split; auto. unfold tensor_contract. rewrite <- E. f_equal.
    unfold free_axes; simpl. induction (seq 0 (rank t)); simpl; congruence.
  Qed.
End Contract.
