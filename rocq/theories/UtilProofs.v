(** Proofs for the helpers of utilities.py. *)
From Coq Require Import String List Arith Bool ZArith Reals Lra Lia Permutation Sorted Nsatz.
Import ListNotations.
From Coquelicot Require Import Complex.
From Verif Require Import PyBase RMod CBase Expr ExprProofs TensorModel UtilModel SpecTensor SpecUtil TensorProofs.

Local Open Scope nat_scope.

(** ** union *)
Section Union.
  Context {K : Type} `{Eqb K}.

  Lemma existsb_eqb x l : existsb (eqb x) l = true <-> In x l.
  Proof.
    rewrite existsb_exists. split.
    - intros (y & I & E). destruct (eqb_spec x y); [congruence|discriminate].
    - intros I. exists x. split; auto. apply eqb_refl.
  Qed.

  Definition first_seen (l : list K) (ans : list K) : list K :=
    fold_left (fun ans x => if existsb (eqb x) ans then ans else ans ++ [x]) l ans.

  Lemma union_concat arrays : union arrays = first_seen (concat arrays) [].
  Proof.
    unfold union. change (fun ans y => fold_left (fun ans0 x => if existsb (eqb x) ans0 then ans0 else ans0 ++ [x]) y ans)
      with (fun ans y => first_seen y ans).
    generalize (@nil K) as ans. induction arrays as [|y ys IH]; intros ans; simpl; auto.
    rewrite IH. unfold first_seen. rewrite fold_left_app. auto.
  Qed.

  Lemma first_at_app x l1 l2 : first_at x (l1 ++ l2) = if existsb (eqb x) l1 then first_at x l1 else length l1 + first_at x l2.
  Proof.
    induction l1 as [|y l1 IH]; simpl; auto. destruct (eqb x y); simpl; auto. rewrite IH.
    destruct (existsb (eqb x) l1); auto.
  Qed.

  Lemma first_at_lt x l : In x l -> first_at x l < length l.
  Proof.
    induction l as [|y l IH]; simpl; [tauto|]. intros [->|I].
    - rewrite eqb_refl. lia.
    - destruct (eqb x y); [lia|]. specialize (IH I). lia.
  Qed.

  (** The accumulated list after reading [done]. *)
  Definition union_inv (done ans : list K) : Prop :=
    NoDup ans /\ (forall x, In x ans <-> In x done) /\
    StronglySorted (fun x y => first_at x done < first_at y done) ans.

  Lemma StronglySorted_impl_in {X} (P Q : X -> X -> Prop) l :
    (forall x y, In x l -> In y l -> P x y -> Q x y) -> StronglySorted P l -> StronglySorted Q l.
  Proof.
    induction l as [|x l IH]; intros I S; [constructor|]. inversion S as [|? ? S' F]; subst. constructor.
    - apply IH; auto. intros; apply I; simpl; auto.
    - rewrite Forall_forall in *. intros y Iy. apply I; simpl; auto.
  Qed.

  Lemma StronglySorted_snoc {X} (P : X -> X -> Prop) l x :
    StronglySorted P l -> (forall y, In y l -> P y x) -> StronglySorted P (l ++ [x]).
  Proof.
    induction l as [|z l IH]; intros S I; simpl; [repeat constructor|].
    inversion S as [|? ? S' F]; subst. constructor.
    - apply IH; auto. intros; apply I; simpl; auto.
    - rewrite Forall_forall in *. intros y Iy. apply in_app_or in Iy as [Iy|[<-|[]]]; auto. apply I; simpl; auto.
  Qed.

  Lemma union_step l : forall done ans, union_inv done ans -> union_inv (done ++ l) (first_seen l ans).
  Proof.
    induction l as [|x l IH]; intros done ans Inv.
    - rewrite app_nil_r; auto.
    - change (done ++ x :: l) with (done ++ [x] ++ l). rewrite app_assoc.
      unfold first_seen; simpl. apply IH.
      destruct Inv as (N & I & S).
      assert (Sm : forall y, In y done -> first_at y (done ++ [x]) = first_at y done).
      { intros y Iy. rewrite first_at_app. rewrite (proj2 (existsb_eqb y done) Iy); auto. }
      destruct (existsb (eqb x) ans) eqn:E.
      + apply existsb_eqb in E. repeat split; auto.
        * rewrite I, in_app_iff; auto.
        * rewrite in_app_iff. intros [J|[<-|[]]]; auto. apply I; auto.
        * eapply StronglySorted_impl_in; [|exact S]. intros a b Ia Ib L. rewrite !Sm; auto; apply I; auto.
      + assert (Nx : ~ In x ans) by (intros J; apply existsb_eqb in J; congruence).
        assert (Nd : ~ In x done) by (rewrite <- I; auto).
        repeat split.
        * apply Permutation_NoDup with (x :: ans); [apply Permutation_cons_append|]. constructor; auto.
        * rewrite !in_app_iff, I; auto.
        * rewrite !in_app_iff, I; auto.
        * apply StronglySorted_snoc.
          -- eapply StronglySorted_impl_in; [|exact S]. intros a b Ia Ib L. rewrite !Sm; auto; apply I; auto.
          -- intros y Iy. rewrite Sm by (apply I; auto). rewrite first_at_app.
             assert (E' : existsb (eqb x) done = false).
             { destruct (existsb (eqb x) done) eqn:E'; auto. apply existsb_eqb in E'. contradiction. }
             rewrite E'. simpl. rewrite eqb_refl. pose proof (first_at_lt y done (proj1 (I y) Iy)). lia.
  Qed.

  Lemma union_spec arrays : union_inv (concat arrays) (union arrays).
  Proof.
    rewrite union_concat. apply (union_step (concat arrays) [] []).
    repeat split; auto; constructor.
  Qed.
End Union.

(** ** Particularisation *)
Lemma subs_dict_eval rho sol : exists rho', forall e, eval rho (subs_dict sol e) = eval rho' e.
Proof.
  unfold subs_dict. revert rho; induction sol as [|[x r] sol IH]; intros rho; simpl; [exists rho; auto|].
  destruct (IH rho) as [rho1 E1].
  exists (upd rho1 x (eval rho1 r)). intros e. rewrite E1. apply eval_subst.
Qed.

Lemma Cminus_0_eq (a b : C) : Cminus a b = RtoC 0 -> a = b.
Proof.
  intros E. apply C_ext; [apply (f_equal Re) in E|apply (f_equal Im) in E];
    unfold Re, Im in *; simpl in E; destruct a, b; simpl in *; lra.
Qed.

Lemma sol_equal solve eqs excl sol a b : sound_solver solve -> In sol (solve eqs excl) ->
  In (esub a b) eqs -> same_value (subs_dict sol a) (subs_dict sol b).
Proof.
  intros Sd I Ie rho. specialize (Sd eqs excl sol I _ Ie rho).
  destruct (subs_dict_eval rho sol) as [rho' E]. rewrite E in Sd. rewrite !E.
  rewrite eval_esub in Sd. apply Cminus_0_eq in Sd. auto.
Qed.

Lemma insert_all_in x l1 l2 : In (l1 ++ x :: l2) (insert_all x (l1 ++ l2)).
Proof.
  induction l1 as [|y l1 IH]; simpl.
  - destruct l2; simpl; auto.
  - right. apply in_map; auto.
Qed.

Lemma permutations_complete l : forall l', Permutation l l' -> In l' (permutations l).
Proof.
  induction l as [|x l IH]; intros l' P; simpl.
  - apply Permutation_nil in P; subst; auto.
  - assert (I : In x l') by (eapply Permutation_in; [exact P|simpl; auto]).
    apply in_split in I as (l1 & l2 & ->). apply Permutation_cons_app_inv in P.
    apply in_flat_map. exists (l1 ++ l2). split; auto. apply insert_all_in.
Qed.

Lemma cube_fits {A} d (t : tensor A) i : is_cube d t -> (fits (shape t) i <-> length i = rank t /\ Forall (fun x => x < d) i).
Proof.
  intros Cu. rewrite Cu. split.
  - intros F. split; [rewrite (fits_length _ _ F), repeat_length; auto|].
    clear Cu. revert F. generalize (rank t). intros n F. unfold fits in F.
    remember (repeat d n) as sh eqn:E. revert n E. induction F; intros n E; constructor.
    + destruct n; simpl in E; [discriminate|]. injection E as -> ->. auto.
    + destruct n; simpl in E; [discriminate|]. injection E as -> E. eapply IHF; eauto.
  - intros [E F]. rewrite <- E. clear E Cu. induction F; simpl; constructor; auto.
Qed.

Lemma Permutation_swap_last {X} (l : list X) a b : Permutation (l ++ [a; b]) (l ++ [b; a]).
Proof. apply Permutation_app_head, perm_swap. Qed.

Section Parti.
  Variable solve : list expr -> list sym -> list (list (sym * expr)).
  Hypothesis Sd : sound_solver solve.

  Lemma swap_at t t2 : is_cube 3 t -> swap_last_two t = Ok t2 ->
    shape t2 = shape t /\ forall i a b, fits (shape t) (i ++ [a; b]) -> at_ t2 (i ++ [a; b]) = at_ t (i ++ [b; a]).
  Proof.
    intros Cu E. unfold swap_last_two in E. destruct (second_dim t) as [dim|] eqn:Ed; [|discriminate].
    cbn [bind] in E.
    assert (Edim : dim = 3).
    { unfold second_dim in Ed. unfold is_cube in Cu. rewrite Cu in Ed.
      destruct (rank t) as [|[|n]]; simpl in Ed; try discriminate. congruence. }
    destruct (forallb _ _ && forallb _ _); [|discriminate]. injection E as <-. simpl. split; auto.
    intros i a b F. apply (cube_fits 3 t _ Cu) in F as [_ F]. apply Forall_app in F as [F1 F2].
    inversion F2 as [|? ? Fa F3]; subst. inversion F3 as [|? ? Fb _]; subst.
    rewrite rev_app_distr. cbn [rev app].
    assert (Fi : forallb (fun x => x <? 3) (rev i) = true).
    { apply forallb_forall. intros x I. apply in_rev in I. rewrite Forall_forall in F1. apply Nat.ltb_lt, F1; auto. }
    rewrite Fi, (proj2 (Nat.ltb_lt a 3) Fa), (proj2 (Nat.ltb_lt b 3) Fb). simpl.
    rewrite rev_involutive. auto.
  Qed.

  Lemma last_two_symmetric t excl u : is_cube 3 t -> particularize_last_two solve t excl = Ok u ->
    shape u = shape t /\ symmetric_last_two u.
  Proof.
    intros Cu E. unfold particularize_last_two in E.
    destruct (swap_last_two t) as [t2|] eqn:Es; [|discriminate]. cbn [bind] in E.
    destruct (swap_at t t2 Cu Es) as [S2 A2].
    destruct (arr_eqb t2 t) eqn:Ea.
    - injection E as <-. split; auto. intros i a b F rho.
      unfold arr_eqb in Ea. apply andb_true_iff in Ea as [_ Ea]. rewrite forallb_forall in Ea.
      rewrite <- (A2 i a b F). symmetry. apply expr_eqb_eval, Ea. rewrite S2. apply in_indices; auto.
    - destruct (solve _ excl) as [|sol sols] eqn:Ev; [discriminate|]. cbn [first_sol bind] in E. injection E as <-.
      split; auto. intros i a b F. simpl in *.
      eapply sol_equal; [exact Sd|rewrite Ev; simpl; auto|].
      apply in_map_iff. exists (i ++ [a; b]). split; [|apply in_indices; auto].
      rewrite A2 by auto. auto.
  Qed.

  Lemma all_symmetric t d excl u : is_cube d t -> particularize_all solve t excl = Ok u ->
    shape u = shape t /\ symmetric_all u.
  Proof.
    intros Cu E. unfold particularize_all in E.
    destruct (second_dim t) as [dim|] eqn:Ed; [|discriminate]. cbn [bind] in E.
    assert (Edim : dim = d).
    { unfold second_dim in Ed. unfold is_cube in Cu. rewrite Cu in Ed.
      destruct (rank t) as [|[|n]]; simpl in Ed; destruct d; try discriminate; congruence. }
    subst dim. destruct (forallb _ _); [|discriminate].
    destruct (solve _ excl) as [|sol sols] eqn:Ev; [discriminate|]. cbn [first_sol bind] in E. injection E as <-.
    split; auto. intros i j F P. simpl in *.
    eapply sol_equal; [exact Sd|rewrite Ev; simpl; auto|].
    apply in_flat_map. exists i. split.
    - apply in_indices. rewrite <- Cu. auto.
    - apply in_map_iff. exists j. split; auto. apply permutations_complete; auto.
  Qed.
End Parti.

(** ** Parameters *)
Lemma existsb_sym s l : existsb (sym_eqb s) l = true <-> In s l.
Proof. exact (existsb_eqb s l). Qed.

Section Params.
  Variable set_order : list sym -> list sym.
  Hypothesis Ho : iterates set_order.
  Variable new : string -> expr.
  Hypothesis Hnew : forall n s, In s (syms (new n)) -> sreal s = Some true.

  Definition with_new (rho : sym -> C) : sym -> C := fun s =>
    match sreal s with None => eval rho (new (sname s)) | Some _ => rho s end.

  Definition replace1 (e : expr) (fs : sym) : expr :=
    match sreal fs with
    | None => subst (mksym (sname fs) None) (new (sname fs)) e
    | Some _ => e
    end.

  (** Substituting one symbol after the other, in any order. *)
  Lemma replace_value rho l : NoDup l -> forall e,
    eval rho (fold_left replace1 l e) =
    eval (fun s => if existsb (sym_eqb s) l then with_new rho s else rho s) e.
  Proof.
    intros N. induction l as [|s l IH]; intros e; simpl.
    - apply eval_ext. auto.
    - inversion N as [|? ? NI N']; subst. rewrite IH; [|auto].
      unfold replace1. destruct (sreal s) eqn:R.
      + apply eval_ext. intros s' _. destruct (sym_eqb_spec s' s) as [->|]; simpl; auto.
        assert (E : existsb (sym_eqb s) l = false).
        { destruct (existsb (sym_eqb s) l) eqn:E; auto. apply existsb_sym in E. contradiction. }
        rewrite E. unfold with_new. rewrite R. auto.
      + replace (mksym (sname s) None) with s by (destruct s; cbn in *; congruence). rewrite eval_subst. apply eval_ext.
        intros s' _. unfold upd. destruct (sym_eqb_spec s' s) as [->|]; simpl; auto.
        unfold with_new at 2. rewrite R. apply eval_ext. intros z Iz. apply Hnew in Iz.
        destruct (existsb (sym_eqb z) l); auto. unfold with_new. rewrite Iz; auto.
  Qed.

  Lemma replace_params_value rho e :
    eval rho (replace_params set_order new e) = eval (with_new rho) e.
  Proof.
    unfold replace_params.
    assert (P := Ho (free_symbols e)).
    transitivity (eval (fun s => if existsb (sym_eqb s) (set_order (free_symbols e)) then with_new rho s else rho s) e).
    - apply (replace_value rho (set_order (free_symbols e))).
      eapply Permutation_NoDup; [apply Permutation_sym; exact P|apply NoDup_free_symbols].
    - apply eval_ext. intros s I.
      assert (E : existsb (sym_eqb s) (set_order (free_symbols e)) = true).
      { apply existsb_sym. eapply Permutation_in; [apply Permutation_sym; exact P|]. apply in_free_symbols; auto. }
      rewrite E. auto.
  Qed.

  Lemma replace_syms l : forall e s,
    In s (syms (fold_left replace1 l e)) ->
    (In s (syms e) /\ (sreal s = None -> ~ In s l)) \/ sreal s = Some true.
  Proof.
    induction l as [|x l IH]; intros e s I; simpl in *; auto.
    apply IH in I. destruct I as [[I N]|I]; auto.
    unfold replace1 in I. destruct (sreal x) eqn:R.
    - left. split; auto. intros Rs [->|J]; [congruence|]. apply N; auto.
    - replace (mksym (sname x) None) with x in I by (destruct x; cbn in *; congruence). apply syms_subst in I.
      destruct I as [[I Nx]|[_ I]]; [|right; eapply Hnew; eauto].
      left. split; auto. intros Rs [->|J]; [congruence|]. apply N; auto.
  Qed.

  Lemma replace_keeps l s : sreal s = Some false -> forall e, In s (syms e) -> In s (syms (fold_left replace1 l e)).
  Proof.
    intros R. induction l as [|x l IH]; intros e I; simpl; auto. apply IH.
    unfold replace1. destruct (sreal x) eqn:Rx; auto.
    apply syms_subst. left. split; auto. intros ->. simpl in R. discriminate.
  Qed.

  Lemma replace_params_declared e s : In s (syms (replace_params set_order new e)) ->
    (In s (syms e) /\ sreal s <> None) \/ sreal s = Some true.
  Proof.
    intros I. unfold replace_params in I. apply replace_syms in I.
    destruct I as [[I N]|I]; auto. left. split; auto. intros R. apply (N R).
    eapply Permutation_in; [apply Permutation_sym, Ho|]. apply in_free_symbols; auto.
  Qed.

  Lemma replace_params_id e : declared e -> replace_params set_order new e = e.
  Proof.
    intros D. unfold replace_params.
    assert (F : forall s, In s (set_order (free_symbols e)) -> sreal s <> None).
    { intros s I. apply D. apply in_free_symbols. eapply Permutation_in; [apply Ho|]; auto. }
    revert F. generalize (set_order (free_symbols e)). induction l as [|s l IH]; intros F; simpl; auto.
    destruct (sreal s) eqn:R; [|exfalso; apply (F s); simpl; auto].
    apply IH. intros; apply F; simpl; auto.
  Qed.

  Lemma replace_params_check t :
    (assert_real_params (tmap (replace_params set_order new) t) = Ok tt <-> ~ declared_nonreal t) /\
    (declared_nonreal t -> assert_real_params (tmap (replace_params set_order new) t) = Raise ValueError).
  Proof.
    unfold assert_real_params.
    destruct (forallb _ _) eqn:E.
    - rewrite forallb_forall in E.
      assert (ND : ~ declared_nonreal t).
      { intros (i & s & Fi & Is & Rs).
        specialize (E s). rewrite Rs in E. discriminate E. apply in_flat_map.
        exists (replace_params set_order new (at_ t i)). split.
        - unfold flatten. apply in_map_iff. exists i. split; auto. apply in_indices; auto.
        - apply in_free_symbols. unfold replace_params. apply (replace_keeps _ s Rs); auto. }
      tauto.
    - assert (D : declared_nonreal t).
      { apply not_true_iff_false in E.
        assert (X : exists s, In s (flat_map free_symbols (flatten (tmap (replace_params set_order new) t))) /\ sreal s <> Some true).
        { clear - E. induction (flat_map free_symbols _) as [|s l IH]; simpl in E; [congruence|].
          destruct (sreal s) as [[|]|] eqn:R.
          - destruct IH as (z & I & Z); auto. exists z; simpl; auto.
          - exists s; simpl; split; auto; congruence.
          - exists s; simpl; split; auto; congruence. }
        destruct X as (s & I & Rs). apply in_flat_map in I as (e & Ie & Is).
        unfold flatten in Ie. apply in_map_iff in Ie as (i & <- & Ii). apply in_indices in Ii.
        apply in_free_symbols in Is. simpl in Is, Ii. apply replace_params_declared in Is.
        destruct Is as [[Is N]|Is]; [|congruence].
        exists i, s. repeat split; auto. destruct (sreal s) as [[|]|]; congruence. }
      split; auto. split; [discriminate|tauto].
  Qed.
End Params.

(** Texts that [sp.symbols] reads as one name. *)
Lemma one_name_ordinary n : one_name n = true <-> ordinary n.
Proof.
  unfold one_name, ordinary, plain_text. split.
  - destruct n as [|c n]; [discriminate|]. intros H. split; [discriminate|]. cbn [list_ascii_of_string] in *.
    apply negb_true_iff in H. intros d I. assert (S : splits d = false).
    { destruct (splits d) eqn:S; [|reflexivity]. assert (X : existsb splits (c :: list_ascii_of_string n) = true) by (apply existsb_exists; exists d; auto). congruence. }
    unfold splits in S. apply orb_false_iff in S as [S L]. apply orb_false_iff in S as [S1 S2].
    apply Nat.eqb_neq in S1, S2. apply Nat.leb_gt in L. repeat split; [intros ->; apply S1; reflexivity|intros ->; apply S2; reflexivity|exact L].
  - intros [N H]. destruct n as [|c n]; [congruence|]. cbn [list_ascii_of_string] in *. apply negb_true_iff.
    destruct (existsb splits (c :: list_ascii_of_string n)) eqn:E; [|reflexivity]. exfalso.
    apply existsb_exists in E as (d & I & S). destruct (H d I) as (A & B & L). unfold splits in S.
    apply orb_true_iff in S as [S|S]; [apply orb_true_iff in S as [S|S]|].
    + apply Nat.eqb_eq in S. apply A. rewrite <- (Ascii.ascii_nat_embedding d), S. reflexivity.
    + apply Nat.eqb_eq in S. apply B. rewrite <- (Ascii.ascii_nat_embedding d), S. reflexivity.
    + apply Nat.leb_le in S. lia.
Qed.
Lemma text_app a b : plain_text a -> plain_text b -> plain_text (a ++ b).
Proof.
  intros A B c. induction a as [|x a IH]; cbn; [apply B|]. intros [<-|I]; [apply A; left; reflexivity|].
  apply IH; [intros d J; apply A; right; exact J|exact I].
Qed.
Lemma names_intro texts t : (forall i s n, fits (shape t) i -> In s (syms (at_ t i)) -> sreal s = None -> In n (texts (sname s)) -> ordinary n) ->
  names_ok texts t = true.
Proof.
  intros H. apply forallb_forall. intros s I. apply in_flat_map in I as (e & Ie & Is). unfold flatten in Ie.
  apply in_map_iff in Ie as (i & <- & Ii). apply in_indices in Ii. apply in_free_symbols in Is. destruct (sreal s) eqn:R; [reflexivity|].
  apply forallb_forall. intros n J. apply one_name_ordinary, (H i s n Ii Is R J).
Qed.
Lemma real_made order t : (forall i, fits (shape t) i -> ordinary_params (at_ t i)) ->
  make_tensor_real order t = Ok (tmap (replace_params order real_param) t).
Proof.
  intros H. unfold make_tensor_real. rewrite names_intro; [reflexivity|].
  intros i s n F I R [<-|[]]. exact (H i F s I R).
Qed.
Lemma complex_made order prefix suffix t : (forall i, fits (shape t) i -> ordinary_params (at_ t i)) ->
  plain_text (fst prefix) -> plain_text (snd prefix) -> plain_text (fst suffix) -> plain_text (snd suffix) ->
  make_tensor_complex order prefix suffix t = Ok (tmap (replace_params order (complex_param prefix suffix)) t).
Proof.
  intros H P1 P2 S1 S2. unfold make_tensor_complex. rewrite names_intro; [reflexivity|].
  assert (G : forall a b n, plain_text a -> plain_text b -> ordinary n -> ordinary (a ++ n ++ b)).
  { intros a b n A B [N T]. split; [|repeat apply text_app; assumption].
    destruct a; [|discriminate]. destruct n; [congruence|discriminate]. }
  intros i s n F I R [<-|[<-|[]]]; apply G; auto; exact (H i F s I R).
Qed.
