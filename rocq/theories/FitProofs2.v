(** The gradient. *)
From Coq Require Import String Ascii List Arith ZArith Bool Lia Reals QArith Qreals Lra.
From Coquelicot Require Import Complex.
Import ListNotations.
From Verif Require Import PyBase CBase Expr ExprProofs DataModel FDataModel SpecFData FormModel FitModel SpecFit FitProofs.
Local Open Scope nat_scope.

(** Derivative of a complex function of a real variable *)
Definition cderiv (f : R -> C) (x : R) (d : C) : Prop :=
  derivable_pt_lim (fun t => Re (f t)) x (Re d) /\ derivable_pt_lim (fun t => Im (f t)) x (Im d).

Lemma dpl_ext f g x d d' : (forall t, f t = g t) -> d = d' -> derivable_pt_lim f x d -> derivable_pt_lim g x d'.
Proof. intros E <- H eps P. destruct (H eps P) as (del & Hd). exists del. intros h N L. rewrite <- !E. apply Hd; auto. Qed.
Lemma cderiv_ext f g x d d' : (forall t, f t = g t) -> d = d' -> cderiv f x d -> cderiv g x d'.
Proof. intros E <- (A & B). split; [apply (dpl_ext _ _ _ _ _ (fun t => f_equal Re (E t)) eq_refl A)|apply (dpl_ext _ _ _ _ _ (fun t => f_equal Im (E t)) eq_refl B)]. Qed.
Lemma cderiv_const c x : cderiv (fun _ => c) x (RtoC 0).
Proof. split; apply derivable_pt_lim_const. Qed.
Lemma cderiv_id x : cderiv (fun t => RtoC t) x (RtoC 1).
Proof. split; [apply (derivable_pt_lim_id x)|apply derivable_pt_lim_const]. Qed.
Lemma cderiv_plus f g x a b : cderiv f x a -> cderiv g x b -> cderiv (fun t => Cplus (f t) (g t)) x (Cplus a b).
Proof.
  intros (A & B) (A' & B'). split.
  - apply (derivable_pt_lim_plus (fun t => Re (f t)) (fun t => Re (g t)) x _ _ A A').
  - apply (derivable_pt_lim_plus (fun t => Im (f t)) (fun t => Im (g t)) x _ _ B B').
Qed.
Lemma cderiv_mult f g x a b : cderiv f x a -> cderiv g x b ->
  cderiv (fun t => Cmult (f t) (g t)) x (Cplus (Cmult a (g x)) (Cmult (f x) b)).
Proof.
  intros (A & B) (A' & B'). split.
  - pose proof (derivable_pt_lim_minus _ _ x _ _ (derivable_pt_lim_mult _ _ x _ _ A A') (derivable_pt_lim_mult _ _ x _ _ B B')) as H.
    revert H. apply dpl_ext; [intros t; reflexivity|unfold Re, Im; simpl; ring].
  - pose proof (derivable_pt_lim_plus _ _ x _ _ (derivable_pt_lim_mult _ _ x _ _ A B') (derivable_pt_lim_mult _ _ x _ _ B A')) as H.
    revert H. apply dpl_ext; [intros t; reflexivity|unfold Re, Im; simpl; ring].
Qed.
Lemma cderiv_conj f x a : cderiv f x a -> cderiv (fun t => Cconj (f t)) x (Cconj a).
Proof. intros (A & B). split; [exact A|]. apply (derivable_pt_lim_opp _ x _ B). Qed.
Lemma cderiv_re f x a : cderiv f x a -> cderiv (fun t => RtoC (Re (f t))) x (RtoC (Re a)).
Proof. intros (A & B). split; [exact A|]. apply derivable_pt_lim_const. Qed.
Lemma cderiv_im f x a : cderiv f x a -> cderiv (fun t => RtoC (Im (f t))) x (RtoC (Im a)).
Proof. intros (A & B). split; [exact B|]. apply derivable_pt_lim_const. Qed.
Lemma cderiv_pow f x a n : cderiv f x a -> cderiv (fun t => Cpow (f t) (S n)) x (Cmult (Cmult (RtoC (INR (S n))) (Cpow (f x) n)) a).
Proof.
  intros A. induction n as [|n IH].
  - apply (cderiv_ext f _ x a _); [intros t; simpl; ring| |exact A]. simpl. ring.
  - apply (cderiv_ext (fun t => Cmult (f t) (Cpow (f t) (S n))) _ x (Cplus (Cmult a (Cpow (f x) (S n))) (Cmult (f x) (Cmult (Cmult (RtoC (INR (S n))) (Cpow (f x) n)) a)))).
    + intros t. reflexivity.
    + rewrite (S_INR (S n)), RtoC_plus. cbn [Cpow]. ring.
    + apply (cderiv_mult f (fun t => Cpow (f t) (S n))); [exact A|exact IH].
Qed.
Lemma dpl_comp f g x a b : derivable_pt_lim f x a -> derivable_pt_lim g (f x) b -> derivable_pt_lim (fun t => g (f t)) x (b * a)%R.
Proof. intros A B. apply (derivable_pt_lim_comp f g x a b A B). Qed.
Lemma cderiv_cos f x a : cderiv f x a -> cderiv (fun t => Ccos (f t)) x (Cmult (RtoC (-1)) (Cmult (Csin (f x)) a)).
Proof.
  intros (A & B).
  pose proof (dpl_comp _ cos x _ _ A (derivable_pt_lim_cos _)) as Hc. pose proof (dpl_comp _ sin x _ _ A (derivable_pt_lim_sin _)) as Hs.
  pose proof (dpl_comp _ cosh x _ _ B (derivable_pt_lim_cosh _)) as Hch. pose proof (dpl_comp _ sinh x _ _ B (derivable_pt_lim_sinh _)) as Hsh.
  split.
  - pose proof (derivable_pt_lim_mult _ _ x _ _ Hc Hch) as H.
    revert H. apply dpl_ext; [intros t; reflexivity|unfold Csin, Re, Im; simpl; ring].
  - pose proof (derivable_pt_lim_opp _ x _ (derivable_pt_lim_mult _ _ x _ _ Hs Hsh)) as H.
    revert H. apply dpl_ext; [intros t; reflexivity|unfold Csin, Re, Im; simpl; ring].
Qed.
Lemma cderiv_sin f x a : cderiv f x a -> cderiv (fun t => Csin (f t)) x (Cmult (Ccos (f x)) a).
Proof.
  intros (A & B).
  pose proof (dpl_comp _ cos x _ _ A (derivable_pt_lim_cos _)) as Hc. pose proof (dpl_comp _ sin x _ _ A (derivable_pt_lim_sin _)) as Hs.
  pose proof (dpl_comp _ cosh x _ _ B (derivable_pt_lim_cosh _)) as Hch. pose proof (dpl_comp _ sinh x _ _ B (derivable_pt_lim_sinh _)) as Hsh.
  split.
  - pose proof (derivable_pt_lim_mult _ _ x _ _ Hs Hch) as H.
    revert H. apply dpl_ext; [intros t; reflexivity|unfold Ccos, Re, Im; simpl; ring].
  - pose proof (derivable_pt_lim_mult _ _ x _ _ Hc Hsh) as H.
    revert H. apply dpl_ext; [intros t; reflexivity|unfold Ccos, Re, Im; simpl; ring].
Qed.

Definition updx (xs : nat -> R) (i : nat) (t : R) : nat -> R := fun j => if Nat.eqb j i then t else xs j.

Lemma all_some_inv {A} (l : list (option A)) r : all_some l = Some r -> l = map Some r.
Proof.
  revert r. induction l as [|[a|] l IH]; intros r; cbn [all_some]; try discriminate; [intros E; injection E as <-; reflexivity|].
  destruct (all_some l) as [r'|]; cbn [option_map]; [|discriminate]. intros E; injection E as <-. rewrite (IH r' eq_refl). reflexivity.
Qed.
Lemma kdiff_mul_cons i a l d : kdiff i (KMul (a :: l)) = Some d ->
  exists da r, kdiff i a = Some da /\ kdiff i (KMul l) = Some r /\ d = KAdd [KMul (da :: l); KMul [a; r]].
Proof.
  change (kdiff i (KMul (a :: l))) with (match kdiff i a, kdiff i (KMul l) with Some da, Some r => Some (KAdd [KMul (da :: l); KMul [a; r]]) | _, _ => None end).
  destruct (kdiff i a) as [da|]; [|discriminate]. destruct (kdiff i (KMul l)) as [r|]; [|discriminate]. intros E; injection E as <-. eauto.
Qed.
Lemma novars rho xs xs' e : kvars e = [] -> keval rho xs e = keval rho xs' e.
Proof. intros E. apply keval_ext; auto. rewrite E. intros i []. Qed.
Lemma cderiv_still rho xs i e t0 (g : C -> C) : kvars e = [] -> cderiv (fun t => g (keval rho (updx xs i t) e)) t0 (RtoC 0).
Proof.
  intros E. apply (cderiv_ext (fun _ => g (keval rho xs e)) _ t0 (RtoC 0)); [|reflexivity|apply cderiv_const].
  intros t. rewrite (novars rho xs (updx xs i t) e E). reflexivity.
Qed.

Lemma kdiff_sound rho xs i e : forall d t0, kdiff i e = Some d -> cderiv (fun t => keval rho (updx xs i t) e) t0 (keval rho (updx xs i t0) d).
Proof.
  induction e using code_ind'; intros d t0.
  - intros E; injection E as <-. exact (cderiv_const z t0).
  - intros E; injection E as <-. exact (cderiv_const (rho s) t0).
  - intros E; injection E as <-. cbn [keval]. unfold updx. rewrite (Nat.eqb_sym i0 i).
    destruct (Nat.eqb i i0); [exact (cderiv_id t0)|exact (cderiv_const (RtoC (xs i0)) t0)].
  - cbn [kdiff]. destruct (all_some (map (kdiff i) l)) as [ds|] eqn:A; cbn [option_map]; [|discriminate]. intros E; injection E as <-.
    apply all_some_inv in A. cbn [keval]. revert ds A. induction H as [|a l Ha Hl IH]; intros [|b ds] A; try discriminate; cbn [map fold_right].
    + exact (cderiv_const (RtoC 0) t0).
    + cbn [map] in A. injection A as A1 A2. apply (cderiv_plus (fun t => keval rho (updx xs i t) a)); [apply Ha; exact A1|apply IH; exact A2].
  - revert d. induction H as [|a l Ha Hl IH]; intros d E.
    + injection E as <-. exact (cderiv_const (RtoC 1) t0).
    + apply kdiff_mul_cons in E as (da & r & Ea & El & ->).
      cbn [keval map fold_right].
      apply (cderiv_ext (fun t => Cmult (keval rho (updx xs i t) a) (fold_right Cmult (RtoC 1) (map (keval rho (updx xs i t)) l))) _ t0
        (Cplus (Cmult (keval rho (updx xs i t0) da) (fold_right Cmult (RtoC 1) (map (keval rho (updx xs i t0)) l)))
               (Cmult (keval rho (updx xs i t0) a) (keval rho (updx xs i t0) r)))).
      * intros t. reflexivity.
      * ring.
      * apply (cderiv_mult (fun t => keval rho (updx xs i t) a)); [apply Ha; exact Ea|exact (IH r El)].
  - cbn [kdiff]. destruct n as [|n]; [intros E; injection E as <-; exact (cderiv_const (RtoC 1) t0)|].
    destruct (kdiff i e) as [d'|] eqn:K; cbn [option_map]; [|discriminate]. intros E; injection E as <-.
    pose proof (cderiv_pow _ t0 _ n (IHe d' t0 eq_refl)) as H; revert H; apply cderiv_ext; [intros t; reflexivity|].
    cbn [keval map fold_right]; rewrite Cmult_1_r; symmetry; apply Cmult_assoc.
  - cbn [kdiff]. destruct (kdiff i e) as [d'|] eqn:K; cbn [option_map]; [|discriminate]. intros E; injection E as <-.
    cbn [keval map fold_right]. pose proof (cderiv_cos _ t0 _ (IHe d' t0 eq_refl)) as H; revert H; apply cderiv_ext; [intros t; reflexivity|].
    rewrite Cmult_1_r; reflexivity.
  - cbn [kdiff]. destruct (kdiff i e) as [d'|] eqn:K; cbn [option_map]; [|discriminate]. intros E; injection E as <-.
    cbn [keval map fold_right]. pose proof (cderiv_sin _ t0 _ (IHe d' t0 eq_refl)) as H; revert H; apply cderiv_ext; [intros t; reflexivity|].
    rewrite Cmult_1_r; reflexivity.
  - cbn [kdiff]. destruct (kvars e) eqn:K; [|discriminate]. intros E; injection E as <-. exact (cderiv_still rho xs i e t0 Cconj K).
  - cbn [kdiff]. destruct (kvars e) eqn:K; [|discriminate]. intros E; injection E as <-. exact (cderiv_still rho xs i e t0 (fun z => RtoC (Re z)) K).
  - cbn [kdiff]. destruct (kvars e) eqn:K; [|discriminate]. intros E; injection E as <-. exact (cderiv_still rho xs i e t0 (fun z => RtoC (Im z)) K).
Qed.

Lemma atoms_kdiff i e : forall d, kdiff i e = Some d -> incl (ksyms d) (ksyms e) /\ incl (kvars d) (kvars e).
Proof.
  assert (Z : forall e', incl (ksyms (KNum (RtoC 0))) (ksyms e') /\ incl (kvars (KNum (RtoC 0))) (kvars e')) by (intros e'; split; intros ? []).
  induction e using code_ind'; intros d.
  - intros E; injection E as <-. apply Z.
  - intros E; injection E as <-. apply Z.
  - intros E; injection E as <-. split; intros ? [].
  - cbn [kdiff]. destruct (all_some (map (kdiff i) l)) as [ds|] eqn:A; cbn [option_map]; [|discriminate]. intros E; injection E as <-.
    apply all_some_inv in A. cbn [ksyms kvars]. revert ds A. induction H as [|a l Ha Hl IH]; intros [|b ds] A; try discriminate; cbn [flat_map].
    + split; intros ? [].
    + cbn [map] in A. injection A as A1 A2. destruct (Ha b A1) as (S1 & V1). destruct (IH ds A2) as (S2 & V2).
      split; apply incl_app; intros x I; apply in_app_iff; auto.
  - revert d. induction H as [|a l Ha Hl IH]; intros d E.
    + injection E as <-. apply Z.
    + apply kdiff_mul_cons in E as (da & r & Ea & El & ->). destruct (Ha da Ea) as (S1 & V1). destruct (IH r El) as (S2 & V2).
      cbn [ksyms kvars flat_map] in *. rewrite !app_nil_r. split; intros x I; rewrite !in_app_iff in I; apply in_app_iff;
        destruct I as [[I|I]|[I|I]]; auto.
  - cbn [kdiff]. destruct n as [|n]; [intros E; injection E as <-; apply Z|].
    destruct (kdiff i e) as [d'|] eqn:K; cbn [option_map]; [|discriminate]. intros E; injection E as <-. destruct (IHe d' eq_refl) as (S1 & V1).
    cbn [ksyms kvars flat_map app]. rewrite !app_nil_r. split; apply incl_app; auto; apply incl_refl.
  - cbn [kdiff]. destruct (kdiff i e) as [d'|] eqn:K; cbn [option_map]; [|discriminate]. intros E; injection E as <-. destruct (IHe d' eq_refl) as (S1 & V1).
    cbn [ksyms kvars flat_map app]. rewrite !app_nil_r. split; apply incl_app; auto; apply incl_refl.
  - cbn [kdiff]. destruct (kdiff i e) as [d'|] eqn:K; cbn [option_map]; [|discriminate]. intros E; injection E as <-. destruct (IHe d' eq_refl) as (S1 & V1).
    cbn [ksyms kvars flat_map app]. rewrite !app_nil_r. split; apply incl_app; auto; apply incl_refl.
  - cbn [kdiff]. destruct (kvars e) eqn:K; [|discriminate]. intros E; injection E as <-. apply Z.
  - cbn [kdiff]. destruct (kvars e) eqn:K; [|discriminate]. intros E; injection E as <-. apply Z.
  - cbn [kdiff]. destruct (kvars e) eqn:K; [|discriminate]. intros E; injection E as <-. apply Z.
Qed.

Lemma py_nth_In {A} (l : list A) i a : py_nth l i = Ok a -> In a l.
Proof.
  unfold py_nth. repeat match goal with |- context [match ?x with _ => _ end] => destruct x eqn:?; try discriminate end; intros X; injection X as <-;
    eapply nth_error_In; eassumption.
Qed.
Lemma Forall2_Forall_r {A B} (R : A -> B -> Prop) (P : B -> Prop) : (forall a b, R a b -> P b) -> forall l l', Forall2 R l l' -> Forall P l'.
Proof. intros H l l' F. induction F; constructor; eauto. Qed.

(** Plain expressions *)
Lemma plain_list l : (fix go l := match l with [] => True | a :: l' => plain a /\ go l' end) l <-> Forall plain l.
Proof. induction l as [|a l IH]; split; intros H; auto; [destruct H; constructor; tauto|inversion H; subst; tauto]. Qed.
Lemma plain_add l : plain (KAdd l) <-> Forall plain l.
Proof. apply plain_list. Qed.
Lemma plain_mul l : plain (KMul l) <-> Forall plain l.
Proof. apply plain_list. Qed.
Lemma plain_kdiff i e : plain e -> exists d, kdiff i e = Some d.
Proof.
  induction e using code_ind'; intros P; try (cbn [kdiff]; eauto; fail); try destruct P.
  - apply plain_add in P. cbn [kdiff].
    assert (X : exists ds, all_some (map (kdiff i) l) = Some ds).
    { induction H as [|a l Ha Hl IH]; [exists []; reflexivity|]. inversion P as [|? ? P1 P2]; subst. destruct (Ha P1) as (d & Ed). destruct (IH P2) as (ds & Eds).
      exists (d :: ds). cbn [map all_some]. rewrite Ed, Eds. reflexivity. }
    destruct X as (ds & ->). cbn [option_map]. eauto.
  - apply plain_mul in P. induction H as [|a l Ha Hl IH]; [eexists; reflexivity|]. inversion P as [|? ? P1 P2]; subst.
    destruct (Ha P1) as (d & Ed). destruct (IH P2) as (r & Er).
    change (kdiff i (KMul (a :: l))) with (match kdiff i a, kdiff i (KMul l) with Some da, Some r => Some (KAdd [KMul (da :: l); KMul [a; r]]) | _, _ => None end).
    rewrite Ed, Er. eauto.
  - cbn [kdiff]. destruct n; eauto. destruct (IHe P) as (d & ->). cbn [option_map]. eauto.
  - cbn [kdiff]. destruct (IHe P) as (d & ->). cbn [option_map]. eauto.
  - cbn [kdiff]. destruct (IHe P) as (d & ->). cbn [option_map]. eauto.
Qed.
Lemma plain_xreplace mp e : plain e -> plain (xreplace mp e).
Proof.
  induction e using code_ind'; cbn [xreplace]; intros P; auto.
  - destruct (dget s mp); exact I.
  - apply plain_add in P. apply plain_add. apply Forall_forall. intros x Ix. apply in_map_iff in Ix as (y & <- & Iy).
    rewrite Forall_forall in H, P. apply (H y Iy (P y Iy)).
  - apply plain_mul in P. apply plain_mul. apply Forall_forall. intros x Ix. apply in_map_iff in Ix as (y & <- & Iy).
    rewrite Forall_forall in H, P. apply (H y Iy (P y Iy)).
Qed.

(** Vectors *)
Lemma set_nth_length i t xs : length (set_nth i t xs) = length xs.
Proof. revert i; induction xs as [|x xs IH]; intros [|i]; simpl; congruence. Qed.
Lemma set_nth_nth i t xs j : i < length xs -> nth j (set_nth i t xs) 0%R = updx (at_xs xs) i t j.
Proof.
  unfold updx, at_xs. revert i j; induction xs as [|x xs IH]; intros [|i] [|j] L; simpl in *; try lia; auto.
  rewrite IH by lia. reflexivity.
Qed.
Lemma reading_assigns free xs : NoDup free -> length free <= length xs -> assigns free xs (reading free xs).
Proof.
  revert xs. induction free as [|f free IH]; intros xs N L i s E; [destruct i; discriminate|].
  destruct xs as [|x xs]; [simpl in L; lia|]. inversion N as [|? ? Nf N']; subst. destruct i as [|i]; cbn [nth_error] in E.
  - injection E as <-. cbn [reading nth]. destruct (sym_eqb_spec f f); [reflexivity|congruence].
  - cbn [reading nth]. destruct (sym_eqb_spec s f) as [->|]; [exfalso; apply Nf; apply (nth_error_In _ _ E)|].
    apply (IH xs N' ltac:(simpl in L; lia) i s E).
Qed.

Section Gradient.
Variable kev : code -> code.
Hypothesis KEV : sound_kev kev.

Lemma denergy_good F D free e i d : NoDup free -> good free e (fun rho => RtoC (misfit F D rho)) -> i < length free -> kdiff i e = Some d ->
  ksyms (kev d) = [] /\ (forall j, In j (kvars (kev d)) -> j < length free) /\
  forall xs, length xs = length free ->
    derivable_pt_lim (fun t => misfit F D (reading free (set_nth i t xs))) (nth i xs 0%R) (Re (keval (fun _ => RtoC 0) (at_xs xs) (kev d))).
Proof.
  intros N (S & V & E) L K. destruct (atoms_kdiff i e d K) as (Sd & Vd). split; [|split].
  - apply incl_l_nil. intros s I. apply (kev_syms kev KEV) in I. apply Sd in I. rewrite S in I. exact I.
  - intros j I. apply (kev_vars kev KEV) in I. apply Vd in I. auto.
  - intros xs Lx. rewrite (kev_val kev KEV) by apply zero_respects.
    destruct (kdiff_sound (fun _ => RtoC 0) (at_xs xs) i e d (nth i xs 0%R) K) as (A & _).
    revert A. apply dpl_ext.
    + intros t. rewrite (keval_ext _ (fun _ => RtoC 0) _ (at_xs (set_nth i t xs)) e) by (auto; intros j _; symmetry; apply set_nth_nth; lia).
      rewrite (E (set_nth i t xs) (reading free (set_nth i t xs)) _ zero_respects); [reflexivity|].
      apply reading_assigns; [exact N|rewrite set_nth_length; lia].
    + f_equal. apply keval_ext; [auto|]. intros j _. unfold updx, at_xs. destruct (Nat.eqb_spec j i) as [->|]; reflexivity.
Qed.

(** Saving the components *)
Fixpoint put_grad (prefix : option string) (i : nat) (ls : list (list code)) (fs : list (string * list code)) : list (string * list code) :=
  match ls with
  | [] => fs
  | l :: ls' => put_grad prefix (S i) ls' (save_lib (option_map (fun p => grad_name p i) prefix) l fs)
  end.
Lemma save_grad_some gp ds : forall i fs, save_grad gp i (map Some ds) fs = (put_grad gp i (map (fun d => [d]) ds) fs, Ok (map (fun d => [d]) ds)).
Proof. induction ds as [|d ds IH]; intros i fs; [reflexivity|]. cbn [map save_grad put_grad]. rewrite IH. reflexivity. Qed.
Lemma save_grad_ok gp ds : forall i fs fs' ls, save_grad gp i ds fs = (fs', Ok ls) ->
  exists cs, ds = map Some cs /\ ls = map (fun d => [d]) cs /\ fs' = put_grad gp i ls fs.
Proof.
  induction ds as [|[d|] ds IH]; intros i fs fs' ls E; cbn [save_grad] in E.
  - injection E as <- <-. exists []. auto.
  - destruct (save_grad gp (S i) ds _) as (fs1, r) eqn:E1. destruct r as [l|]; cbn [bind] in E; [|discriminate]. injection E as <- <-.
    apply IH in E1 as (cs & -> & -> & ->). exists (d :: cs). auto.
  - discriminate.
Qed.
Lemma save_grad_raise gp ds : forall i fs fs' x, save_grad gp i ds fs = (fs', Raise x) -> x = OSError /\ In None ds.
Proof.
  induction ds as [|[d|] ds IH]; intros i fs fs' x E; cbn [save_grad] in E.
  - discriminate.
  - destruct (save_grad gp (S i) ds _) as (fs1, r) eqn:E1. destruct r as [l|]; cbn [bind] in E; [discriminate|]. injection E as <- <-.
    apply IH in E1 as (-> & I). split; [reflexivity|right; exact I].
  - injection E as <- <-. split; [reflexivity|left; reflexivity].
Qed.

(** The gradient supplied is the gradient of the cost *)
Lemma gradient_sound F D free save gp fs fs' lib ls : matching F D -> argument_list F free ->
  energy_and_denergy kev F D (Some free) false save gp fs = (fs', Ok (lib, ls)) ->
  fs' = put_grad gp 0 ls (save_lib save lib fs) /\ computes F D free lib /\ gradient F D free ls.
Proof.
  intros Ma Ar. pose proof Ar as (N & _). destruct (energy_good kev KEV F D free Ma Ar) as (e & E & G).
  unfold energy_and_denergy. rewrite E. unfold denergy_expr. pose proof G as (S & V & W). rewrite S.
  destruct (kvars e) as [|v vs] eqn:K; [discriminate|]. unfold autowrap.
  destruct (save_grad gp 0 (map (fun i => option_map kev (kdiff i e)) (seq 0 (length free))) (save_lib save [e] fs)) as (fs2, r) eqn:Es.
  destruct r as [l|]; cbn [bind]; [|discriminate]. intros X; injection X as <- <- <-.
  apply save_grad_ok in Es as (cs & Ec & -> & ->). split; [reflexivity|].
  split; [intros xs rho L A; rewrite (call_one free e _ xs rho G L A); reflexivity|].
  assert (Lc : length cs = length free) by (apply (f_equal (@length _)) in Ec; rewrite !map_length, seq_length in Ec; congruence).
  split; [rewrite map_length; exact Lc|]. intros i lib En xs Lx.
  rewrite nth_error_map in En. destruct (nth_error cs i) as [c|] eqn:Ei; [|discriminate]. cbn [option_map] in En. injection En as <-.
  assert (Li : i < length free) by (rewrite <- Lc; apply nth_error_Some; congruence).
  assert (Ei' : nth_error (map (fun i => option_map kev (kdiff i e)) (seq 0 (length free))) i = Some (Some c)) by (rewrite Ec; apply map_nth_error; exact Ei).
  rewrite nth_error_map, (nth_error_nth' _ 0), seq_nth in Ei' by (rewrite ?seq_length; lia). cbn [option_map plus] in Ei'.
  destruct (kdiff i e) as [d|] eqn:Kd; cbn [option_map] in Ei'; [|discriminate]. injection Ei' as <-.
  destruct (denergy_good F D free e i d N G Li Kd) as (S1 & V1 & D1).
  eexists. split; [|apply (D1 xs Lx)].
  unfold call. cbn [forallb map fold_right]. rewrite callable_intro by (auto; intros j I; apply V1 in I; lia). cbn [andb]. rewrite Rplus_0_r. reflexivity.
Qed.
Lemma gradient_raise F D free save gp fs fs' x : matching F D -> argument_list F free ->
  energy_and_denergy kev F D (Some free) false save gp fs = (fs', Raise x) ->
  x = OSError \/ (x = IndexError /\ fs' = fs /\ forall xs xs' rho rho', assigns free xs rho -> assigns free xs' rho' -> misfit F D rho = misfit F D rho').
Proof.
  intros Ma Ar. pose proof Ar as (N & _). destruct (energy_good kev KEV F D free Ma Ar) as (e & E & G).
  unfold energy_and_denergy. rewrite E. unfold denergy_expr. pose proof G as (S & V & W). rewrite S.
  destruct (kvars e) as [|v vs] eqn:K.
  - intros X; injection X as <- <-. right. split; [reflexivity|]. split; [reflexivity|]. intros xs xs' rho rho' A A'. apply RtoC_inj. cbv beta in W.
    rewrite <- (W xs rho _ zero_respects A), <- (W xs' rho' _ zero_respects A'). apply keval_ext; [auto|]. rewrite K. intros i [].
  - unfold autowrap. destruct (save_grad _ _ _ _) as (fs2, [l|y]) eqn:Es; cbn [bind]; [discriminate|]. intros X; injection X as <- <-.
    apply save_grad_raise in Es as (-> & _). left; reflexivity.
Qed.

(** Formulas in real symbols *)
Lemma plain_energy F D free e : resolves kev -> matching F D -> argument_list F free -> plain_formula F ->
  energy_expr kev F D (Some free) = Ok (e, length free) -> plain e.
Proof.
  intros (R1 & R2) Ma Ar P E. pose proof Ma as (FO & DO & EM & KS). unfold energy_expr in E.
  destruct (terms kev F D (Some free)) as [(ts, n)|] eqn:T; cbn [bind] in E; [|discriminate]. injection E as <- ->.
  assert (G : Forall plain ts).
  { unfold terms in T. cbn [symbols_or bind] in T. destruct (mapM _ _) as [ts'|] eqn:M; cbn [bind] in T; [|discriminate]. injection T as ->.
    apply mapM_Ok in M. revert M. apply Forall2_Forall_r. intros (k, m) t. cbn [fst snd]. unfold term, ff_get_pc, dgetr.
    destruct (dget k (ff_rows F)) as [r|] eqn:Er; cbn [bind]; [|discriminate].
    destruct (py_nth (r_cells r) (m + Z.of_nat (ff_M F))) as [c|] eqn:Ec; cbn [bind]; [|discriminate].
    destruct (fget_pc D k) as [dr|]; cbn [bind]; [|discriminate]. destruct (py_nth dr _) as [d|]; cbn [bind]; [|discriminate].
    intros X; injection X as <-. apply dget_In in Er. apply py_nth_In in Ec. destruct (P k r c Er Ec) as (Pc & Rc).
    set (e0 := kev (KAdd [embed c; KMul [KNum (RtoC (-1)); KNum d]])).
    assert (P0 : plain e0) by (apply R1; apply plain_add; repeat constructor; exact Pc).
    assert (Q0 : real_syms e0).
    { intros s I. apply (kev_syms kev KEV) in I. cbn [ksyms flat_map] in I. rewrite !app_nil_r in I. apply Rc. exact I. }
    apply R1. apply plain_xreplace. apply R1. apply plain_mul. constructor; [exact P0|]. constructor; [|constructor]. apply R2; assumption. }
  assert (H : forall ts a, Forall plain (a :: ts) -> plain (fold_left (fun acc t => kev (KAdd [acc; t])) ts a)).
  { clear - R1. induction ts as [|t ts IH]; intros a Fo; inversion Fo as [|? ? Ha Ht]; subst; cbn [fold_left]; [exact Ha|].
    inversion Ht as [|? ? Ht1 Ht2]; subst. apply IH. constructor; [|exact Ht2]. apply R1. apply plain_add. constructor; [exact Ha|]. constructor; [exact Ht1|constructor]. }
  apply H. constructor; [exact I|exact G].
Qed.
Lemma gradient_exists F D free save gp fs : resolves kev -> matching F D -> argument_list F free -> plain_formula F ->
  (exists fs' lib ls, energy_and_denergy kev F D (Some free) false save gp fs = (fs', Ok (lib, ls))) \/
  (energy_and_denergy kev F D (Some free) false save gp fs = (fs, Raise IndexError) /\
   forall xs xs' rho rho', assigns free xs rho -> assigns free xs' rho' -> misfit F D rho = misfit F D rho').
Proof.
  intros R Ma Ar P. destruct (energy_and_denergy kev F D (Some free) false save gp fs) as (fs', [(lib, ls)|x]) eqn:E; [left; eauto|right].
  destruct (gradient_raise F D free save gp fs fs' x Ma Ar E) as [->|(-> & -> & H)]; [exfalso|auto].
  destruct (energy_good kev KEV F D free Ma Ar) as (e & Ee & G).
  pose proof (plain_energy F D free e R Ma Ar P Ee) as Pe. revert E. unfold energy_and_denergy. rewrite Ee. unfold denergy_expr.
  destruct G as (S & _). rewrite S. destruct (kvars e); [discriminate|].
  unfold autowrap. destruct (save_grad _ _ _ _) as (fs2, [l'|y]) eqn:Es; cbn [bind]; [discriminate|]. intros _.
  apply save_grad_raise in Es as (_ & I). apply in_map_iff in I as (i & Ei & _). destruct (plain_kdiff i e Pe) as (d & Ed). rewrite Ed in Ei. discriminate.
Qed.
End Gradient.

(** An evaluation that resolves conjugates *)
Fixpoint cj (e : code) : code :=
  match e with
  | KNum z => KNum (Cconj z)
  | KSym s => match sreal s with Some true => KSym s | _ => KConj (KSym s) end
  | KVar i => KVar i
  | KAdd l => KAdd (map cj l)
  | KMul l => KMul (map cj l)
  | KPow b n => KPow (cj b) n
  | KCos e => KCos (cj e)
  | KSin e => KSin (cj e)
  | KConj e => e
  | KRe e => KRe e
  | KIm e => KIm e
  end.
Definition push (e : code) : code := match e with KConj e' => cj e' | _ => e end.
Lemma cosh_opp x : cosh (- x) = cosh x.
Proof. unfold cosh. rewrite Ropp_involutive. f_equal. ring. Qed.
Lemma sinh_opp x : sinh (- x) = (- sinh x)%R.
Proof. unfold sinh. rewrite Ropp_involutive. field. Qed.
Lemma Ccos_conj z : Ccos (Cconj z) = Cconj (Ccos z).
Proof. apply C_ext; unfold Ccos, Cconj, Re, Im; simpl; rewrite ?cosh_opp, ?sinh_opp; ring. Qed.
Lemma Csin_conj z : Csin (Cconj z) = Cconj (Csin z).
Proof. apply C_ext; unfold Csin, Cconj, Re, Im; simpl; rewrite ?cosh_opp, ?sinh_opp; ring. Qed.
Lemma Cconj_add a b : Cconj (Cplus a b) = Cplus (Cconj a) (Cconj b).
Proof. apply C_ext; unfold Re, Im; simpl; ring. Qed.
Lemma Cconj_R x : Cconj (RtoC x) = RtoC x.
Proof. apply C_ext; unfold Re, Im; simpl; ring. Qed.
Lemma cj_val rho xs e : respects rho -> keval rho xs (cj e) = Cconj (keval rho xs e).
Proof.
  intros R. induction e using code_ind'; cbn [cj keval].
  - reflexivity.
  - destruct (sreal s) as [[|]|] eqn:Sr; cbn [keval]; try reflexivity. specialize (R s Sr). destruct (rho s) as (a, b). simpl in R. subst b.
    apply C_ext; unfold Re, Im; simpl; ring.
  - rewrite Cconj_R. reflexivity.
  - rewrite map_map. induction H as [|a l Ha Hl IH]; cbn [map fold_right]; [rewrite Cconj_R; reflexivity|]. rewrite Cconj_add, Ha, IH. reflexivity.
  - rewrite map_map. induction H as [|a l Ha Hl IH]; cbn [map fold_right]; [rewrite Cconj_R; reflexivity|]. rewrite Cconj_mult, Ha, IH. reflexivity.
  - rewrite IHe. induction n as [|n IH]; cbn [Cpow]; [rewrite Cconj_R; reflexivity|]. rewrite Cconj_mult, IH. reflexivity.
  - rewrite IHe. apply Ccos_conj.
  - rewrite IHe. apply Csin_conj.
  - apply C_ext; unfold Re, Im; simpl; ring.
  - rewrite Cconj_R. reflexivity.
  - rewrite Cconj_R. reflexivity.
Qed.
Lemma cj_atoms e : incl (ksyms (cj e)) (ksyms e) /\ incl (kvars (cj e)) (kvars e).
Proof.
  induction e using code_ind'; cbn [cj ksyms kvars]; try (split; apply incl_refl); try exact IHe.
  - destruct (sreal s) as [[|]|]; split; apply incl_refl.
  - rewrite Forall_forall in H. split; intros x I; rewrite flat_map_concat_map, map_map, <- flat_map_concat_map in I;
      apply in_flat_map in I as (y & Iy & Ix); apply in_flat_map; exists y; (split; [exact Iy|]); apply (H y Iy); exact Ix.
  - rewrite Forall_forall in H. split; intros x I; rewrite flat_map_concat_map, map_map, <- flat_map_concat_map in I;
      apply in_flat_map in I as (y & Iy & Ix); apply in_flat_map; exists y; (split; [exact Iy|]); apply (H y Iy); exact Ix.
Qed.
Lemma push_sound : sound_kev push.
Proof.
  split; [|split].
  - intros rho xs e R. destruct e; try reflexivity. cbn [push keval]. apply cj_val. exact R.
  - intros e. destruct e; try apply incl_refl. exact (proj1 (cj_atoms e)).
  - intros e. destruct e; try apply incl_refl. exact (proj2 (cj_atoms e)).
Qed.
Lemma push_resolves : resolves push.
Proof.
  split.
  - intros e P. destruct e; try exact P. destruct P.
  - intros e P R. cbn [push]. revert P R. induction e using code_ind'; cbn [cj]; intros P R; try exact P; try destruct P.
    + rewrite (R s) by (left; reflexivity). exact I.
    + apply plain_add in P. apply plain_add. apply Forall_forall. intros x Ix. apply in_map_iff in Ix as (y & <- & Iy).
      rewrite Forall_forall in H, P. apply (H y Iy (P y Iy)). intros s Is. apply R. cbn [ksyms]. apply in_flat_map. eauto.
    + apply plain_mul in P. apply plain_mul. apply Forall_forall. intros x Ix. apply in_map_iff in Ix as (y & <- & Iy).
      rewrite Forall_forall in H, P. apply (H y Iy (P y Iy)). intros s Is. apply R. cbn [ksyms]. apply in_flat_map. eauto.
    + apply IHe; assumption.
    + apply IHe; assumption.
    + apply IHe; assumption.
Qed.
