(** Symbols of the formulas of formgen and of the Fourier formulas of fformgen. *)
From Coq Require Import String List Arith ZArith QArith Bool Lia.
Import ListNotations.
From Verif Require Import PyBase Expr ExprProofs DataModel FormModel SpecForm FormProofs3 TensorModel SpecTensor TensorInst TensorProofs UtilModel
  FormgenModel FformgenModel FformgenOrder SpecParam ParamProofs.
Local Open Scope nat_scope.

Section Formgen.
Variable ev ex : expr -> expr.
Hypothesis EV : sound_ev ev.
Hypothesis EX : sound_ev ex.
Variable P : sym -> Prop.
Variable theta : expr.
Hypothesis Pth : uses P theta.
Hypothesis Pphi : P phi.

Lemma uses_ex e : uses P e -> uses P (ex e).
Proof. apply uses_ev. exact EX. Qed.
Lemma uses_cos e : uses P e -> uses P (cos_of ev e).
Proof. intros U. apply (uses_ev ev EV). exact U. Qed.
Lemma uses_sin e : uses P e -> uses P (sin_of ev e).
Proof. intros U. apply (uses_ev ev EV). exact U. Qed.
Lemma in_k_in : inside P (k_in ev theta).
Proof. apply all_inside, all_vector; [apply uses_sin|apply uses_num|apply uses_cos]; exact Pth. Qed.
Lemma in_k_out : inside P (k_out ev theta).
Proof. apply all_inside, all_vector; [apply uses_sin|apply uses_num|apply uses_neg; [exact EV|apply uses_cos]]; exact Pth. Qed.
Lemma in_F_p : inside P (F_p ev theta).
Proof. apply all_inside, all_vector; [apply uses_neg; [exact EV|apply uses_cos]|apply uses_num|apply uses_sin]; exact Pth. Qed.
Lemma in_F_s : inside P F_s.
Proof. apply all_inside, all_vector; apply uses_num. Qed.
Lemma in_R_phi : inside P (R_phi ev).
Proof.
  assert (U : uses P (ESym phi)) by (intros s [<-|[]]; exact Pphi).
  pose proof (uses_cos _ U) as C. pose proof (uses_sin _ U) as S. pose proof (uses_neg ev EV P _ S) as N.
  apply all_inside. intros i. cbn [R_phi at_].
  destruct (nth 0 i 0) as [|[|[|a]]]; destruct (nth 1 i 0) as [|[|[|b]]]; cbn [nth]; auto using uses_num;
    try (destruct b; apply uses_num); destruct a; try (destruct b; apply uses_num); apply uses_num.
Qed.
Lemma in_levi : inside P levi_civita.
Proof.
  apply all_inside. intros i s I. exfalso. revert I. cbn [levi_civita at_].
  repeat match goal with |- context [match ?x with _ => _ end] => destruct x end; intros [].
Qed.

Ltac fl := repeat (first [assumption|apply Forall_cons|apply Forall_nil|apply in_R_phi|apply in_k_in|apply in_F_p|apply in_F_s|apply in_levi]).
Lemma in_rotate3 t u : inside P t -> rotate3 ev t = Ok u -> inside P u.
Proof. intros T. apply (in_contract_product ev EV). fl. Qed.
Lemma in_rotate4 t u : inside P t -> rotate4 ev t = Ok u -> inside P u.
Proof. intros T. apply (in_contract_product ev EV). fl. Qed.
Lemma in_dipole t F u : inside P t -> inside P F -> dipole_source ev t F = Ok u -> inside P u.
Proof. intros T U. apply (in_contract_product ev EV). fl. Qed.
Lemma in_magnetic t F u : inside P t -> inside P F -> magnetic_source ev (k_in ev theta) t F = Ok u -> inside P u.
Proof. intros T U. apply (in_contract_product ev EV). fl. Qed.
Lemma in_quadrupole t F u : inside P t -> inside P F -> quadrupole_source ev t (k_in ev theta) F = Ok u -> inside P u.
Proof. intros T U. apply (in_contract_product ev EV). fl. Qed.
Lemma in_scale c t : uses P c -> inside P t -> inside P (FormgenModel.tscale ev c t).
Proof. intros C T. apply in_tmap; [|exact T]. intros e U. apply (uses_mul ev EV); assumption. Qed.
Lemma in_ex t : inside P t -> inside P (tmap ex t).
Proof. apply in_tmap. exact uses_ex. Qed.

Lemma in_acc acc t u : (forall a, acc = Some a -> inside P a) -> inside P t -> acc_add ev acc t = Ok u -> inside P u.
Proof.
  intros A T E. destruct acc as [a|]; cbn [acc_add] in E.
  - apply (in_tzip P _ a t u (uses_add ev EV P)); auto.
  - injection E as <-. apply in_tmap; [|exact T]. intros e U. apply (uses_add ev EV); [apply uses_num|exact U].
Qed.
Definition both (x : tensor expr * tensor expr) : Prop := inside P (fst x) /\ inside P (snd x).
Definition maybe (x : option (tensor expr * tensor expr)) : Prop := forall a, x = Some a -> both a.
Lemma in_opt x p s y : maybe x -> inside P p -> inside P s -> opt_add ev x p s = Ok y -> both y.
Proof.
  intros X Ip Is E. unfold opt_add in E. destruct (acc_add ev (option_map fst x) p) as [p'|] eqn:Ep; [|discriminate]. cbn [bind] in E.
  destruct (acc_add ev (option_map snd x) s) as [s'|] eqn:Es; [|discriminate]. cbn [bind] in E. injection E as <-. split.
  - apply (in_acc (option_map fst x) p p'); [|exact Ip|exact Ep]. intros a Ea. destruct x as [b|]; [|discriminate]. injection Ea as <-. apply (X b eq_refl).
  - apply (in_acc (option_map snd x) s s'); [|exact Is|exact Es]. intros a Ea. destruct x as [b|]; [|discriminate]. injection Ea as <-. apply (X b eq_refl).
Qed.
Ltac st E := match type of E with context [bind ?r _] => let n := fresh "E" in destruct r as [?|] eqn:n; cbn [bind] in E; [|discriminate] end.
Lemma in_eee acc t y : maybe acc -> inside P t -> add_eee ev ex theta acc t = Ok y -> both y.
Proof.
  intros A T E. unfold add_eee in E. st E. st E. cbv zeta in E. st E. st E.
  match goal with H : rotate3 ev t = Ok ?r |- _ => pose proof (in_ex _ (in_rotate3 t r T H)) end.
  apply (in_opt _ _ _ _ A) in E; [exact E| |]; apply in_ex; (eapply in_dipole; [eassumption| |eassumption]); first [apply in_F_p|apply in_F_s].
Qed.
Lemma in_mee acc t y : maybe acc -> inside P t -> add_mee ev ex theta acc t = Ok y -> both y.
Proof.
  intros A T E. unfold add_mee in E. st E. st E. cbv zeta in E. st E. st E.
  match goal with H : rotate3 ev t = Ok ?r |- _ => pose proof (in_ex _ (in_rotate3 t r T H)) end.
  apply (in_opt _ _ _ _ A) in E; [exact E| |]; apply in_ex; (eapply in_magnetic; [eassumption| |eassumption]); first [apply in_F_p|apply in_F_s].
Qed.
Lemma in_qee acc t y : maybe acc -> inside P t -> add_qee ev ex theta acc t = Ok y -> both y.
Proof.
  intros A T E. unfold add_qee in E. st E. st E. cbv zeta in E. st E. st E.
  match goal with H : rotate4 ev t = Ok ?r |- _ => pose proof (in_ex _ (in_rotate4 t r T H)) end.
  apply (in_opt _ _ _ _ A) in E; [exact E| |]; apply in_ex, in_scale; try (solve [intros s []]); (eapply in_quadrupole; [eassumption| |eassumption]); first [apply in_F_p|apply in_F_s].
Qed.
Lemma in_when f acc t y : (forall acc t y, maybe acc -> inside P t -> f acc t = Ok y -> both y) ->
  maybe acc -> (forall u, t = Some u -> inside P u) -> when f acc t = Ok y -> maybe y.
Proof.
  intros Hf A T E. destruct t as [t|]; cbn [when] in E; [|injection E as <-; exact A].
  st E. injection E as <-. intros b Eb. injection Eb as <-. eapply Hf; eauto.
Qed.
Lemma in_project t u : inside P t -> project ev theta t = Ok u -> inside P u.
Proof.
  intros T E. unfold project in E. st E.
  assert (U : uses P a).
  { unfold dot in E0. destruct (shape (k_out ev theta)) as [|n [|? ?]] eqn:Sk; try discriminate.
    destruct (shape t) as [|m [|? ?]] eqn:St; try discriminate. destruct (n =? m) eqn:En; [|discriminate]. apply Nat.eqb_eq in En. subst m. injection E0 as <-.
    apply (uses_sumv ev EV). apply Forall_forall. intros e I. apply in_map_iff in I. destruct I as (i & <- & Ii). apply in_seq in Ii.
    apply (uses_mul ev EV); [refine (in_k_out [i] _); rewrite Sk|refine (T [i] _); rewrite St]; (constructor; [lia|constructor]). }
  apply (in_tzip P _ _ _ _ (uses_sub ev EV P)) in E; [exact E|exact T|]. apply in_scale; [exact U|exact in_k_out].
Qed.
Lemma in_gen_S te tm tq Sp Ss : (forall u, te = Some u -> inside P u) -> (forall u, tm = Some u -> inside P u) -> (forall u, tq = Some u -> inside P u) ->
  gen_S ev ex theta te tm tq = Ok (Sp, Ss) -> inside P Sp /\ inside P Ss.
Proof.
  intros He Hm Hq E. unfold gen_S in E. st E. st E. st E.
  assert (M0 : maybe None) by (intros ? ?; discriminate).
  pose proof (in_when _ _ _ _ in_eee M0 He E0) as M1. pose proof (in_when _ _ _ _ in_mee M1 Hm E1) as M2.
  pose proof (in_when _ _ _ _ in_qee M2 Hq E2) as M3.
  destruct a1 as [[p s]|]; [|discriminate]. destruct (M3 _ eq_refl) as [Bp Bs]. cbn [fst snd] in *. st E. st E. injection E as <- <-.
  split; apply in_ex; [apply (in_project p)|apply (in_project s)]; assumption.
Qed.
Lemma in_square v i e : inside P v -> square_of ev ex v i = Ok e -> uses P e.
Proof.
  intros V E. unfold square_of in E. st E. injection E as <-.
  assert (U : uses P a).
  { unfold entry_of in E0. destruct (shape v) as [|n [|? ?]] eqn:Sv; try discriminate. destruct (i <? n) eqn:L; [|discriminate]. injection E0 as <-.
    apply V. rewrite Sv. constructor; [apply Nat.ltb_lt; exact L|constructor]. }
  apply uses_ex, (uses_mul ev EV); [exact U|]. apply (uses_ev ev EV). exact U.
Qed.
Lemma in_formgen te tm tq F : (forall u, te = Some u -> inside P u) -> (forall u, tm = Some u -> inside P u) -> (forall u, tq = Some u -> inside P u) ->
  formgen ev ex theta te tm tq = Ok F -> forall s, form_occurs F s -> P s.
Proof.
  intros He Hm Hq E. unfold formgen in E. st E. destruct a as [Sp Ss]. destruct (in_gen_S _ _ _ _ _ He Hm Hq E0) as [Ip Is].
  unfold intensities in E. st E. st E. st E. st E. st E. st E. cbn in E. injection E as <-.
  intros s (k & e & I & Ie). cbn [In] in I.
  enough (U : uses P e) by exact (U s Ie). clear Ie s.
  destruct I as [I|[I|[I|[I|[]]]]]; injection I as <- <-.
  - apply (uses_add ev EV); eapply (in_square Sp); eassumption.
  - eapply (in_square Sp); eassumption.
  - apply (uses_add ev EV); eapply (in_square Ss); eassumption.
  - eapply (in_square Ss); eassumption.
Qed.
End Formgen.

(** ** fformgen *)
Lemma ok_inj {A} (a b : A) : Ok a = Ok b -> a = b.
Proof. intros E. injection E as E. exact E. Qed.
Lemma py_nth_In {A} (l : list A) i x : py_nth l i = Ok x -> In x l.
Proof.
  unfold py_nth. cbv zeta. set (j := if (i <? 0)%Z then (i + Z.of_nat (length l))%Z else i). destruct (j <? 0)%Z; [discriminate|].
  destruct (nth_error l (Z.to_nat j)) eqn:E; [|discriminate]. intros H; injection H as <-; exact (nth_error_In _ _ E).
Qed.

Section Fformgen.
Variable ev expand : expr -> expr.
Hypothesis EV : sound_ev ev.
Hypothesis EX : sound_ev expand.
Ltac st E := match type of E with context [bind ?r _] => let n := fresh "E" in destruct r as [?|] eqn:n; cbn [bind] in E; [|discriminate] end.

Section P.
Variable P : sym -> Prop.
Notation each_uses F := (Forall (all_use P) F) (only parsing).

Lemma zeros_use sh : all_use P (zeros sh).
Proof. intros i. apply uses_num. Qed.
Lemma slice_use F n M t : each_uses F -> slice F n M = Ok t -> all_use P t.
Proof. intros H E. apply py_nth_In in E. rewrite Forall_forall in H. auto. Qed.
Lemma conv_use F G H : each_uses F -> each_uses G -> conv ev F G = Ok H -> each_uses H.
Proof.
  intros HF HG E. unfold conv, convolve_ftensors in E. st E. st E. cbv zeta in E. apply ok_inj in E. subst H.
  apply Forall_forall. intros t I. apply in_map_iff in I. destruct I as (n & <- & _).
  match goal with |- context [zeros ?x] => generalize (zeros_use x); generalize (zeros x) end.
  induction (freqs 16) as [|m l IH]; intros acc Ha; cbn [fold_left]; [exact Ha|]. apply IH.
  destruct (slice F m 16) as [x|] eqn:Ex; [|exact Ha]. destruct (slice G (n - m) 16) as [y|] eqn:Ey; [|exact Ha].
  intros i. cbn [plus_eq at_]. apply (uses_add ev EV); [apply Ha|]. apply (all_outer ev EV P); [apply (slice_use F m 16 x)|apply (slice_use G (n - m)%Z 16 y)]; assumption.
Qed.
Lemma each_use M f F G : (forall t u, all_use P t -> f t = Ok u -> all_use P u) -> each_uses F -> each M f F = Ok G -> each_uses G.
Proof.
  intros Hf HF E. apply Forall_forall. intros t I. destruct (mapM_In _ _ _ _ E I) as (m & _ & Em). st Em.
  apply (Hf a); [|exact Em]. apply (slice_use F m M); assumption.
Qed.
Lemma constant_use M t : all_use P t -> each_uses (constant M t).
Proof.
  intros T. apply Forall_forall. intros u I. apply in_map_iff in I. destruct I as (m & <- & _). destruct (m =? 0)%Z; [exact T|apply zeros_use].
Qed.
Lemma matrix_use rows : Forall (Forall (uses P)) rows -> all_use P (matrix rows).
Proof.
  intros H i. cbn [matrix at_]. destruct (nth_in_or_default (nth 0 i 0) rows []) as [I| ->].
  - rewrite Forall_forall in H. specialize (H _ I). destruct (nth_in_or_default (nth 1 i 0) (nth (nth 0 i 0) rows []) (num 0)) as [J| ->]; [|apply uses_num].
    rewrite Forall_forall in H. exact (H _ J).
  - destruct (nth 1 i 0); apply uses_num.
Qed.
Lemma rotation_use M F : rotation M = Ok F -> each_uses F.
Proof.
  intros E. unfold rotation in E. destruct (M =? 0); [discriminate|]. apply ok_inj in E. subst F.
  apply Forall_forall. intros t I. apply in_map_iff in I. destruct I as (m & <- & _).
  destruct (m =? -1)%Z; [|destruct (m =? 0)%Z; [|destruct (m =? 1)%Z; [|apply zeros_use]]];
    (apply matrix_use; repeat (first [apply Forall_nil|apply Forall_cons|intros ? []])).
Qed.
Lemma contract_use pr t u : all_use P t -> tensor_contract (H := Sig_ev ev) t pr = Ok u -> all_use P u.
Proof. apply (all_contract ev EV P). Qed.
Lemma scale_use c F : uses P c -> each_uses F -> each_uses (fscale ev c F).
Proof.
  intros C HF. apply Forall_forall. intros t I. apply in_map_iff in I. destruct I as (u & <- & I). rewrite Forall_forall in HF.
  intros i. cbn [FormgenModel.tscale tmap at_]. apply (uses_mul ev EV); [exact C|apply (HF u I)].
Qed.
Lemma terms_use M rR rF rk r1 t1 t2 t3 t4 : each_uses rR -> each_uses rF -> each_uses rk -> each_uses r1 ->
  uncontracted_terms ev M rR rF rk r1 = Ok (t1, t2, t3, t4) -> each_uses t1 /\ each_uses t2 /\ each_uses t3 /\ each_uses t4.
Proof.
  intros HR HF HK H1 E. unfold uncontracted_terms in E. do 13 st E. injection E as <- <- <- <-.
  pose proof (each_use _ _ _ _ (contract_use _) H1 E0). pose proof (conv_use _ _ _ H H E1).
  pose proof (each_use _ _ _ _ (contract_use _) H0 E2). pose proof (conv_use _ _ _ HR HF E3).
  pose proof (each_use _ _ _ _ (contract_use _) H3 E4). pose proof (conv_use _ _ _ H2 H4 E5).
  pose proof (conv_use _ _ _ H5 H4 E6). pose proof (conv_use _ _ _ H6 H4 E7). pose proof (conv_use _ _ _ H7 H4 E8).
  assert (K : each_uses (fscale ev (ENum 0 (-1)) rk)) by (apply scale_use; [intros s []|exact HK]).
  pose proof (conv_use _ _ _ HR K E9). pose proof (each_use _ _ _ _ (contract_use _) H9 E10).
  pose proof (conv_use _ _ _ H8 H10 E11).
  assert (K' : each_uses (fscale ev (num (-1)) a9)) by (apply scale_use; [intros s []|assumption]).
  pose proof (conv_use _ _ _ H11 K' E12). repeat split; try assumption. apply scale_use; [intros s []|assumption].
Qed.
End P.

(** The stored arrays: Fx, Fy and Fz are gone. *)
Definition beam (s : sym) : Prop := s = Fx \/ s = Fy \/ s = Fz.
Lemma substitute_use (A : sym -> Prop) c s F : uses A c -> uses A s -> (forall x, A x -> ~ beam x) ->
  Forall (all_use (fun x => A x \/ beam x)) F -> Forall (all_use A) (substitute ev [(Fx, c); (Fy, num 0); (Fz, s)] F) /\
  Forall (all_use A) (substitute ev [(Fx, num 0); (Fy, num (-1)); (Fz, num 0)] F).
Proof.
  intros C S N H.
  assert (G : forall x y z, uses A x -> uses A y -> uses A z -> Forall (all_use A) (substitute ev [(Fx, x); (Fy, y); (Fz, z)] F)).
  { intros x y z X Y Z. apply Forall_forall. intros t I. apply in_map_iff in I. destruct I as (u & <- & I). rewrite Forall_forall in H.
    intros i u0 I0. cbn [tmap at_] in I0. unfold subs_seq in I0. cbn [fold_left fst snd] in I0.
    apply (proj2 EV), syms_subst in I0. destruct I0 as [[I0 N1]|[_ I0]]; [|exact (Z _ I0)].
    apply (proj2 EV), syms_subst in I0. destruct I0 as [[I0 N2]|[_ I0]]; [|exact (Y _ I0)].
    apply (proj2 EV), syms_subst in I0. destruct I0 as [[I0 N3]|[_ I0]]; [|exact (X _ I0)].
    destruct (H u I i u0 I0) as [Hu|[->|[->| ->]]]; [exact Hu|congruence|congruence|congruence]. }
  split; apply G; auto; apply uses_num.
Qed.

Lemma generate_use (A : sym -> Prop) kout kin c s prefix M fs fs' : all_use A kout -> all_use A kin -> uses A c -> uses A s -> (forall x, A x -> ~ beam x) ->
  generate ev kout kin c s prefix M fs = Ok fs' ->
  forall pc ts, In pc ["pp"; "ps"; "sp"; "ss"]%string -> dget (npy prefix pc) fs' = Some ts -> Forall (Forall (all_use A)) ts.
Proof.
  intros Ko Ki C S N E. unfold generate in E. set (B := fun x => A x \/ beam x).
  assert (AB : forall x, A x -> B x) by (intros; left; assumption).
  st E. st E. st E. st E. cbv zeta in E. st E. st E. st E. destruct a5 as [[[p1 p2] p3] p4]. st E. destruct a5 as [[[s1 s2] s3] s4].
  assert (HR : Forall (all_use B) a) by (apply (rotation_use B M); exact E0).
  assert (Pr : forall i, all_use B (proj_row ev kout i)).
  { intros i j. cbn [proj_row at_]. apply (uses_sub ev EV); [apply uses_num|]. apply (all_outer ev EV B); apply (all_weaken A B); assumption. }
  pose proof (conv_use B _ _ _ (constant_use B M _ (Pr 0)) HR E1) as Hx.
  pose proof (conv_use B _ _ _ (constant_use B M _ (Pr 1)) HR E2) as Hy.
  pose proof (conv_use B _ _ _ (constant_use B M _ (Pr 2)) HR E3) as Hz.
  assert (H0 : Forall (all_use B) (map (fun t : tensor expr => zeros (shape t)) a0)).
  { apply Forall_forall. intros t I. apply in_map_iff in I. destruct I as (u & <- & _). apply zeros_use. }
  assert (St : forall x y z, all_use B x -> all_use B y -> all_use B z -> all_use B (stack3 x y z)).
  { intros x y z X Y Z [|[|[|j]] i]; cbn [stack3 at_]; auto. apply uses_num. }
  assert (Hs : Forall (all_use B) a3).
  { apply Forall_forall. intros t I. destruct (mapM_In _ _ _ _ E4 I) as (m & _ & Em). st Em. st Em. injection Em as <-.
    apply St; (match goal with H : slice _ _ _ = Ok ?u |- all_use B ?u => eapply (slice_use B); [|exact H]; assumption end). }
  assert (Hp : Forall (all_use B) a4).
  { apply Forall_forall. intros t I. destruct (mapM_In _ _ _ _ E5 I) as (m & _ & Em). st Em. st Em. st Em. injection Em as <-.
    apply St; (match goal with H : slice _ _ _ = Ok ?u |- all_use B ?u => eapply (slice_use B); [|exact H]; assumption end). }
  assert (HF : Forall (all_use B) (constant M (vector (ESym Fx) (ESym Fy) (ESym Fz)))).
  { apply constant_use, all_vector; intros x [<-|[]]; unfold B, beam; auto. }
  assert (HK : Forall (all_use B) (constant M kin)) by (apply constant_use, (all_weaken A B); assumption).
  destruct (terms_use B M _ _ _ _ _ _ _ _ HR HF HK Hp E6) as (P1 & P2 & P3 & P4).
  destruct (terms_use B M _ _ _ _ _ _ _ _ HR HF HK Hs E7) as (S1 & S2 & S3 & S4).
  apply ok_inj in E. subst fs'.
  intros pc ts Ip D.
  destruct (substitute_use A c s p1 C S N P1), (substitute_use A c s p2 C S N P2), (substitute_use A c s p3 C S N P3), (substitute_use A c s p4 C S N P4).
  destruct (substitute_use A c s s1 C S N S1), (substitute_use A c s s2 C S N S2), (substitute_use A c s s3 C S N S3), (substitute_use A c s s4 C S N S4).
  assert (Q : forall t1 t2 t3 t4, Forall (all_use A) t1 -> Forall (all_use A) t2 -> Forall (all_use A) t3 -> Forall (all_use A) t4 ->
    Some [t1; t2; t3; t4] = Some ts -> Forall (Forall (all_use A)) ts).
  { intros t1 t2 t3 t4 ? ? ? ? Q. assert (Q' : [t1; t2; t3; t4] = ts) by congruence. subst ts. repeat (apply Forall_cons; [assumption|]). apply Forall_nil. }
  destruct Ip as [<-|[<-|[<-|[<-|[]]]]].
  - rewrite !dget_dset_neq in D by (intros X; apply npy_inj in X; discriminate). rewrite dget_dset_eq in D. revert D. apply Q; assumption.
  - rewrite !dget_dset_neq in D by (intros X; apply npy_inj in X; discriminate). rewrite dget_dset_eq in D. revert D. apply Q; assumption.
  - rewrite !dget_dset_neq in D by (intros X; apply npy_inj in X; discriminate). rewrite dget_dset_eq in D. revert D. apply Q; assumption.
  - rewrite dget_dset_eq in D. revert D. apply Q; assumption.
Qed.
End Fformgen.
