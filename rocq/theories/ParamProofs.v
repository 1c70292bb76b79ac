(** Symbols of generated formulas. *)
From Coq Require Import String List Arith ZArith QArith Bool Lia.
Import ListNotations.
From Verif Require Import PyBase Expr ExprProofs DataModel FormModel SpecForm FormProofs3 TensorModel SpecTensor TensorInst TensorProofs UtilModel
  FormgenModel FformgenModel SpecParam.
Local Open Scope nat_scope.

Definition uses (P : sym -> Prop) (e : expr) : Prop := forall s, In s (syms e) -> P s.
Definition all_use (P : sym -> Prop) (t : tensor expr) : Prop := forall i, uses P (at_ t i).
Definition inside (P : sym -> Prop) (t : tensor expr) : Prop := forall i, fits (shape t) i -> uses P (at_ t i).

Lemma all_inside P t : all_use P t -> inside P t.
Proof. intros H i _. apply H. Qed.
Lemma uses_weaken (P Q : sym -> Prop) e : (forall s, P s -> Q s) -> uses P e -> uses Q e.
Proof. intros H U s I. apply H, U, I. Qed.
Lemma all_weaken (P Q : sym -> Prop) t : (forall s, P s -> Q s) -> all_use P t -> all_use Q t.
Proof. intros H U i. apply (uses_weaken P Q); auto. Qed.
Lemma uses_num P q : uses P (num q).
Proof. intros s []. Qed.

Lemma fits_ins sh p q v o : p < length sh -> q < length sh -> p <> q -> v < min (nth p sh 0) (nth q sh 0) ->
  fits (del (min p q) (del (max p q) sh)) o -> fits sh (ins (max p q) v (ins (min p q) v o)).
Proof.
  intros Lp Lq D V F. pose proof (fits_length _ _ F) as Lo.
  set (lo := min p q) in *. set (hi := max p q) in *.
  assert (Hl : lo < hi) by (unfold lo, hi; lia). assert (Hh : hi < length sh) by (unfold hi; lia).
  rewrite del_length in Lo by (rewrite del_length; lia). rewrite del_length in Lo by lia.
  assert (Vl : v < nth lo sh 0 /\ v < nth hi sh 0).
  { unfold lo, hi. destruct (Nat.lt_ge_cases p q); [rewrite Nat.min_l, Nat.max_r by lia|rewrite Nat.min_r, Nat.max_l by lia]; lia. }
  assert (G : forall sh' p' v' o', p' < length sh' -> v' < nth p' sh' 0 -> fits (del p' sh') o' -> fits sh' (ins p' v' o')).
  { clear. induction sh' as [|d sh' IH]; intros p' v' o' L Vn Fo; [cbn in L; lia|].
    destruct p' as [|p'].
    - cbn in *. constructor; auto.
    - unfold del in Fo. cbn [firstn skipn app] in Fo. inversion Fo as [|x ? o2 ? Hx Ho]; subst.
      unfold ins. cbn [firstn skipn app]. constructor; [exact Hx|]. apply (IH p' v' o2); [cbn in L; lia|exact Vn|exact Ho]. }
  apply G; [exact Hh|tauto|]. apply G; [rewrite del_length; lia|rewrite nth_del_lt by exact Hl; tauto|exact F].
Qed.

Section S.
Variable ev : expr -> expr.
Hypothesis EV : sound_ev ev.
Local Instance Sg : Sig expr := Sig_ev ev.
Variable P : sym -> Prop.

Lemma uses_ev e : uses P e -> uses P (ev e).
Proof. intros U s I. apply U, (proj2 EV), I. Qed.
Lemma uses_list l : Forall (uses P) l -> forall s, In s (flat_map syms l) -> P s.
Proof. intros F s I. apply in_flat_map in I. destruct I as (e & Ie & Is). rewrite Forall_forall in F. exact (F e Ie s Is). Qed.
Lemma uses_add a b : uses P a -> uses P b -> uses P (ev (EAdd [a; b])).
Proof. intros A B. apply uses_ev. intros s I. apply (uses_list [a; b]); [repeat (constructor; auto)|exact I]. Qed.
Lemma uses_mul a b : uses P a -> uses P b -> uses P (ev (EMul [a; b])).
Proof. intros A B. apply uses_ev. intros s I. apply (uses_list [a; b]); [repeat (constructor; auto)|exact I]. Qed.
Lemma uses_sub a b : uses P a -> uses P b -> uses P (subt ev a b).
Proof. intros A B. apply uses_ev. intros s I. cbn [syms flat_map num] in I. rewrite !app_nil_r in I. apply in_app_or in I. destruct I; auto. Qed.
Lemma uses_neg a : uses P a -> uses P (nega ev a).
Proof. intros A. apply uses_mul; [apply uses_num|exact A]. Qed.
Lemma uses_sumv l : Forall (uses P) l -> uses P (sumv l).
Proof. induction 1; [apply uses_num|]. cbn [sumv fold_right]. apply uses_add; assumption. Qed.

(** *** Everywhere *)
Lemma all_outer t u : all_use P t -> all_use P u -> all_use P (outer t u).
Proof. intros T U i. cbn [outer at_]. apply uses_mul; auto. Qed.
Lemma all_trace t p q u : all_use P t -> trace t p q = Ok u -> all_use P u.
Proof.
  intros T E. unfold trace in E. destruct (_ && _); [|discriminate]. injection E as <-. intros i. cbn [at_]. apply uses_sumv.
  apply Forall_forall. intros e I. apply in_map_iff in I. destruct I as (v & <- & _). apply T.
Qed.
Lemma all_loop pairs : forall t idx u, all_use P t -> contract_loop t idx pairs = Ok u -> all_use P u.
Proof.
  induction pairs as [|pr pairs IH]; intros t idx u T E; cbn [contract_loop] in E; [injection E as <-; exact T|].
  destruct (mapM (fun x => list_index x idx) pr) as [[|p [|q l]]|]; cbn [bind] in E; try discriminate.
  destruct (trace t p q) as [t'|] eqn:Et; cbn [bind] in E; [|discriminate].
  destruct (fold_left _ pr (Ok idx)) as [idx'|]; cbn [bind] in E; [|discriminate].
  apply (IH t' idx' u); [apply (all_trace t p q); assumption|exact E].
Qed.
Lemma all_contract t pairs u : all_use P t -> tensor_contract t pairs = Ok u -> all_use P u.
Proof. apply all_loop. Qed.

(** *** Inside the shape *)
Lemma in_outer t u : inside P t -> inside P u -> inside P (outer t u).
Proof. intros T U i F. cbn [outer at_ shape] in *. apply fits_app in F. destruct F. apply uses_mul; [apply T|apply U]; assumption. Qed.
Lemma in_product ts : forall u, Forall (inside P) ts -> tensor_product ts = Ok u -> inside P u.
Proof.
  induction ts as [|t ts IH]; intros u F E; [discriminate|]. inversion F as [|? ? Ft Fs]; subst. cbn [tensor_product] in E.
  destruct ts as [|t2 [|t3 ts]].
  - cbn [tensor_product bind] in E. discriminate.
  - injection E as <-. inversion Fs; subst. apply in_outer; assumption.
  - destruct (tensor_product (t2 :: t3 :: ts)) as [r|] eqn:Er; [|discriminate]. cbn [bind] in E. injection E as <-.
    apply in_outer; [exact Ft|]. apply IH; [exact Fs|reflexivity].
Qed.
Lemma in_trace t p q u : inside P t -> trace t p q = Ok u -> inside P u.
Proof.
  intros T E. unfold trace, rank in E. destruct (_ && _) eqn:B; [|discriminate]. injection E as <-.
  apply andb_prop in B as [B B3]. apply andb_prop in B as [B1 B2]. apply Nat.ltb_lt in B1, B2. apply negb_true_iff, Nat.eqb_neq in B3.
  intros i F. cbn [at_ shape] in *. apply uses_sumv.
  apply Forall_forall. intros e I. apply in_map_iff in I. destruct I as (v & <- & Iv). apply in_seq in Iv. apply T.
  apply fits_ins; auto; lia.
Qed.
Lemma in_loop pairs : forall t idx u, inside P t -> contract_loop t idx pairs = Ok u -> inside P u.
Proof.
  induction pairs as [|pr pairs IH]; intros t idx u T E; cbn [contract_loop] in E; [injection E as <-; exact T|].
  destruct (mapM (fun x => list_index x idx) pr) as [[|p [|q l]]|]; cbn [bind] in E; try discriminate.
  destruct (trace t p q) as [t'|] eqn:Et; cbn [bind] in E; [|discriminate].
  destruct (fold_left _ pr (Ok idx)) as [idx'|]; cbn [bind] in E; [|discriminate].
  apply (IH t' idx' u); [apply (in_trace t p q); assumption|exact E].
Qed.
Lemma in_contract t pairs u : inside P t -> tensor_contract t pairs = Ok u -> inside P u.
Proof. apply in_loop. Qed.
Lemma in_contract_product ts pairs u : Forall (inside P) ts -> contract_product ev ts pairs = Ok u -> inside P u.
Proof.
  intros F E. unfold contract_product in E. destruct (tensor_product ts) as [p|] eqn:Ep; [|discriminate]. cbn [bind] in E.
  apply (in_contract p pairs); [apply (in_product ts); assumption|exact E].
Qed.
Lemma in_tmap f t : (forall e, uses P e -> uses P (f e)) -> inside P t -> inside P (tmap f t).
Proof. intros H T i F. cbn [tmap at_ shape] in *. apply H, T, F. Qed.
Lemma in_tzip f t u v : (forall a b, uses P a -> uses P b -> uses P (f a b)) -> inside P t -> inside P u -> tzip f t u = Ok v -> inside P v.
Proof.
  intros H T U E. unfold tzip, shape_eqb in E. destruct (list_eq_dec Nat.eq_dec (shape t) (shape u)) as [Es|]; [|discriminate].
  injection E as <-. intros i F. cbn [at_ shape] in *. apply H; [apply T, F|apply U]. rewrite <- Es. exact F.
Qed.
Lemma all_vector a b c : uses P a -> uses P b -> uses P c -> all_use P (FormgenModel.vector a b c).
Proof. intros A B D i. cbn [FormgenModel.vector at_]. destruct (nth 0 i 0) as [|[|[|n]]]; cbn [nth]; auto. destruct n; apply uses_num. Qed.
End S.
