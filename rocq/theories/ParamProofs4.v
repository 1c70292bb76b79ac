(** Parameters of tables after [make_tensor_real] and [make_tensor_complex], and of
    the whole chain. *)
From Coq Require Import String List Arith ZArith QArith Bool Lia Permutation.
Import ListNotations.
From Verif Require Import PyBase Expr ExprProofs DataModel FormModel SpecForm FormProofs3 TensorModel SpecTensor TensorInst TensorProofs UtilModel SpecUtil
  SpecFormgen FormgenModel FformgenModel FformgenOrder RoundProofs FormgenProofs3 FormgenTables SpecPhys PhysThms ParamModel SpecParam ParamProofs ParamProofs2 ParamProofs3.
From Verif Require Import SpecTensor TensorModel.
Local Open Scope nat_scope.
Local Open Scope list_scope.

(** *** Tables *)
Lemma replace_reaches order new e s0 s : iterates order -> (forall n z, In z (syms (new n)) -> sreal z = Some true) ->
  In s0 (syms e) -> sreal s0 = None -> In s (syms (new (sname s0))) -> In s (syms (replace_params order new e)).
Proof.
  intros Ho Nr I0 N0 Is. unfold replace_params.
  assert (Il : In s0 (order (free_symbols e))).
  { eapply Permutation_in; [apply Permutation_sym, Ho|]. apply in_free_symbols. exact I0. }
  revert Il. generalize (order (free_symbols e)) as l. revert I0. generalize e as e'. clear e.
  assert (Stay : forall l e', In s (syms e') -> In s (syms (fold_left (fun e fs => match sreal fs with
      | None => subst (mksym (sname fs) None) (new (sname fs)) e
      | Some _ => e end) l e'))).
  { induction l as [|y l IH]; intros e' I; cbn [fold_left]; [exact I|]. apply IH. destruct (sreal y) eqn:Ry; [exact I|].
    apply syms_subst. left. split; [exact I|]. intros ->. apply Nr in Is. discriminate. }
  intros e' I0 l. revert e' I0. induction l as [|y l IH]; intros e' I0 Il; [destruct Il|]. cbn [fold_left].
  destruct (sym_eqb_spec s0 y) as [<-|Ne].
  - apply Stay. rewrite N0. destruct s0 as [n0 r0]. cbn [sreal sname] in *. subst r0. apply syms_subst. right. auto.
  - destruct Il as [->|Il]; [congruence|]. apply IH; [|exact Il].
    destruct (sreal y) eqn:Ry; [exact I0|]. apply syms_subst. left. split; [exact I0|]. destruct y as [n r]. cbn [sreal sname] in *. subst r. exact Ne.
Qed.

Lemma real_mentions order t n s : iterates order -> plain t -> shape t = repeat 3 n ->
  (mentions (real_tensor order t) s <-> exists s0, mentions t s0 /\ s = map_to_real s0).
Proof.
  intros Ho P S. split.
  - intros (i & Fi & Is). assert (R : real_params (Some (real_tensor order t))) by (apply assert_ok, real_params_real; assumption).
    assert (Rs : sreal s = Some true) by (apply (R i s); [apply in_indices; exact Fi|exact Is]).
    cbn [real_tensor tmap at_ shape] in Is, Fi. destruct (replace_from order _ _ s Ho Is) as [J|(x & Ix & Nx & J)].
    + rewrite (proj1 (P i s J)) in Rs. discriminate.
    + exists x. split; [exists i; auto|]. cbn in J. destruct J as [<-|[]]. reflexivity.
  - intros (s0 & (i & Fi & I0) & ->). exists i. split; [exact Fi|]. cbn [real_tensor tmap at_].
    apply (replace_reaches order _ _ s0); [exact Ho| |exact I0|exact (proj1 (P i s0 I0))|left; reflexivity].
    intros m z [<-|[]]. reflexivity.
Qed.

Lemma complex_mentions order t n s : iterates order -> plain t -> shape t = repeat 3 n ->
  (mentions (complex_tensor order t) s <->
   exists s0, mentions t s0 /\ (s = mksym ("real_" ++ sname s0 ++ "") (Some true) \/ s = mksym ("imag_" ++ sname s0 ++ "") (Some true))%string).
Proof.
  intros Ho P S. split.
  - intros (i & Fi & Is). pose proof (complex_params_real order t Ho P) as A. apply assert_ok in A.
    assert (Rs : sreal s = Some true) by (apply (A i s); [apply in_indices; exact Fi|exact Is]).
    cbn [complex_tensor tmap at_ shape] in Is, Fi. destruct (replace_from order _ _ s Ho Is) as [J|(x & Ix & Nx & J)].
    + rewrite (proj1 (P i s J)) in Rs. discriminate.
    + exists x. split; [exists i; auto|]. cbn in J. destruct J as [<-|[<-|[]]]; auto.
  - intros (s0 & (i & Fi & I0) & E). exists i. split; [exact Fi|]. cbn [complex_tensor tmap at_].
    apply (replace_reaches order _ _ s0); [exact Ho| |exact I0|exact (proj1 (P i s0 I0))|].
    + intros m z. cbn. intros [<-|[<-|[]]]; reflexivity.
    + cbn. destruct E as [-> | ->]; auto.
Qed.

(** *** The chain *)
Lemma mentions_inside t : inside (mentions t) t.
Proof. intros i Fi s I. exists i. auto. Qed.
Lemma inside_weaken (P Q : sym -> Prop) t : (forall s, P s -> Q s) -> inside P t -> inside Q t.
Proof. intros H U i Fi. apply (uses_weaken P Q); [exact H|apply U; exact Fi]. Qed.
Lemma deep_weaken (P Q : sym -> Prop) ts : (forall s, P s -> Q s) -> Forall (Forall (all_use P)) ts -> Forall (Forall (inside Q)) ts.
Proof.
  intros H U. apply Forall_forall. intros l Il. rewrite Forall_forall in U. specialize (U l Il). apply Forall_forall. intros t It.
  rewrite Forall_forall in U. apply all_inside, (all_weaken P Q); auto.
Qed.

Section Chain.
Variable ev expand : expr -> expr.
Hypothesis EV : sound_ev ev.
Hypothesis EX : sound_ev expand.

Lemma k_num aoi : all_use (fun _ => False) (tmap (subs_seq ev [(theta_sym, num aoi)]) (k_out_symb ev)) /\
  all_use (fun _ => False) (tmap (subs_seq ev [(theta_sym, num aoi)]) (k_in_symb ev)).
Proof.
  assert (G : forall t, all_use (fun s => s = theta_sym) t -> all_use (fun _ => False) (tmap (subs_seq ev [(theta_sym, num aoi)]) t)).
  { intros t H i s I. cbn [tmap at_] in I. unfold subs_seq in I. cbn [fold_left fst snd] in I. apply (proj2 EV), syms_subst in I.
    destruct I as [[I N]|[_ []]]. apply N, (H i s I). }
  assert (T : uses (fun s => s = theta_sym) (ESym theta_sym)) by (intros s [<-|[]]; reflexivity).
  assert (Sn : uses (fun s => s = theta_sym) (nega ev (sine ev (ESym theta_sym)))) by (apply (uses_neg ev EV), (uses_ev ev EV); exact T).
  assert (Cn : uses (fun s => s = theta_sym) (cosine ev (ESym theta_sym))) by (apply (uses_ev ev EV); exact T).
  split; apply G; apply all_vector; try apply uses_num; try assumption. apply (uses_neg ev EV). exact Cn.
Qed.
Lemma k_symb : all_use (fun s => s = theta_sym) (k_out_symb ev) /\ all_use (fun s => s = theta_sym) (k_in_symb ev).
Proof.
  assert (T : uses (fun s => s = theta_sym) (ESym theta_sym)) by (intros s [<-|[]]; reflexivity).
  assert (Sn : uses (fun s => s = theta_sym) (nega ev (sine ev (ESym theta_sym)))) by (apply (uses_neg ev EV), (uses_ev ev EV); exact T).
  assert (Cn : uses (fun s => s = theta_sym) (cosine ev (ESym theta_sym))) by (apply (uses_ev ev EV); exact T).
  split; apply all_vector; try apply uses_num; try assumption. apply (uses_neg ev EV). exact Cn.
Qed.

Lemma stored_num aoi prefix M fs fs' : generate_uncontracted_fourier_transforms ev aoi prefix M fs = Ok fs' ->
  forall pc ts, In pc ["pp"; "ps"; "sp"; "ss"]%string -> dget (npy prefix pc) fs' = Some ts -> Forall (Forall (all_use (fun _ => False))) ts.
Proof.
  intros E. destruct (k_num aoi) as [Ko Ki]. refine (generate_use ev EV (fun _ => False) _ _ _ _ prefix M fs fs' Ko Ki _ _ _ E); [| |tauto].
  - apply (uses_ev ev EV). intros s [].
  - apply (uses_ev ev EV). intros s [].
Qed.
Lemma stored_symb prefix M fs fs' : generate_uncontracted_fourier_transforms_symb ev prefix M fs = Ok fs' ->
  forall pc ts, In pc ["pp"; "ps"; "sp"; "ss"]%string -> dget (npy prefix pc) fs' = Some ts -> Forall (Forall (all_use (fun s => s = theta_sym))) ts.
Proof.
  intros E. destruct k_symb as [Ko Ki]. refine (generate_use ev EV (fun s => s = theta_sym) _ _ _ _ prefix M fs fs' Ko Ki _ _ _ E).
  - apply (uses_ev ev EV). intros s [<-|[]]. reflexivity.
  - apply (uses_ev ev EV). intros s [<-|[]]. reflexivity.
  - intros x ->. intros [X|[X|X]]; discriminate.
Qed.

Lemma dict_symbols (T : sym -> Prop) prefix fs d q M nd D :
  (forall pc ts, In pc ["pp"; "ps"; "sp"; "ss"]%string -> dget (npy prefix pc) fs = Some ts -> Forall (Forall (all_use T)) ts) ->
  contracted_dict ev expand prefix fs d q M nd = Ok D ->
  forall k es e s, In (k, es) D -> In e es -> In s (syms e) -> mentions d s \/ mentions q s \/ T s.
Proof.
  intros H E k es e s I Ie Is.
  assert (U : Forall (uses (fun s => mentions d s \/ mentions q s \/ T s)) es).
  { apply (contracted_uses ev expand EV EX _ prefix fs d q M nd D) with (k := k); [| | |exact E|exact I].
    - apply (inside_weaken (mentions d)); [tauto|apply mentions_inside].
    - apply (inside_weaken (mentions q)); [tauto|apply mentions_inside].
    - intros pc ts Ip G. apply (deep_weaken T); [tauto|]. exact (H pc ts Ip G). }
  rewrite Forall_forall in U. exact (U e Ie s Is).
Qed.

Lemma dict_keys prefix fs d q M nd D : contracted_dict ev expand prefix fs d q M nd = Ok D -> dkeys D = pcs.
Proof.
  intros E. unfold contracted_dict in E.
  destruct (assert_real_params d) as [[]|]; [|discriminate]. cbn [bind] in E. destruct (assert_real_params q) as [[]|]; [|discriminate]. cbn [bind] in E.
  destruct (mapM (fun pc => do t <- load_npy fs (npy prefix (lower pc)); Ok (pc, t)) pcs) as [ts|] eqn:Et; [|discriminate]. cbn [bind] in E. cbv zeta in E.
  assert (G : forall A B C (f : A -> res (B * C)) (g : A -> B) l l', (forall a b c, f a = Ok (b, c) -> b = g a) -> mapM f l = Ok l' -> map fst l' = map g l).
  { intros A B C f g. induction l as [|a l IH]; intros l' Hf El; cbn [mapM] in El; [apply ok_inj in El; subst; reflexivity|].
    destruct (f a) as [[b c]|] eqn:Ef; [|discriminate]. cbn [bind] in El. destruct (mapM f l) as [l2|] eqn:E2; [|discriminate]. cbn [bind] in El.
    apply ok_inj in El. subst l'. cbn [map fst]. rewrite (Hf a b c Ef), (IH l2); auto. }
  unfold dkeys.
  assert (E2 : map fst D = map fst ts).
  { eapply (G _ _ _ _ fst); [|exact E]. intros a b c Ea. cbv beta in Ea. match type of Ea with context [bind ?r _] => destruct r; [|discriminate] end. cbn [bind] in Ea. congruence. }
  assert (E3 : map fst ts = map (fun pc => pc) pcs).
  { eapply (G _ _ _ _ (fun pc => pc)); [|exact Et]. intros a b c Ea. cbv beta in Ea. match type of Ea with context [bind ?r _] => destruct r; [|discriminate] end. cbn [bind] in Ea. congruence. }
  rewrite E2, E3. apply map_id.
Qed.

Lemma loaded_symbolic srepr parse prefix fs d q M nd file F : (forall e, parse (srepr e) = Ok e) ->
  generate_contracted_fourier_transforms ev expand srepr prefix fs d q M nd = Ok file -> load_fform parse file = Ok F -> symbolic F.
Proof.
  intros Pa E L. unfold generate_contracted_fourier_transforms in E.
  destruct (contracted_dict ev expand prefix fs d q M nd) as [D|] eqn:ED; [|discriminate]. cbn [bind] in E. apply ok_inj in E. subst file.
  apply (loaded_inv srepr parse D F Pa) in L.
  - subst F. intros k r I. cbn [ff_rows] in I. unfold dmap in I. apply in_map_iff in I. destruct I as ((k', es) & Ek & I). cbn [fst snd] in Ek.
    assert (r = mkrow true es) by congruence. subst r. reflexivity.
  - unfold wf_dict. rewrite (dict_keys _ _ _ _ _ _ _ ED). cbn. repeat constructor; cbn; intuition discriminate.
Qed.

Lemma loaded_symbols (T : sym -> Prop) srepr parse prefix fs d q M nd file F : (forall e, parse (srepr e) = Ok e) ->
  (forall pc ts, In pc ["pp"; "ps"; "sp"; "ss"]%string -> dget (npy prefix pc) fs = Some ts -> Forall (Forall (all_use T)) ts) ->
  generate_contracted_fourier_transforms ev expand srepr prefix fs d q M nd = Ok file -> load_fform parse file = Ok F ->
  forall s, ff_occurs F s -> mentions d s \/ mentions q s \/ T s.
Proof.
  intros Pa H E L s (k & r & e & I & Ie & Is). unfold generate_contracted_fourier_transforms in E.
  destruct (contracted_dict ev expand prefix fs d q M nd) as [D|] eqn:ED; [|discriminate]. cbn [bind] in E. apply ok_inj in E. subst file.
  apply (loaded_inv srepr parse D F Pa) in L.
  - subst F. cbn [ff_rows] in I. unfold dmap in I. apply in_map_iff in I. destruct I as ((k', es) & Ek & I). cbn [fst snd] in Ek.
    assert (r = mkrow true es) by congruence. subst r. cbn [r_cells] in Ie. exact (dict_symbols T prefix fs d q M nd D H ED k' es e s I Ie Is).
  - unfold wf_dict. rewrite (dict_keys _ _ _ _ _ _ _ ED). cbn. repeat constructor; cbn; intuition discriminate.
Qed.
End Chain.
