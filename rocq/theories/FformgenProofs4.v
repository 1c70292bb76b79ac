(** The two generators of uncontracted transforms, and the contraction. *)
From Coq Require Import String List Arith ZArith Bool Lia Reals QArith Qreals Lra.
From Coquelicot Require Import Complex.
Import ListNotations.
From Verif Require Import PyBase CBase Expr ExprProofs FormModel SpecForm TensorInst UtilModel FformgenModel SpecFormgen SpecFformgen
  FormgenProofs FormgenProofs2 FormgenProofs3 FformgenProofs FformgenProofs2 FformgenProofs3 FformgenAlg.
From Verif Require Import SpecTensor TensorModel.
Local Open Scope nat_scope.

(** Assignments that differ at most on the three field symbols *)
Definition field_sym (s : sym) : Prop := s = Fx \/ s = Fy \/ s = Fz.
Definition off_field (rho rho' : sym -> C) : Prop := respects rho' /\ forall s, ~ field_sym s -> rho' s = rho s.

Lemma upd_respects rho x v : sreal x = None -> respects rho -> respects (upd rho x v).
Proof. intros N R s S. unfold upd. destruct (sym_eqb_spec s x) as [->|]; [congruence|]. apply R, S. Qed.

Section Gen.
Variable ev : expr -> expr.
Hypothesis EV : sound_ev ev.
Variable rho : sym -> C.
Hypothesis RS : respects rho.

(** Substitution and the assignment it amounts to *)
Definition filled (a b c : C) : sym -> C := upd (upd (upd rho Fz c) Fy b) Fx a.
Lemma filled_off a b c : off_field rho (filled a b c).
Proof.
  split; [repeat apply upd_respects; auto|]. intros s H. unfold filled, upd.
  destruct (sym_eqb_spec s Fx) as [->|]; [exfalso; apply H; left; auto|].
  destruct (sym_eqb_spec s Fy) as [->|]; [exfalso; apply H; right; left; auto|].
  destruct (sym_eqb_spec s Fz) as [->|]; [exfalso; apply H; right; right; auto|]. reflexivity.
Qed.

(** An expression whose value does not depend on the field symbols *)
Definition fixed (e : expr) (v : C) : Prop := forall rho', off_field rho rho' -> eval rho' e = v.

Lemma subs_filled a b c va vb vc e : fixed a va -> fixed b vb -> fixed c vc ->
  eval rho (subs_seq ev [(Fx, a); (Fy, b); (Fz, c)] e) = eval (filled va vb vc) e.
Proof.
  intros A B D. unfold subs_seq. cbn [fold_left fst snd]. rewrite (proj1 EV) by auto. rewrite eval_subst, (D rho).
  2:{ split; auto. }
  assert (R1 : respects (upd rho Fz vc)) by (apply upd_respects; auto).
  rewrite (proj1 EV) by exact R1. rewrite eval_subst, (B (upd rho Fz vc)).
  2:{ split; auto. intros s H. unfold upd. destruct (sym_eqb_spec s Fz) as [->|]; auto. exfalso; apply H; right; right; auto. }
  assert (R2 : respects (upd (upd rho Fz vc) Fy vb)) by (apply upd_respects; auto).
  rewrite (proj1 EV) by exact R2. rewrite eval_subst, A. reflexivity.
  split; auto. intros s H. unfold upd. destruct (sym_eqb_spec s Fy) as [->|]; [exfalso; apply H; right; left; auto|].
  destruct (sym_eqb_spec s Fz) as [->|]; auto. exfalso; apply H; right; right; auto.
Qed.

Lemma substitute_carries a b c va vb vc M bd sh F v : fixed a va -> fixed b vb -> fixed c vc ->
  carries (filled va vb vc) M bd sh F v -> carries rho M bd sh (substitute ev [(Fx, a); (Fy, b); (Fz, c)] F) v.
Proof.
  intros A B D ([W W'] & Bd & S).
  assert (N : forall n o, In n (freqs M) -> coefficient rho M (substitute ev [(Fx, a); (Fy, b); (Fz, c)] F) n o =
    coefficient (filled va vb vc) M F n o).
  { intros n o I. apply In_freqs in I. unfold coefficient, substitute.
    rewrite (nth_indep _ (mkT [] (fun _ => num 0)) (tmap (subs_seq ev [(Fx, a); (Fy, b); (Fz, c)]) (mkT [] (fun _ => num 0))))
      by (rewrite map_length; lia).
    rewrite map_nth. cbn [tmap at_]. apply subs_filled; auto. }
  split; [|split].
  - split; [unfold substitute; rewrite map_length; exact W|]. unfold substitute. apply Forall_map.
    eapply Forall_impl; [|exact W']. auto.
  - intros n o I Fo Hn. rewrite N by auto. apply Bd; auto.
  - intros o x Fo. rewrite <- S by auto. unfold synthesis. apply Csum_ext_in. intros n I. rewrite N by auto. reflexivity.
Qed.

(** What one stored array of four terms stands for *)
Definition stored_terms (g : setup) (inp out : pol) (L : list (list (tensor expr))) : Prop :=
  exists t1 t2 t3 t4, L = [t1; t2; t3; t4] /\
    let T := T1 (masked (s_out g) out) (s_field g inp) in
    let k := kr (s_in g) in
    carries rho 16 6 [3; 3; 3; 3; 3; 3] t1 T /\
    carries rho 16 7 [3; 3; 3; 3; 3; 3; 3] t2 (fun x o => T x o * (- Ci * k x (nth 6 o 0%nat)))%C /\
    carries rho 16 7 [3; 3; 3; 3; 3; 3; 3] t3 (fun x o => T x o * (Ci * k x (nth 6 o 0%nat)))%C /\
    carries rho 16 8 [3; 3; 3; 3; 3; 3; 3; 3] t4 (fun x o => T x o * (- Ci * k x (nth 6 o 0%nat)) * (Ci * k x (nth 7 o 0%nat)))%C.

Lemma zeros_carries rho' M b sh F : wellformed M sh F -> carries rho' M b sh (map (fun t => zeros (shape t)) F) (fun _ _ => RtoC 0).
Proof.
  intros [W W'].
  assert (N : forall n o, In n (freqs M) -> coefficient rho' M (map (fun t => zeros (shape t)) F) n o = RtoC 0).
  { intros n o I. apply In_freqs in I. unfold coefficient.
    rewrite (nth_indep _ (mkT [] (fun _ => num 0)) ((fun t => zeros (shape t)) (mkT [] (fun _ => num 0)))) by (rewrite map_length; lia).
    rewrite (map_nth (fun t : tensor expr => zeros (shape t))). cbn [zeros at_]. apply eval_num0. }
  split; [|split].
  - split; [rewrite map_length; exact W|]. apply Forall_map. eapply Forall_impl; [|exact W']. auto.
  - intros n o I _ _. apply N, I.
  - intros o x _. unfold synthesis. apply Csum_0_in. intros n I. rewrite N by auto. ring.
Qed.

Lemma carries_le rho' M b b' sh F v : b <= b' -> carries rho' M b sh F v -> carries rho' M b' sh F v.
Proof. intros L (W & B & S). repeat split; try apply W; auto. intros n o I Fo H. apply B; auto. lia. Qed.

Section Store.
Variables (kout kin : tensor expr) (c s : expr) (g : setup).
Hypothesis Sout : shape kout = [3].
Hypothesis Sin_ : shape kin = [3].
Hypothesis Vout : forall i, i < 3 -> fixed (at_ kout [i]) (s_out g i).
Hypothesis Vin : forall i, i < 3 -> fixed (at_ kin [i]) (s_in g i).
Hypothesis Vc : fixed c (s_field g Pin 0).
Hypothesis Vs : fixed s (s_field g Pin 2).
Hypothesis V1 : s_field g Pin 1 = RtoC 0.
Hypothesis VS : s_field g Sin 0 = RtoC 0 /\ s_field g Sin 1 = (- RtoC 1)%C /\ s_field g Sin 2 = RtoC 0.

Lemma fixed_num q : fixed (num q) (RtoC (Q2R q)).
Proof. intros r _. apply eval_num. Qed.

Lemma generate_stored prefix fs : exists fs', generate ev kout kin c s prefix 16 fs = Ok fs' /\
  forall inp out, exists L, dget (npy prefix (file_of inp out)) fs' = Some L /\ stored_terms g inp out L.
Proof.
  unfold generate.
  (* the arrays do not depend on the assignment: any off-field one will do *)
  assert (HR : exists rR, rotation 16 = Ok rR /\ forall r, carries r 16 1 [3; 3] rR rot_value).
  { destruct (rotation_carries rho 16 ltac:(lia)) as (rR & E & _). exists rR. split; auto. intros r.
    destruct (rotation_carries r 16 ltac:(lia)) as (rR' & E' & C'). congruence. }
  destruct HR as (rR & -> & CR). cbn [bind].
  assert (HP : forall i, i < 3 -> exists r1, conv ev (constant 16 (proj_row ev kout i)) rR = Ok r1 /\
    forall r, off_field rho r -> carries r 16 1 [3; 3; 3] r1
      (fun x o => ((if i =? nth 0 o 0 then RtoC 1 else RtoC 0) - s_out g i * s_out g (nth 0 o 0%nat)) * Rz x (nth 1 o 0%nat) (nth 2 o 0%nat))%C).
  { intros i Hi.
    assert (X : forall r, off_field rho r -> exists r1, conv ev (constant 16 (proj_row ev kout i)) rR = Ok r1 /\
      carries r 16 1 [3; 3; 3] r1
      (fun x o => ((if i =? nth 0 o 0 then RtoC 1 else RtoC 0) - s_out g i * s_out g (nth 0 o 0%nat)) * Rz x (nth 1 o 0%nat) (nth 2 o 0%nat))%C).
    { intros r O. pose proof (constant_carries r 16 (proj_row ev kout i)) as K.
      destruct (conv_carries ev EV r (proj1 O) _ _ _ _ _ _ _ _ K (CR r) ltac:(lia)) as (r1 & E & C1).
      exists r1. split; [exact E|]. eapply carries_ext; [exact C1|]. intros x o Fo. cbn [proj_row shape app length] in *. fitsinv.
      cbn [firstn skipn nth]. unfold rot_value. cbn [nth]. f_equal. unfold proj_row. cbn [at_ nth].
      unfold FormgenModel.subt. rewrite (proj1 EV) by apply O. unfold outer, rank. rewrite Sout. cbn [at_ firstn skipn length].
      cbn [eval map fold_right]. rewrite (eval_mul ev EV r (proj1 O)).
      rewrite !Vout by auto. unfold num. cbn [eval]. rewrite Q2R_neg1, Q2R_0'.
      destruct (i =? x0); rewrite ?Q2R_0', ?Q2R_1'; apply C_ext; unfold Re, Im; simpl; ring. }
    destruct (X rho) as (r1 & E & _); [split; auto|]. exists r1. split; auto. intros r O.
    destruct (X r O) as (r1' & E' & C'). congruence. }
  destruct (HP 0 ltac:(lia)) as (rx & Ex & Cx). destruct (HP 1 ltac:(lia)) as (ry & Ey & Cy). destruct (HP 2 ltac:(lia)) as (rz & Ez & Cz).
  rewrite Ex, Ey, Ez. cbn [bind]. clear Ex Ey Ez HP.
  set (r0 := map (fun t => zeros (shape t)) rx).
  assert (C0 : forall r, carries r 16 1 [3; 3; 3] r0 (fun _ _ => RtoC 0)).
  { intros r. apply zeros_carries. apply (Cx rho). split; auto. }
  assert (O : off_field rho rho) by (split; auto).
  assert (HS : exists rs, mapM (fun m => do o <- slice r0 m 16; do y <- slice ry m 16; Ok (stack3 o y o)) (freqs 16) = Ok rs /\
    forall r, off_field rho r -> carries r 16 1 [3; 3; 3; 3] rs
      (fun x o => masked (s_out g) Sin (nth 0 o 0) (nth 1 o 0) * Rz x (nth 2 o 0%nat) (nth 3 o 0%nat))%C).
  { assert (X : forall r, off_field rho r -> exists rs,
      mapM (fun m => do o <- slice r0 m 16; do y <- slice ry m 16; Ok (stack3 o y o)) (freqs 16) = Ok rs /\
      carries r 16 1 [3; 3; 3; 3] rs (fun x o => masked (s_out g) Sin (nth 0 o 0) (nth 1 o 0) * Rz x (nth 2 o 0%nat) (nth 3 o 0%nat))%C).
    { intros r Or. destruct (stack_carries r 16 1 _ r0 ry r0 _ _ _ (C0 r) (Cy r Or) (C0 r)) as (G & E & CG).
      exists G. split.
      - rewrite <- E. f_equal. apply FunctionalExtensionality.functional_extensionality. intros m.
        destruct (slice r0 m 16); simpl; auto. 
      - eapply carries_ext; [exact CG|]. intros x o Fo. fitsinv. cbn [nth].
        destruct x0 as [|[|[|x0]]]; [..|lia]; cbn [masked]; ring. }
    destruct (X rho O) as (rs & E & _). exists rs. split; auto. intros r Or. destruct (X r Or) as (rs' & E' & C'). congruence. }
  destruct HS as (rs & -> & Crs). cbn [bind].
  assert (HPp : exists rp, mapM (fun m => do x <- slice rx m 16; do o <- slice r0 m 16; do z <- slice rz m 16; Ok (stack3 x o z)) (freqs 16) = Ok rp /\
    forall r, off_field rho r -> carries r 16 1 [3; 3; 3; 3] rp
      (fun x o => masked (s_out g) Pin (nth 0 o 0) (nth 1 o 0) * Rz x (nth 2 o 0%nat) (nth 3 o 0%nat))%C).
  { assert (X : forall r, off_field rho r -> exists rp,
      mapM (fun m => do x <- slice rx m 16; do o <- slice r0 m 16; do z <- slice rz m 16; Ok (stack3 x o z)) (freqs 16) = Ok rp /\
      carries r 16 1 [3; 3; 3; 3] rp (fun x o => masked (s_out g) Pin (nth 0 o 0) (nth 1 o 0) * Rz x (nth 2 o 0%nat) (nth 3 o 0%nat))%C).
    { intros r Or. destruct (stack_carries r 16 1 _ rx r0 rz _ _ _ (Cx r Or) (C0 r) (Cz r Or)) as (G & E & CG).
      exists G. split; [exact E|].
      eapply carries_ext; [exact CG|]. intros x o Fo. fitsinv. cbn [nth].
      destruct x0 as [|[|[|x0]]]; [..|lia]; cbn [masked]; ring. }
    destruct (X rho O) as (rp & E & _). exists rp. split; auto. intros r Or. destruct (X r Or) as (rp' & E' & C'). congruence. }
  destruct HPp as (rp & -> & Crp). cbn [bind].
  set (rF := constant 16 (vector (ESym Fx) (ESym Fy) (ESym Fz))).
  assert (CF : forall a b d, carries (filled a b d) 16 0 [3] rF (fun _ o => triple a b d (nth 0 o 0))).
  { intros a b d. eapply carries_ext; [apply (constant_carries (filled a b d) 16 (vector (ESym Fx) (ESym Fy) (ESym Fz)))|].
    intros x o Fo. cbn in Fo. fitsinv. destruct x0 as [|[|[|x0]]]; [..|lia]; reflexivity. }
  assert (CK : forall r, off_field rho r -> carries r 16 0 [3] (constant 16 kin) (fun _ o => s_in g (nth 0 o 0))).
  { intros r Or. pose proof (constant_carries r 16 kin) as K. rewrite Sin_ in K. eapply carries_ext; [exact K|].
    intros x o Fo. fitsinv. apply Vin; auto. }
  assert (HT : forall r1 out, (forall r, off_field rho r -> carries r 16 1 [3; 3; 3; 3] r1
      (fun x o => masked (s_out g) out (nth 0 o 0) (nth 1 o 0) * Rz x (nth 2 o 0%nat) (nth 3 o 0%nat))%C) ->
    exists ts, uncontracted_terms ev 16 rR rF (constant 16 kin) r1 = Ok ts /\
      forall a b d va vb vd inp, fixed a va -> fixed b vb -> fixed d vd ->
      (forall i, i < 3 -> triple va vb vd i = s_field g inp i) ->
      stored_terms g inp out (substituted ev [(Fx, a); (Fy, b); (Fz, d)] ts)).
  { intros r1 out C1.
    assert (X : forall va vb vd, exists t1 t2 t3 t4, uncontracted_terms ev 16 rR rF (constant 16 kin) r1 = Ok (t1, t2, t3, t4) /\ _)
      by (intros va vb vd; exact (terms_carry ev EV (filled va vb vd) (proj1 (filled_off va vb vd)) (masked (s_out g) out) (triple va vb vd) (s_in g)
        rR rF (constant 16 kin) r1 (CR _) (CF va vb vd) (CK _ (filled_off va vb vd)) (C1 _ (filled_off va vb vd)))).
    destruct (X (RtoC 0) (RtoC 0) (RtoC 0)) as (t1 & t2 & t3 & t4 & E & _). exists (t1, t2, t3, t4). split; [exact E|].
    intros a b d va vb vd inp A B D HF. destruct (X va vb vd) as (u1 & u2 & u3 & u4 & E' & K). rewrite E in E'. injection E' as <- <- <- <-.
    assert (fe : forall x j, fr (triple va vb vd) x j = fr (s_field g inp) x j).
    { intros. unfold fr. apply sum3_ext; intros. rewrite HF by auto. reflexivity. }
    assert (te : forall x o, T1 (masked (s_out g) out) (triple va vb vd) x o = T1 (masked (s_out g) out) (s_field g inp) x o).
    { intros. unfold T1. rewrite !fe. reflexivity. }
    destruct K as (K1 & K2 & K3 & K4). do 4 eexists. split; [reflexivity|]. cbv zeta.
    split; [|split; [|split]]; (eapply substitute_carries; [exact A|exact B|exact D|]);
      (eapply carries_ext; [eassumption|]); intros; cbv beta; rewrite ?te; reflexivity. }
  destruct (HT rp Pin Crp) as (tp & -> & Hp). cbn [bind]. destruct (HT rs Sin Crs) as (ts & -> & Hs). cbn [bind].
  eexists. split; [reflexivity|].
  assert (F0 : fixed (num 0) (RtoC 0)) by (intros r _; apply eval_num0).
  assert (F1 : fixed (num (-1)) (- RtoC 1)%C) by (intros r _; apply eval_numm1).
  assert (TP : forall i, i < 3 -> triple (s_field g Pin 0) (RtoC 0) (s_field g Pin 2) i = s_field g Pin i).
  { intros i Hi. destruct i as [|[|[|i]]]; [..|lia]; simpl; auto. }
  assert (TS : forall i, i < 3 -> triple (RtoC 0) (- RtoC 1)%C (RtoC 0) i = s_field g Sin i).
  { destruct VS as (A0 & A1 & A2). intros i Hi. destruct i as [|[|[|i]]]; [..|lia]; simpl; auto. }
  assert (NE : forall a b, npy prefix a = npy prefix b -> a = b).
  { intros a b. unfold npy. induction prefix as [|ch p IH]; simpl.
    - intros H. injection H as H. clear - H. revert b H. induction a as [|x a IHa]; intros [|y b] H; auto; simpl in H.
      + exfalso. destruct b as [|? [|? [|? [|? [|? ?]]]]]; discriminate.
      + exfalso. destruct a as [|? [|? [|? [|? [|? ?]]]]]; discriminate.
      + injection H as -> H. f_equal. apply IHa, H.
    - intros H. injection H as H. auto. }
  intros inp out. destruct inp, out; cbn [file_of].
  - exists (substituted ev [(Fx, c); (Fy, num 0); (Fz, s)] tp). split.
    + rewrite !dget_dset_neq by (intros H; apply NE in H; discriminate). apply dget_dset_eq.
    + apply (Hp c (num 0) s _ _ _ Pin Vc F0 Vs TP).
  - exists (substituted ev [(Fx, c); (Fy, num 0); (Fz, s)] ts). split.
    + rewrite !dget_dset_neq by (intros H; apply NE in H; discriminate). apply dget_dset_eq.
    + apply (Hs c (num 0) s _ _ _ Pin Vc F0 Vs TP).
  - exists (substituted ev [(Fx, num 0); (Fy, num (-1)); (Fz, num 0)] tp). split.
    + rewrite !dget_dset_neq by (intros H; apply NE in H; discriminate). apply dget_dset_eq.
    + apply (Hp (num 0) (num (-1)) (num 0) _ _ _ Sin F0 F1 F0 TS).
  - exists (substituted ev [(Fx, num 0); (Fy, num (-1)); (Fz, num 0)] ts). split.
    + apply dget_dset_eq.
    + apply (Hs (num 0) (num (-1)) (num 0) _ _ _ Sin F0 F1 F0 TS).
Qed.
End Store.
End Gen.
