(** The isotropic quadrupole tensor. *)
From Coq Require Import String Ascii List Arith Bool ZArith QArith Qreals Reals Lra Lia.
Import ListNotations.
From Coquelicot Require Import Complex.
From Verif Require Import PyBase CBase Expr ExprProofs TensorModel SpecTensor TensorProofs TensorProofs2
  TensorInst TensorDefs SpecGroups GroupProofs GroupProofs2 GroupProofs3.
Local Open Scope nat_scope.

Definition qiso := entries_of quadrupole_table "Isotropic".
Definition qO := entries_of quadrupole_table "O".
Definition qC6 := entries_of quadrupole_table "C_6".
Lemma lin_qiso : all_some (map lin qiso) = Some (rows_of qiso). Proof. vm_compute; reflexivity. Qed.
Lemma lin_qO : all_some (map lin qO) = Some (rows_of qO). Proof. vm_compute; reflexivity. Qed.
Lemma lin_qC6 : all_some (map lin qC6) = Some (rows_of qC6). Proof. vm_compute; reflexivity. Qed.

(** Each entry is a sum of products of Kronecker symbols. *)
Definition iso_row (I : list nat) : lc string :=
  match I with
  | [a; b; c; d] =>
      (if (a =? b) && (c =? d) then [("yyxx"%string, s1)] else []) ++
      (if (a =? c) && (b =? d) then [("yxyx"%string, s1)] else []) ++
      (if (a =? d) && (b =? c) then [("yxxy"%string, s1)] else [])
  | _ => []
  end.

Lemma iso_rows_check : forallb (fun I => same String.eqb ["yyxx"; "yxyx"; "yxxy"]%string
  (nth (position I) (rows_of qiso) []) (iso_row I)) (indices (repeat 3 4)) = true.
Proof. vm_compute; reflexivity. Qed.

Definition iso (x y w : C) (a b c d : nat) : C :=
  (x * (delta a b * delta c d) + (y * (delta a c * delta b d) + w * (delta a d * delta b c)))%C.

Lemma delta_and a b c d (x : C) : (if (a =? b) && (c =? d) then x else RtoC 0) = (x * (delta a b * delta c d))%C.
Proof. unfold delta. destruct (a =? b), (c =? d); simpl; ring. Qed.

Lemma iso_entry rho a b c d : fits (repeat 3 4) [a; b; c; d] ->
  at_ (instance rho (table_tensor 4 qiso)) [a; b; c; d]
  = iso (at_name rho "yyxx") (at_name rho "yxyx") (at_name rho "yxxy") a b c d.
Proof.
  intros F. rewrite (entry_ok 3 qiso _ lin_qiso eq_refl rho _ F).
  pose proof iso_rows_check as H. rewrite forallb_forall in H. specialize (H _ (proj2 (in_indices _ _) F)).
  rewrite (same_sound _ string_eqb_eq _ _ _ (at_name rho) H). clear H.
  unfold iso. rewrite <- !delta_and. cbn [iso_row]. rewrite !pair_app.
  destruct ((a =? b) && (c =? d)), ((a =? c) && (b =? d)), ((a =? d) && (b =? c));
    unfold pair_with, Csum; cbn [fold_right fst snd]; rewrite ?toC_1; ring.
Qed.

Lemma iso_rotated (R : tensor C) x y w i j k l :
  Csum (fun a => prod_entries R [i; j; k; l] a *
        match a with [a; b; c; d] => iso x y w a b c d | _ => RtoC 0 end)%C (indices (repeat 3 4))
  = (let s i j := at_ R [i; 0] * at_ R [j; 0] + (at_ R [i; 1] * at_ R [j; 1] + (at_ R [i; 2] * at_ R [j; 2] + RtoC 0)) in
     x * (s i j * s k l) + (y * (s i k * s j l) + w * (s i l * s j k)))%C.
Proof.
  set (idx := indices (repeat 3 4)). vm_compute in idx. subst idx.
  unfold Csum. cbn [fold_right prod_entries mul one Sig_C]. unfold iso, delta. cbn [Nat.eqb]. cbv zeta. ring.
Qed.

Lemma fits4_inv I : fits [3; 3; 3; 3] I ->
  exists a b c d, I = [a; b; c; d] /\ a < 3 /\ b < 3 /\ c < 3 /\ d < 3.
Proof.
  intros F. pose proof (fits_length _ _ F) as L. destruct I as [|a [|b [|c [|d [|]]]]]; try discriminate.
  exists a, b, c, d. split; auto.
  pose proof (fits_nth _ _ 0 F) as F0. pose proof (fits_nth _ _ 1 F) as F1.
  pose proof (fits_nth _ _ 2 F) as F2. pose proof (fits_nth _ _ 3 F) as F3. simpl in *.
  repeat split; auto; lia.
Qed.

Lemma iso_invariant rho R : orthogonal R -> invariant (instance rho (table_tensor 4 qiso)) R.
Proof.
  intros (Sh & _ & O & _). apply (invariant_iff (instance rho (table_tensor 4 qiso)) R 3 eq_refl Sh). intros I F.
  cbn [instance tmap shape table_tensor repeat] in F.
  destruct (fits4_inv I F) as (i & j & k & l & -> & Li & Lj & Lk & Ll).
  rewrite iso_entry by assumption. unfold rotated. rewrite sumv_Csum.
  rewrite (Csum_ext_in _ (fun a => prod_entries R [i; j; k; l] a *
    match a with [a; b; c; d] => iso (at_name rho "yyxx") (at_name rho "yxyx") (at_name rho "yxxy") a b c d | _ => RtoC 0 end)%C).
  - cbn [instance tmap shape table_tensor]. rewrite iso_rotated. cbv beta zeta.
    assert (Q : forall p q, p < 3 -> q < 3 -> (at_ R [p; 0] * at_ R [q; 0] +
      (at_ R [p; 1] * at_ R [q; 1] + (at_ R [p; 2] * at_ R [q; 2] + RtoC 0)))%C = delta p q).
    { intros p q Lp Lq. apply (O p q Lp Lq). }
    rewrite !Q by assumption. reflexivity.
  - intros a Ia. apply in_indices in Ia. cbn [instance tmap shape table_tensor repeat] in Ia.
    destruct (fits4_inv a Ia) as (a1 & a2 & a3 & a4 & -> & _).
    rewrite iso_entry by assumption. reflexivity.
Qed.

(** ** Completeness: combine the cubic and the hexagonal group *)
Lemma complete_O : complete_table (table_tensor 4 qO) [C4z; C3d].
Proof. apply (table_check_ok 3 qO [C4z; C3d] 24); [discriminate|vm_compute; reflexivity]. Qed.
Lemma complete_C6 : complete_table (table_tensor 4 qC6) [C6z].
Proof. apply (table_check_ok 3 qC6 [C6z] 6); [discriminate|vm_compute; reflexivity]. Qed.

Definition zzzz_sum (kc : string * surd) : lc string :=
  if String.eqb (fst kc) "zzzz" then scale (snd kc) [("yyxx"%string, s1); ("yxyx"%string, s1); ("yxxy"%string, s1)] else [kc].
Lemma iso_from_O : forallb (fun I => same String.eqb ["yyxx"; "yxyx"; "yxxy"]%string
  (flat_map zzzz_sum (nth (position I) (rows_of qO) [])) (nth (position I) (rows_of qiso) [])) (indices (repeat 3 4)) = true.
Proof. vm_compute; reflexivity. Qed.

Lemma pair_single f (n : string) : pair_with f [(n, s1)] = f n.
Proof. unfold pair_with, Csum. cbn [fold_right fst snd]. rewrite toC_1. ring. Qed.

Lemma pair_three f (a b c : string) : pair_with f [(a, s1); (b, s1); (c, s1)] = (f a + (f b + f c))%C.
Proof. unfold pair_with, Csum. cbn [fold_right fst snd]. rewrite toC_1. ring. Qed.

Lemma zzzz_sum_ok f row : f "zzzz"%string = (f "yyxx"%string + (f "yxyx"%string + f "yxxy"%string))%C ->
  pair_with f (flat_map zzzz_sum row) = pair_with f row.
Proof.
  intros H. rewrite pair_flat_map. unfold pair_with at 2. apply Csum_ext. intros [k c]. unfold zzzz_sum. cbn [fst snd].
  destruct (String.eqb_spec k "zzzz") as [->|N].
  - rewrite pair_scale, pair_three, H. reflexivity.
  - unfold pair_with, Csum; simpl. ring.
Qed.

Lemma iso_complete : complete_table (table_tensor 4 qiso) [C4z; C3d; C6z].
Proof.
  intros X Sh Inv. cbn [table_tensor shape] in Sh.
  destruct (complete_O X Sh) as (rho & [_ TO] & _). { intros g I. apply Inv. simpl in *; tauto. }
  destruct (complete_C6 X Sh) as (rh6 & [_ T6] & _). { intros g I. apply Inv. simpl in *; tauto. }
  assert (AO : forall I row, fits (repeat 3 4) I -> nth (position I) (rows_of qO) [] = row ->
    at_ X I = pair_with (at_name rho) row).
  { intros I row F <-. rewrite TO by (rewrite Sh; apply in_indices; auto). apply (entry_ok 3 qO _ lin_qO eq_refl); auto. }
  assert (A6 : forall I row, fits (repeat 3 4) I -> nth (position I) (rows_of qC6) [] = row ->
    at_ X I = pair_with (at_name rh6) row).
  { intros I row F <-. rewrite T6 by (rewrite Sh; apply in_indices; auto). apply (entry_ok 3 qC6 _ lin_qC6 eq_refl); auto. }
  assert (Fyyyy : fits (repeat 3 4) [1;1;1;1]) by (apply fits4; lia).
  assert (Fa : fits (repeat 3 4) [1;1;0;0]) by (apply fits4; lia).
  assert (Fb : fits (repeat 3 4) [1;0;1;0]) by (apply fits4; lia).
  assert (Fc : fits (repeat 3 4) [1;0;0;1]) by (apply fits4; lia).
  pose proof (AO _ [("yyxx"%string, s1)] Fa ltac:(vm_compute; reflexivity)) as Oa.
  pose proof (AO _ [("yxyx"%string, s1)] Fb ltac:(vm_compute; reflexivity)) as Ob.
  pose proof (AO _ [("yxxy"%string, s1)] Fc ltac:(vm_compute; reflexivity)) as Oc.
  pose proof (AO _ [("zzzz"%string, s1)] Fyyyy ltac:(vm_compute; reflexivity)) as Od.
  pose proof (A6 _ [("yyxx"%string, s1)] Fa ltac:(vm_compute; reflexivity)) as Ha.
  pose proof (A6 _ [("yxyx"%string, s1)] Fb ltac:(vm_compute; reflexivity)) as Hb.
  pose proof (A6 _ [("yxxy"%string, s1)] Fc ltac:(vm_compute; reflexivity)) as Hc.
  pose proof (A6 _ [("yxxy"%string, s1); ("yxyx"%string, s1); ("yyxx"%string, s1)] Fyyyy ltac:(vm_compute; reflexivity)) as Hd.
  rewrite pair_single in Oa, Ob, Oc, Od, Ha, Hb, Hc. rewrite pair_three in Hd.
  assert (Z : at_name rho "zzzz" = (at_name rho "yyxx" + (at_name rho "yxyx" + at_name rho "yxxy"))%C).
  { rewrite <- Od, Hd, <- Ha, <- Hb, <- Hc, <- Oa, <- Ob, <- Oc. ring. }
  exists rho. split.
  - split; [auto|]. intros I II. rewrite Sh in II. assert (F := proj1 (in_indices _ _) II).
    rewrite (AO I _ F eq_refl). rewrite (entry_ok 3 qiso _ lin_qiso eq_refl rho I F).
    rewrite <- (zzzz_sum_ok _ _ Z).
    pose proof iso_from_O as H. rewrite forallb_forall in H. specialize (H I II).
    apply (same_sound _ string_eqb_eq _ _ _ (at_name rho) H).
  - intros rho' [_ T] s Is.
    assert (P : In s [mksym "yyxx"%string None; mksym "yxyx"%string None; mksym "yxxy"%string None]).
    { assert (L : forallb (fun s => existsb (sym_eqb s) [mksym "yyxx"%string None; mksym "yxyx"%string None; mksym "yxxy"%string None])
        (params_of (table_tensor 4 qiso)) = true) by (vm_compute; reflexivity).
      rewrite forallb_forall in L. specialize (L s Is). rewrite existsb_exists in L. destruct L as (s' & I' & E').
      destruct (sym_eqb_spec s s') as [->|]; [auto|discriminate]. }
    assert (A' : forall I n, fits (repeat 3 4) I -> nth (position I) (rows_of qiso) [] = [(n, s1)] ->
      at_ X I = at_name rho' n).
    { intros I n F E. rewrite T by (rewrite Sh; apply in_indices; auto).
      rewrite (entry_ok 3 qiso _ lin_qiso eq_refl rho' I F), E. apply pair_single. }
    destruct P as [<-|[<-|[<-|[]]]].
    + rewrite <- (A' _ "yyxx"%string Fa ltac:(vm_compute; reflexivity) : _ = rho' _). exact Oa.
    + rewrite <- (A' _ "yxyx"%string Fb ltac:(vm_compute; reflexivity) : _ = rho' _). exact Ob.
    + rewrite <- (A' _ "yxxy"%string Fc ltac:(vm_compute; reflexivity) : _ = rho' _). exact Oc.
Qed.
