(** Properties C31-C37: tensors of any rank, symmetrisation, parameters,
    rotations, union.  Beside each theorem a concrete case. *)
From Coq Require Import String List Arith Bool ZArith QArith Reals Lra Lia Permutation Sorted.
Import ListNotations.
From Coquelicot Require Import Complex.
From Verif Require Import PyBase RMod CBase Expr ExprProofs TensorModel UtilModel SpecTensor SpecUtil
  TensorProofs TensorProofs2 TensorInst UtilProofs RotProofs.
Local Open Scope nat_scope.

#[global] Instance Sig_nat : Sig nat := {| zero := 0; one := 1; add := Nat.add; mul := Nat.mul |}.
#[global] Instance CSR_nat : CSR nat.
Proof. constructor; intros; simpl; lia. Qed.

(** *** C31 *)

(** Every list of pairs of distinct axes is accepted; the result has the
    remaining axes in order and each entry is the sum over all full index tuples
    whose paired indices agree and whose remaining indices are the given ones. *)
Theorem C31_contraction : forall (A : Type) (S : Sig A) (L : CSR A) (t : tensor A) pairs,
  disjoint_pairs (rank t) pairs ->
  exists u, tensor_contract t (to_lists pairs) = Ok u /\
    shape u = pick (free_axes (rank t) pairs) (shape t) /\
    forall o, fits (shape u) o -> at_ u o = contraction t pairs o.
Proof. intros A S L t pairs D. destruct (contract_ok t pairs D) as (u & E & C). exists u. destruct C. auto. Qed.
Print Assumptions C31_contraction.

(** The order of the pairs, and of the two axes of a pair, does not matter. *)
Theorem C31_order : forall (A : Type) (S : Sig A) (L : CSR A) (t : tensor A) p q,
  same_pairs p q -> disjoint_pairs (rank t) p ->
  exists u v, tensor_contract t (to_lists p) = Ok u /\ tensor_contract t (to_lists q) = Ok v /\ teq u v.
Proof. intros A S L t p q. apply contract_order. Qed.
Print Assumptions C31_order.

(** A pair list that names an axis twice or an axis that does not exist is refused. *)
Theorem C31_refused : forall (A : Type) (S : Sig A) (L : CSR A) (t : tensor A) pairs,
  ~ disjoint_pairs (rank t) pairs -> tensor_contract t (to_lists pairs) = Raise ValueError.
Proof. intros A S L t pairs. apply contract_bad. Qed.
Print Assumptions C31_refused.

(** Products: shapes are appended and entries multiplied, each factor reading its
    own part of the index; fewer than two factors are refused. *)
Theorem C31_product : forall (A : Type) (S : Sig A) (ts : list (tensor A)),
  (2 <= length ts -> exists p, tensor_product ts = Ok p /\ shape p = flat_map shape ts /\
     forall idxs, Forall2 (fun i t => fits (shape t) i) idxs ts ->
       CSR A -> at_ p (concat idxs) = fold_right mul one (map (fun ti => at_ (fst ti) (snd ti)) (combine ts idxs))) /\
  (length ts < 2 -> tensor_product ts = Raise IndexError).
Proof.
  intros A S ts. split.
  - intros L2. destruct (product_ok ts L2) as (p & E & Sp & Ap). exists p. repeat split; auto.
    intros idxs F L. rewrite Ap. assert (Ne : ts <> []) by (destruct ts; simpl in *; [lia|congruence]).
    clear E Sp Ap L2. induction F as [|i t idxs ts Fi F IH]; [congruence|].
    destruct ts as [|t2 ts].
    + inversion F; subst. simpl. rewrite app_nil_r, mul_1_r. auto.
    + cbn [prod_at concat combine map fold_right fst snd].
      pose proof (fits_length _ _ Fi) as Li. fold (rank t) in Li.
      rewrite firstn_app, skipn_app, <- Li, firstn_all, skipn_all, Nat.sub_diag. simpl firstn. simpl skipn.
      rewrite app_nil_r. f_equal. apply IH. congruence.
  - intros L2. destruct ts as [|t [|t2 ts]]; simpl in *; auto; lia.
Qed.
Print Assumptions C31_product.

Definition mat_ex : tensor nat := mkT [2; 2] (fun i => match i with [x; y] => 1 + 2 * x + y | _ => 0 end).
(** matrix product through [tensor_product] and [tensor_contract] *)
Example C31_case :
  (do p <- tensor_product [mat_ex; mat_ex]; do u <- tensor_contract p (to_lists [(1, 2)]); Ok (shape u, flatten u))
  = Ok ([2; 2], [7; 10; 15; 22]) /\
  (do p <- tensor_product [mat_ex; mat_ex]; do u <- tensor_contract p (to_lists [(3, 0); (2, 1)]); Ok (shape u, flatten u))
  = Ok ([], [29]) /\
  disjoint_pairs 4 [(1, 2)] /\ ~ disjoint_pairs 4 [(1, 2); (2, 3)].
Proof.
  repeat split; try reflexivity.
  - repeat constructor; simpl; intuition discriminate.
  - repeat constructor; simpl; lia.
  - intros [N _]. simpl in N. inversion N as [|? ? _ N1]; subst. inversion N1 as [|? ? N2 _]; subst. apply N2; simpl; auto.
Qed.

(** *** C32 *)
Theorem C32_components : forall (A : Type) (S : Sig A) (L : CSR A) (t R : tensor A) d,
  is_matrix d R -> is_cube d t -> 1 <= rank t ->
  exists u, transform t R = Ok u /\ shape u = shape t /\
    forall i, fits (shape t) i -> at_ u i = rotated t R i.
Proof. intros A S L t R d. apply transform_ok. Qed.
Print Assumptions C32_components.

Theorem C32_identity : forall (A : Type) (S : Sig A) (L : CSR A) (t : tensor A) d,
  is_cube d t -> 1 <= rank t -> exists u, transform t (identity d) = Ok u /\ teq u t.
Proof.
  intros A S L t d Cu R. destruct (transform_ok t (identity d) d eq_refl Cu R) as (u & E & Su & Au).
  exists u. repeat split; auto. intros i I. rewrite Su in I. apply in_indices in I. rewrite Au, rotated_id; auto.
Qed.
Print Assumptions C32_identity.

Theorem C32_composition : forall (A : Type) (S : Sig A) (L : CSR A) (t P Q : tensor A) d,
  is_matrix d P -> is_matrix d Q -> is_cube d t -> 1 <= rank t ->
  exists u v w, transform t Q = Ok u /\ transform u P = Ok v /\ transform t (matmul d P Q) = Ok w /\ teq v w.
Proof.
  intros A S L t P Q d MP MQ Cu R.
  destruct (transform_ok t Q d MQ Cu R) as (u & Eu & Su & Au).
  assert (Cu' : is_cube d u) by (unfold is_cube, rank in *; rewrite Su; auto).
  assert (Ru : 1 <= rank u) by (unfold rank in *; rewrite Su; auto).
  destruct (transform_ok u P d MP Cu' Ru) as (v & Ev & Sv & Av).
  destruct (transform_ok t (matmul d P Q) d eq_refl Cu R) as (w & Ew & Sw & Aw).
  exists u, v, w. repeat split; auto; [congruence|].
  intros i I. rewrite Sv, Su in I. apply in_indices in I. rewrite Av by (rewrite Su; auto). rewrite Aw by auto.
  apply rotated_mul; auto.
Qed.
Print Assumptions C32_composition.

Theorem C32_linear : forall (A : Type) (S : Sig A) (L : CSR A) (t u R : tensor A) (c : A) d,
  is_matrix d R -> is_cube d t -> 1 <= rank t -> shape u = shape t ->
  exists t' u' s c', transform t R = Ok t' /\ transform u R = Ok u' /\
    transform (tadd t u) R = Ok s /\ teq s (tadd t' u') /\
    transform (tscale c t) R = Ok c' /\ teq c' (tscale c t').
Proof.
  intros A S L t u R c d M Cu Rk Su.
  destruct (transform_ok t R d M Cu Rk) as (t' & Et & St & At).
  assert (Cu' : is_cube d u) by (unfold is_cube, rank in *; rewrite Su; auto).
  assert (Ru : 1 <= rank u) by (unfold rank in *; rewrite Su; auto).
  destruct (transform_ok u R d M Cu' Ru) as (u' & Eu & Su' & Au).
  destruct (transform_ok (tadd t u) R d M Cu Rk) as (s & Es & Ss & As).
  destruct (transform_ok (tscale c t) R d M Cu Rk) as (c' & Ec & Sc & Ac).
  exists t', u', s, c'. simpl in *. repeat split; auto; simpl; try congruence.
  - intros i I. rewrite Ss in I. apply in_indices in I. rewrite As, At, Au by congruence. apply rotated_add; auto.
  - intros i I. rewrite Sc in I. apply in_indices in I. rewrite Ac, At by auto. apply rotated_scale.
Qed.
Print Assumptions C32_linear.

(** A rank-0 array is refused. *)
Theorem C32_rank_zero : forall (A : Type) (S : Sig A) (t R : tensor A),
  rank t = 0 -> transform t R = Raise IndexError.
Proof. intros A S t R E. unfold transform. rewrite E. reflexivity. Qed.
Print Assumptions C32_rank_zero.

Definition swap_xy : tensor nat := mkT [2; 2] (fun i => match i with [x; y] => if x + y =? 1 then 1 else 0 | _ => 0 end).
Example C32_case : (do u <- transform mat_ex swap_xy; Ok (flatten u)) = Ok [4; 3; 2; 1] /\
  is_matrix 2 swap_xy /\ is_cube 2 mat_ex /\ 1 <= rank mat_ex.
Proof. split; [reflexivity|]. split; [reflexivity|]. split; [reflexivity|]. unfold rank; simpl; lia. Qed.

(** *** C33 *)
Theorem C33_last_two : forall solve t exclude u, sound_solver solve -> is_cube 3 t ->
  particularize solve t exclude false = Ok u -> shape u = shape t /\ symmetric_last_two u.
Proof. intros solve t exclude u Sd. apply last_two_symmetric; auto. Qed.
Print Assumptions C33_last_two.

Theorem C33_all : forall solve t d exclude u, sound_solver solve -> is_cube d t ->
  particularize solve t exclude true = Ok u -> shape u = shape t /\ symmetric_all u.
Proof. intros solve t d exclude u Sd. apply all_symmetric; auto. Qed.
Print Assumptions C33_all.

(** Already symmetric, entry by entry the same expression: returned as it is,
    whatever the solver would say. *)
Theorem C33_unchanged : forall solve t exclude, is_cube 3 t -> 2 <= rank t ->
  (forall i a b, fits (shape t) (i ++ [a; b]) -> at_ t (i ++ [a; b]) = at_ t (i ++ [b; a])) ->
  particularize solve t exclude false = Ok t.
Proof.
  intros solve t exclude Cu R Sy. unfold particularize, particularize_last_two.
  destruct (swap_last_two t) as [t2|e] eqn:Es.
  - cbn [bind]. destruct (swap_at t t2 Cu Es) as [S2 A2].
    assert (E : arr_eqb t2 t = true).
    { unfold arr_eqb. rewrite S2. destruct (list_eq_dec Nat.eq_dec (shape t) (shape t)); [|congruence]. simpl.
      apply forallb_forall. intros i I. apply in_indices in I.
      assert (Sp : exists j a b, i = j ++ [a; b]).
      { pose proof (fits_length _ _ I) as Li. fold (rank t) in Li.
        destruct (rev i) as [|b [|a j]] eqn:Er.
        - apply (f_equal (@rev nat)) in Er. rewrite rev_involutive in Er. subst. simpl in *. lia.
        - apply (f_equal (@rev nat)) in Er. rewrite rev_involutive in Er. subst. simpl in *. lia.
        - exists (rev j), a, b. rewrite <- (rev_involutive i), Er. simpl. rewrite <- app_assoc. auto. }
      destruct Sp as (j & a & b & ->). rewrite A2 by auto. rewrite <- Sy by auto. apply expr_eqb_refl. }
    rewrite E. auto.
  - exfalso. unfold swap_last_two in Es. unfold is_cube in Cu.
    unfold second_dim in Es. rewrite Cu in Es. destruct (rank t) as [|[|n]]; try lia. simpl repeat in Es.
    cbn [bind] in Es.
    assert (F : forall k, forallb (fun d => 3 <=? d) (firstn k (3 :: 3 :: repeat 3 n)) = true /\
                          forallb (fun d => 3 <=? d) (skipn k (3 :: 3 :: repeat 3 n)) = true).
    { intros k. rewrite !forallb_forall.
      assert (G : forall x, In x (3 :: 3 :: repeat 3 n) -> 3 <=? x = true).
      { intros x [<-|[<-|I]]; auto. apply repeat_spec in I as ->. auto. }
      split; intros x I; apply G; [eapply In_firstn|eapply In_skipn]; eauto. }
    destruct (F (S (S n) - 2)) as [F1 F2]. rewrite F1, F2 in Es. simpl in Es. discriminate.
Qed.
Print Assumptions C33_unchanged.

(** If the solver finds no solution the call fails. *)
Theorem C33_no_solution : forall solve t d exclude, is_cube d t -> 1 <= d -> 2 <= rank t ->
  (forall eqs, solve eqs exclude = []) -> particularize solve t exclude true = Raise IndexError.
Proof.
  intros solve t d exclude Cu Ld R Sv. unfold particularize, particularize_all. unfold second_dim.
  unfold is_cube in Cu. rewrite Cu at 1. destruct (rank t) as [|[|n]] eqn:E; try lia. simpl repeat.
  destruct d as [|d]; [lia|]. cbn [bind].
  destruct (forallb _ _); auto. rewrite Sv. auto.
Qed.
Print Assumptions C33_no_solution.

Definition sx := ESym (mksym "x" None).
Definition sy := ESym (mksym "y" None).
(** a tensor with t[0,1] = x, t[1,0] = y, and a sound solver that sets y := x when
    the equations are multiples of x - y *)
Definition t_ex : tensor expr := mkT [3; 3] (fun i => match i with [0; 1] => sx | [1; 0] => sy | _ => num 0 end).
Definition easy_solver (eqs : list expr) (exclude : list sym) : list (list (sym * expr)) :=
  if forallb (fun e => existsb (expr_eqb e) [esub sx sy; esub sy sx; esub sx sx; esub sy sy; esub (num 0) (num 0)]) eqs
  then [[(mksym "y" None, sx)]] else [].
Lemma easy_solver_sound : sound_solver easy_solver.
Proof.
  intros eqs ex sol I e Ie rho. unfold easy_solver in I. destruct (forallb _ eqs) eqn:F; [|destruct I].
  destruct I as [<-|[]]. rewrite forallb_forall in F. specialize (F e Ie).
  apply existsb_exists in F as (x & Ix & E).
  destruct (subs_dict_eval rho [(mksym "y" None, sx)]) as [rho' Er].
  rewrite Er, (expr_eqb_eval rho' e x E), <- Er. clear - Ix.
  unfold subs_dict; simpl fold_left.
  repeat (destruct Ix as [<-|Ix]; [simpl; rewrite ?Q2R_neg1, ?Q2R_0'; apply C_ext; unfold Re, Im; simpl; ring|]).
  destruct Ix.
Qed.
Example C33_case : sound_solver easy_solver /\ is_cube 3 t_ex /\
  match particularize easy_solver t_ex [] false with
  | Ok u => expr_eqb (at_ u [0; 1]) sx && expr_eqb (at_ u [1; 0]) sx
  | Raise _ => false end = true /\
  match particularize easy_solver t_ex [] true with
  | Ok u => expr_eqb (at_ u [0; 1]) sx && expr_eqb (at_ u [1; 0]) sx
  | Raise _ => false end = true.
Proof. split; [apply easy_solver_sound|]. repeat split; vm_compute; auto. Qed.

(** *** C34 *)

(** Names of symbols: any that [sympy.symbols] can create without escapes. *)
Theorem C34_complex : forall order prefix suffix t, iterates order ->
  (forall i, fits (shape t) i -> ordinary_params (at_ t i)) ->
  plain_text (fst prefix) -> plain_text (snd prefix) -> plain_text (fst suffix) -> plain_text (snd suffix) ->
  exists u, make_tensor_complex order prefix suffix t = Ok u /\
  shape u = shape t /\
  (forall i, fits (shape t) i -> declared (at_ u i)) /\
  (forall i rho, fits (shape t) i -> eval rho (at_ u i) = eval (with_complex prefix suffix rho) (at_ t i)) /\
  (exists u', make_tensor_complex order prefix suffix u = Ok u' /\ shape u' = shape t /\ forall i, fits (shape t) i -> at_ u' i = at_ u i) /\
  (assert_real_params u = Ok tt <-> ~ declared_nonreal t) /\
  (declared_nonreal t -> assert_real_params u = Raise ValueError).
Proof.
  intros order prefix suffix t Ho O P1 P2 S1 S2.
  exists (tmap (replace_params order (complex_param prefix suffix)) t). split; [apply complex_made; assumption|].
  set (u := tmap (replace_params order (complex_param prefix suffix)) t).
  assert (Hn : forall n s, In s (syms (complex_param prefix suffix n)) -> sreal s = Some true).
  { intros n s. simpl. intros [<-|[<-|[]]]; auto. }
  assert (D : forall i, fits (shape t) i -> declared (at_ u i)).
  { intros i F s I. simpl in I. apply replace_params_declared in I; auto. destruct I as [[_ N]|E]; auto. congruence. }
  split; [reflexivity|]. split; [exact D|]. split; [|split].
  - intros i rho F. simpl. rewrite (replace_params_value order Ho _ Hn); auto.
    apply eval_ext. intros s _. unfold with_new, with_complex. destruct (sreal s); auto.
    simpl. rewrite Q2R_0', Q2R_1'. change (0%R, 1%R) with Ci. ring.
  - exists (tmap (replace_params order (complex_param prefix suffix)) u). split; [|split; [reflexivity|]].
    + apply complex_made; try assumption. intros i F s I N. exfalso. exact (D i F s I N).
    + intros i F. cbn [tmap at_]. rewrite replace_params_id; auto.
  - split; [|intros N]; apply replace_params_check; auto.
Qed.
Print Assumptions C34_complex.

Theorem C34_real : forall order t, iterates order ->
  (forall i, fits (shape t) i -> ordinary_params (at_ t i)) ->
  exists u, make_tensor_real order t = Ok u /\
  shape u = shape t /\
  (forall i, fits (shape t) i -> declared (at_ u i)) /\
  (forall i rho, fits (shape t) i -> eval rho (at_ u i) = eval (with_real rho) (at_ t i)) /\
  (exists u', make_tensor_real order u = Ok u' /\ shape u' = shape t /\ forall i, fits (shape t) i -> at_ u' i = at_ u i) /\
  (assert_real_params u = Ok tt <-> ~ declared_nonreal t) /\
  (declared_nonreal t -> assert_real_params u = Raise ValueError).
Proof.
  intros order t Ho O. exists (tmap (replace_params order real_param) t). split; [apply real_made; assumption|].
  set (u := tmap (replace_params order real_param) t).
  assert (Hn : forall n s, In s (syms (real_param n)) -> sreal s = Some true).
  { intros n s. simpl. intros [<-|[]]; auto. }
  assert (D : forall i, fits (shape t) i -> declared (at_ u i)).
  { intros i F s I. simpl in I. apply replace_params_declared in I; auto. destruct I as [[_ N]|E]; auto. congruence. }
  split; [reflexivity|]. split; [exact D|]. split; [|split].
  - intros i rho F. simpl. rewrite (replace_params_value order Ho _ Hn); auto.
  - exists (tmap (replace_params order real_param) u). split; [|split; [reflexivity|]].
    + apply real_made. intros i F s I N. exfalso. exact (D i F s I N).
    + intros i F. cbn [tmap at_]. rewrite replace_params_id; auto.
  - split; [|intros N]; apply replace_params_check; auto.
Qed.
Print Assumptions C34_real.

Example C34_case : ordinary "xxy" /\ plain_text "real_" /\
  match make_tensor_complex (fun l => l) ("real_", "imag_")%string (EmptyString, EmptyString) (mkT [] (fun _ => EMul [sx; sy])) with
  | Ok u => at_ u []
  | Raise _ => num 0 end
  = EMul [EAdd [ESym (mksym "real_x" (Some true)); EMul [EI; ESym (mksym "imag_x" (Some true))]];
          EAdd [ESym (mksym "real_y" (Some true)); EMul [EI; ESym (mksym "imag_y" (Some true))]]].
Proof.
  split; [apply one_name_ordinary; reflexivity|]. split; [|reflexivity].
  refine (proj2 (proj1 (one_name_ordinary "real_") _)). reflexivity.
Qed.

(** *** C35 *)
Local Open Scope R_scope.

(** The matrix is the right-handed rotation by [t] about the axis; the axis array
    itself is normalised in place. *)
Theorem C35_rotation : forall n t, nonzero n ->
  exists m, rotation_matrix3 VFloat n t = Ok (unit_of n, m) /\
    is_rotation m /\ apply m n = n /\ mtrace m = 1 + 2 * cos t /\
    (forall v, dot n v = 0 -> apply m v = vadd (smul (cos t) v) (smul (sin t) (cross (unit_of n) v))).
Proof.
  intros n t N. exists (rot_rows (unit_of n) (cos t) (sin t)). split; [apply rotation_float; auto|].
  pose proof (unit_dot n N) as U. pose proof (vnorm_pos n N) as P.
  assert (En : n = smul (vnorm n) (unit_of n)).
  { unfold unit_of. rewrite <- vnorm_dot. destruct n as [[x y] z]. cbn [smul]. set (m := vnorm _) in *. apply vec_ext; field; lra. }
  repeat split; try apply rot_is_rotation; auto.
  - rewrite En at 2 3. apply rot_fixes; auto.
  - apply rot_trace; auto.
  - intros v D. rewrite rot_rodrigues.
    assert (D' : dot (unit_of n) v = 0).
    { unfold unit_of. replace (dot (smul (/ sqrt (dot n n)) n) v) with (/ sqrt (dot n n) * dot n v).
      - rewrite D; ring.
      - generalize (/ sqrt (dot n n)). intros k. vecs; cbn; ring. }
    rewrite D'. generalize (unit_of n) (cos t) (sin t). intros u c s. vecs; cbn. apply vec_ext; ring.
Qed.
Print Assumptions C35_rotation.

(** Angles about one axis add up, and the length of the axis does not matter. *)
Theorem C35_group : forall n k t t', nonzero n -> 0 < k ->
  exists n' m m' s, rotation_matrix3 VFloat n t = Ok (n', m) /\ rotation_matrix3 VFloat n t' = Ok (n', m') /\
    rotation_matrix3 VFloat n (t + t') = Ok (n', s) /\ mmul m m' = s /\
    rotation_matrix3 VFloat (smul k n) t = Ok (n', m).
Proof.
  intros n k t t' N K.
  exists (unit_of n), (rot_rows (unit_of n) (cos t) (sin t)), (rot_rows (unit_of n) (cos t') (sin t')),
    (rot_rows (unit_of n) (cos (t + t')) (sin (t + t'))).
  rewrite !rotation_float by auto. repeat split; auto.
  - rewrite rot_compose by (apply unit_dot; auto). rewrite cos_plus, sin_plus. auto.
  - assert (Nk : nonzero (smul k n)).
    { intros E. apply N. destruct n as [[x y] z]. cbn in E. injection E as E1 E2 E3.
      apply Rmult_integral in E1, E2, E3. apply vec_ext; lra. }
    rewrite rotation_float by auto. rewrite unit_scale by auto. auto.
Qed.
Print Assumptions C35_group.

(** An axis given as an integer array is truncated when it is normalised; the
    result need not be a rotation. *)
Theorem C35_integer_refuted : exists n t n' m, nonzero n /\
  rotation_matrix3 VInt n t = Ok (n', m) /\ ~ is_rotation m /\ apply m n <> n.
Proof.
  exists (1, 1, 0), (PI / 2).
  assert (Nn : nonzero (1, 1, 0)) by (intros E; injection E; lra).
  assert (S2 : vnorm (1, 1, 0) = sqrt 2) by (cbn; f_equal; ring).
  assert (B : 1 < sqrt 2 < 2).
  { split.
    - rewrite <- sqrt_1 at 1. apply sqrt_lt_1; lra.
    - replace 2 with (sqrt (2 * 2)) at 2 by (apply sqrt_square; lra). apply sqrt_lt_1; lra. }
  assert (T1 : rtrunc (1 / sqrt 2) = 0).
  { unfold rtrunc. assert (0 < 1 / sqrt 2 < 1).
    { split; [apply Rdiv_lt_0_compat; lra|]. apply Rmult_lt_reg_r with (sqrt 2); [lra|]. unfold Rdiv.
      rewrite Rmult_assoc, Rinv_l; lra. }
    destruct (Rle_dec 0 (1 / sqrt 2)); [|lra]. rewrite (Int_part_unique _ 0); auto. lra. }
  assert (T0 : rtrunc (0 / sqrt 2) = 0).
  { replace (0 / sqrt 2) with (IZR 0) by (unfold Rdiv; ring). apply rtrunc_IZR. }
  exists (0, 0, 0), (rot_rows (0, 0, 0) 0 1). unfold rotation_matrix3. rewrite S2.
  destruct (Req_EM_T (sqrt 2) 0); [lra|]. cbn [vmap vcast]. rewrite T1, T0, cos_PI2, sin_PI2.
  repeat split; auto.
  - intros (_ & _ & D). cbn in D. lra.
  - cbn. intros E. injection E. lra.
Qed.
Print Assumptions C35_integer_refuted.

Example C35_case : nonzero (0, 3, 4) /\ unit_of (0, 3, 4) = (0, 3 / 5, 4 / 5).
Proof.
  split; [intros E; injection E; lra|]. unfold unit_of. cbn.
  replace (0 * 0 + 3 * 3 + 4 * 4) with (5 * 5) by ring. rewrite sqrt_square by lra. apply vec_ext; field.
Qed.

(** *** C36 *)

(** Away from opposite directions: a proper rotation that takes the one
    direction to the other, then rounded entry by entry. *)
Theorem C36_two_vectors_partial : forall v w accuracy ndigits,
  nonzero v -> nonzero w -> ~ antiparallel v w -> 0 < accuracy ->
  exists m r, is_rotation m /\ apply m (unit_of v) = unit_of w /\
    rotation_matrix_from_two_vectors v w accuracy ndigits = Ok r /\
    entries_within (/ 2 * / 10 ^ ndigits) r m.
Proof.
  intros v w acc nd Nv Nw NA Pa. destruct (two_vectors_ok v w acc Nv Nw NA Pa) as (m & E & Rm & Mm).
  exists m, (mmap (round_digits nd) m). repeat split; try apply Rm; auto.
  - unfold rotation_matrix_from_two_vectors. rewrite E. auto.
  - apply round_entries.
Qed.
Print Assumptions C36_two_vectors_partial.

(** Opposite directions always give minus the identity, which is not a rotation. *)
Theorem C36_antiparallel_refuted : forall v w accuracy ndigits, nonzero v -> antiparallel v w ->
  rotation_matrix_from_two_vectors v w accuracy ndigits = Ok neg_ident /\
  ~ is_rotation neg_ident /\ det neg_ident = -1.
Proof.
  intros v w acc nd Nv An. repeat split.
  - unfold rotation_matrix_from_two_vectors. rewrite two_vectors_anti by auto. cbn [bind]. f_equal.
    unfold neg_ident. cbn [mmap vmap].
    pose proof (round_digits_int nd 0) as R0. pose proof (round_digits_int nd (-1)) as R1.
    cbn in R0, R1. rewrite R0, R1. auto.
  - intros (_ & _ & D). cbn in D. lra.
  - cbn. ring.
Qed.
Print Assumptions C36_antiparallel_refuted.

Example C36_case : nonzero (1, 0, 0) /\ nonzero (0, 2, 0) /\ ~ antiparallel (1, 0, 0) (0, 2, 0) /\
  antiparallel (1, 0, 0) (-3, 0, 0).
Proof.
  repeat split.
  - intros E; injection E; lra.
  - intros E; injection E; lra.
  - intros (k & _ & E). cbn in E. injection E. lra.
  - exists (-3). split; [lra|]. cbn. apply vec_ext; ring.
Qed.

(** *** C37 *)
Theorem C37_union : forall (K : Type) (EK : Eqb K) (arrays : list (list K)),
  NoDup (union arrays) /\
  (forall x, In x (union arrays) <-> exists a, In a arrays /\ In x a) /\
  StronglySorted (fun x y => (first_at x (concat arrays) < first_at y (concat arrays))%nat) (union arrays).
Proof.
  intros K EK arrays. destruct (union_spec arrays) as (N & I & S). repeat split; auto.
  - intros J. apply I, in_concat in J. auto.
  - intros J. apply I, in_concat. auto.
Qed.
Print Assumptions C37_union.

Example C37_case : union [[3; 1; 3]; [2; 1]; []; [5; 3]]%nat = [3; 1; 2; 5]%nat.
Proof. reflexivity. Qed.
