(** Exact computation with matrices over Z[sqrt 3], used to decide invariance and
    completeness of the tensor tables. *)
From Coq Require Import String List Arith Bool ZArith QArith Qreals Reals Lra Lia.
Import ListNotations.
From Coquelicot Require Import Complex.
From Verif Require Import PyBase CBase Expr ExprProofs TensorModel SpecTensor TensorProofs TensorProofs2
  TensorInst TensorDefs SpecGroups.
Local Open Scope nat_scope.

(** ** The ring Z[sqrt 3] *)
Definition sadd (x y : surd) : surd := (fst x + fst y, snd x + snd y)%Z.
Definition smul (x y : surd) : surd := (fst x * fst y + 3 * (snd x * snd y), fst x * snd y + snd x * fst y)%Z.
Definition s0 : surd := (0, 0)%Z.
Definition s1 : surd := (1, 0)%Z.
Definition s_eqb (x y : surd) : bool := ((fst x =? fst y) && (snd x =? snd y))%Z.
Definition toC (x : surd) : C := RtoC (sval x).

Lemma s_eqb_eq x y : s_eqb x y = true -> x = y.
Proof.
  unfold s_eqb. rewrite andb_true_iff, !Z.eqb_eq. destruct x, y; simpl. intros [-> ->]. reflexivity.
Qed.
Lemma sqrt3_sq : (sqrt 3 * sqrt 3 = 3)%R.
Proof. apply sqrt_sqrt. lra. Qed.
Lemma toC_add x y : toC (sadd x y) = (toC x + toC y)%C.
Proof. unfold toC, sval, sadd. simpl. rewrite <- RtoC_plus, !plus_IZR. f_equal. ring. Qed.
Lemma toC_mul x y : toC (smul x y) = (toC x * toC y)%C.
Proof.
  unfold toC, sval, smul. cbn [fst snd]. rewrite <- RtoC_mult, !plus_IZR, !mult_IZR. f_equal.
  generalize sqrt3_sq. intros Q.
  replace ((IZR (fst x) + IZR (snd x) * sqrt 3) * (IZR (fst y) + IZR (snd y) * sqrt 3))%R with
    (IZR (fst x) * IZR (fst y) + (sqrt 3 * sqrt 3) * (IZR (snd x) * IZR (snd y)) +
     (IZR (fst x) * IZR (snd y) + IZR (snd x) * IZR (fst y)) * sqrt 3)%R by ring.
  rewrite Q. ring.
Qed.
Lemma toC_0 : toC s0 = RtoC 0.
Proof. unfold toC, sval, s0; simpl. f_equal. ring. Qed.
Lemma toC_1 : toC s1 = RtoC 1.
Proof. unfold toC, sval, s1; simpl. f_equal. ring. Qed.
Lemma toC_Z z : toC (z, 0%Z) = RtoC (IZR z).
Proof. unfold toC, sval; simpl. f_equal. ring. Qed.

(** ** Linear combinations with coefficients in Z[sqrt 3] *)
Notation lc K := (list (K * surd)).

Section LC.
  Context {K : Type} (keqb : K -> K -> bool) (keqb_eq : forall a b, keqb a b = true -> a = b).

  Definition pair_with (f : K -> C) (l : lc K) : C := Csum (fun kc => toC (snd kc) * f (fst kc))%C l.
  Definition scale (c : surd) (l : lc K) : lc K := map (fun kc => (fst kc, smul c (snd kc))) l.

  Fixpoint addto (k : K) (c : surd) (l : lc K) : lc K :=
    match l with
    | [] => [(k, c)]
    | (k', c') :: l' => if keqb k k' then (k', sadd c c') :: l' else (k', c') :: addto k c l'
    end.
  Definition collect (keys : list K) (l : lc K) : lc K :=
    fold_right (fun kc acc => addto (fst kc) (snd kc) acc) (map (fun k => (k, s0)) keys) l.

  Fixpoint lc_eqb (l l' : lc K) : bool :=
    match l, l' with
    | [], [] => true
    | (k, c) :: l1, (k', c') :: l2 => keqb k k' && s_eqb c c' && lc_eqb l1 l2
    | _, _ => false
    end.

  Lemma pair_app f l l' : pair_with f (l ++ l') = (pair_with f l + pair_with f l')%C.
  Proof. apply Csum_app. Qed.
  Lemma pair_scale f c l : pair_with f (scale c l) = (toC c * pair_with f l)%C.
  Proof.
    unfold pair_with, scale. rewrite Csum_map, <- Csum_mult_l. apply Csum_ext. intros [k x]; simpl.
    rewrite toC_mul. ring.
  Qed.
  Lemma pair_addto f k c l : pair_with f (addto k c l) = (toC c * f k + pair_with f l)%C.
  Proof.
    induction l as [|[k' c'] l IH]; simpl; auto.
    destruct (keqb k k') eqn:Q.
    - apply keqb_eq in Q. subst k'. unfold pair_with. rewrite !Csum_cons. simpl. rewrite toC_add. ring.
    - unfold pair_with in *. rewrite !Csum_cons, IH. simpl. ring.
  Qed.
  Lemma pair_collect f keys l : pair_with f (collect keys l) = pair_with f l.
  Proof.
    induction l as [|[k c] l IH].
    - unfold pair_with, collect. cbn [fold_right]. rewrite Csum_map. simpl. apply Csum_0_in. intros. rewrite toC_0. ring.
    - change (collect keys ((k, c) :: l)) with (addto k c (collect keys l)). rewrite pair_addto, IH.
      unfold pair_with. rewrite Csum_cons. reflexivity.
  Qed.
  Lemma lc_eqb_eq l : forall l', lc_eqb l l' = true -> l = l'.
  Proof.
    induction l as [|[k c] l IH]; intros [|[k' c'] l']; simpl; intros H; try discriminate; auto.
    rewrite !andb_true_iff in H. destruct H as [[H1 H2] H3].
    apply keqb_eq in H1. apply s_eqb_eq in H2. rewrite (IH _ H3). congruence.
  Qed.
  Definition same (keys : list K) (l l' : lc K) : bool := lc_eqb (collect keys l) (collect keys l').
  Lemma same_sound keys l l' f : same keys l l' = true -> pair_with f l = pair_with f l'.
  Proof.
    intros H. apply lc_eqb_eq in H. rewrite <- (pair_collect f keys l), <- (pair_collect f keys l'). congruence.
  Qed.
  Lemma pair_flat_map {B} f (g : B -> lc K) l : pair_with f (flat_map g l) = Csum (fun b => pair_with f (g b)) l.
  Proof. unfold pair_with. apply Csum_flat_map. Qed.
End LC.

(** ** Rows of the action of a matrix on tensors *)
Fixpoint expand (g : smat) (I : list nat) : lc (list nat) :=
  match I with
  | [] => [([], s1)]
  | i :: I' =>
      let rest := expand g I' in
      flat_map (fun a => let c := sentry g i a in
                if s_eqb c s0 then []
                else map (fun kc => (a :: fst kc, smul c (snd kc))) rest) [0; 1; 2]
  end.

Lemma sumv_Csum {A} (f : A -> C) l : sumv (map f l) = Csum f l.
Proof. induction l as [|a l IH]; [reflexivity|]. rewrite Csum_cons, <- IH. reflexivity. Qed.

Lemma expand_cons_term g i I a f :
  Csum (fun kc => toC (snd kc) * f (fst kc))%C
    (let c := sentry g i a in if s_eqb c s0 then []
      else map (fun kc => (a :: fst kc, smul c (snd kc))) (expand g I))
  = (toC (sentry g i a) * pair_with (fun x => f (a :: x)) (expand g I))%C.
Proof.
  cbv zeta. destruct (s_eqb (sentry g i a) s0) eqn:Q.
  - apply s_eqb_eq in Q. rewrite Q, toC_0. simpl. ring.
  - rewrite Csum_map. unfold pair_with. rewrite <- Csum_mult_l. apply Csum_ext. intros [k x]; simpl.
    rewrite toC_mul. ring.
Qed.

Lemma pair_expand_cons g i I f : pair_with f (expand g (i :: I)) =
  Csum (fun a => toC (sentry g i a) * pair_with (fun x => f (a :: x)) (expand g I))%C [0; 1; 2].
Proof.
  cbn [expand]. cbv zeta. unfold pair_with at 1. rewrite Csum_flat_map. apply Csum_ext. intros a.
  apply expand_cons_term.
Qed.

Lemma half_toC x : RtoC (sval x / 2) = (toC x * RtoC (/2))%C.
Proof. unfold toC. rewrite <- RtoC_mult. reflexivity. Qed.

Lemma Csum_3 (f : nat -> C) : Csum f [0; 1; 2] = (f 0 + (f 1 + f 2))%C.
Proof. unfold Csum; simpl. ring. Qed.

Lemma expand_ok g : forall I f,
  Csum (fun a => prod_entries (mat g) I a * f a)%C (indices (repeat 3 (length I)))
  = (Cpow (RtoC (/2)) (length I) * pair_with f (expand g I))%C.
Proof.
  induction I as [|i I IH]; intros f.
  - cbn. unfold pair_with. cbn. rewrite toC_1. unfold Csum; simpl. ring.
  - cbn [length repeat indices]. change (seq 0 3) with [0; 1; 2].
    rewrite pair_expand_cons, Csum_flat_map.
    rewrite <- Csum_mult_l. apply Csum_ext. intros a. rewrite Csum_map.
    rewrite (Csum_ext _ (fun x => RtoC (sval (sentry g i a) / 2) *
                                  (prod_entries (mat g) I x * f (a :: x)))%C)
      by (intros x; simpl; ring).
    rewrite Csum_mult_l, IH, half_toC. cbn [Cpow]. ring.
Qed.

Lemma rotated_expand (t : tensor C) g I : shape t = repeat 3 (length I) ->
  rotated t (mat g) I = (Cpow (RtoC (/2)) (length I) * pair_with (at_ t) (expand g I))%C.
Proof. intros Sh. unfold rotated. rewrite Sh, sumv_Csum. apply expand_ok. Qed.

Lemma fits_cube n I : fits (repeat 3 n) I -> length I = n.
Proof. intros F. apply fits_length in F. rewrite repeat_length in F. auto. Qed.

(** ** Invariance in components *)
Lemma rotated_ext (t u : tensor C) R i : shape t = shape u ->
  (forall a, fits (shape t) a -> at_ t a = at_ u a) -> rotated t R i = rotated u R i.
Proof.
  intros Sh H. unfold rotated. rewrite <- Sh, !sumv_Csum. apply Csum_ext_in. intros a Ia.
  apply in_indices in Ia. rewrite (H a Ia). reflexivity.
Qed.

Lemma prod_entries_ext (R Q : tensor C) : (forall x y, x < 3 -> y < 3 -> at_ R [x; y] = at_ Q [x; y]) ->
  forall n i a, fits (repeat 3 n) i -> fits (repeat 3 n) a -> prod_entries R i a = prod_entries Q i a.
Proof.
  intros H. induction n as [|n IH]; intros i a Fi Fa; inversion Fi; inversion Fa; subst; auto.
  simpl. rewrite H, (IH l l0); auto.
Qed.

Lemma teq_matrix (R Q : tensor C) : shape R = [3; 3] -> teq R Q -> forall x y, x < 3 -> y < 3 -> at_ R [x; y] = at_ Q [x; y].
Proof.
  intros Sh [_ H] x y Lx Ly. apply H. rewrite Sh. apply in_indices.
  constructor; [auto|constructor; [auto|constructor]].
Qed.

Lemma rotated_mat_ext (t R Q : tensor C) n i : shape t = repeat 3 n -> shape R = [3; 3] -> teq R Q ->
  fits (shape t) i -> rotated t R i = rotated t Q i.
Proof.
  intros St SR T F. unfold rotated. rewrite !sumv_Csum. apply Csum_ext_in. intros a Ia. apply in_indices in Ia.
  rewrite (prod_entries_ext R Q) with (n := n); auto; try congruence.
  apply teq_matrix; auto.
Qed.

Lemma cube_of n (t : tensor C) : shape t = repeat 3 n -> is_cube 3 t.
Proof. intros Sh. unfold is_cube, rank. rewrite Sh, repeat_length. reflexivity. Qed.

Lemma invariant_iff (t R : tensor C) n : shape t = repeat 3 (S n) -> shape R = [3; 3] ->
  invariant t R <-> forall i, fits (shape t) i -> rotated t R i = at_ t i.
Proof.
  intros St SR.
  destruct (transform_ok t R 3 SR (cube_of _ _ St)) as (u & Eu & Su & Au).
  { unfold rank. rewrite St, repeat_length. lia. }
  unfold invariant. split.
  - intros (v & Ev & Sv & Hv) i F. rewrite Eu in Ev. inversion Ev; subst v. rewrite <- Au by auto.
    apply Hv. rewrite Su. apply in_indices; auto.
  - intros H. exists u. split; auto. split; auto. intros i I. rewrite Su in I. apply in_indices in I.
    rewrite Au by auto. apply H; auto.
Qed.

Lemma invariant_step (t R S : tensor C) n : shape t = repeat 3 (Datatypes.S n) -> shape R = [3; 3] -> shape S = [3; 3] ->
  invariant t R -> invariant t S -> invariant t (matmul 3 R S).
Proof.
  intros St SR SS. rewrite !(invariant_iff _ _ n) by auto. intros HR HS i F.
  rewrite <- (rotated_mul 3 t t R S i) ; auto.
  - apply cube_of with (1 := St).
  - intros a Fa. symmetry. auto.
Qed.

Lemma generated_shape gens R : generated gens R -> shape R = [3; 3].
Proof. intros G; inversion G; reflexivity. Qed.

Lemma invariant_generated (t : tensor C) gens n : shape t = repeat 3 (S n) ->
  (forall g, In g gens -> invariant t (mat g)) -> forall R, generated gens R -> invariant t R.
Proof.
  intros St H R G. induction G as [|R g G IH I].
  - apply (invariant_iff _ _ n); auto. intros i F. apply rotated_id; auto.
  - apply invariant_step with (n := n); auto. apply generated_shape with (1 := G).
Qed.

Lemma invariant_teq (t R Q : tensor C) n : shape t = repeat 3 (S n) -> shape R = [3; 3] -> teq R Q ->
  invariant t R -> invariant t Q.
Proof.
  intros St SR T. assert (SQ : shape Q = [3; 3]) by (destruct T; congruence).
  rewrite !(invariant_iff _ _ n) by auto. intros H i F. rewrite <- H by auto. symmetry.
  apply rotated_mat_ext with (n := S n); auto.
Qed.

(** ** Entries as linear forms *)
Fixpoint lin (e : expr) : option (lc string) :=
  match e with
  | ENum (0 # 1) (0 # 1) => Some []
  | ESym (mksym s None) => Some [(s, s1)]
  | EMul [ENum (-1 # 1) (0 # 1); e'] => option_map (scale (-1, 0)%Z) (lin e')
  | EAdd [a; b] => match lin a, lin b with Some x, Some y => Some (x ++ y) | _, _ => None end
  | _ => None
  end.

Definition at_name (rho : env) (n : string) : C := rho (mksym n None).

Lemma Q2R_0 : Q2R (0 # 1) = 0%R. Proof. unfold Q2R; simpl. ring. Qed.
Lemma Q2R_m1 : Q2R (-1 # 1) = (-1)%R. Proof. unfold Q2R; simpl. field. Qed.

Lemma lin_ok rho : forall e l, lin e = Some l -> eval rho e = pair_with (at_name rho) l.
Proof.
  fix go 1. intros e l H. destruct e as [a b|s|es|es|e n|e|e|e|e|e]; simpl in H; try discriminate.
  - destruct a as [[| |] [| |]]; try discriminate. destruct b as [[| |] [| |]]; try discriminate.
    inversion H; subst. simpl. rewrite Q2R_0. reflexivity.
  - destruct s as [n [|]]; try discriminate. inversion H; subst. simpl. unfold pair_with, Csum, at_name. simpl.
    rewrite toC_1. ring.
  - destruct es as [|a [|b [|]]]; try discriminate.
    destruct (lin a) as [x|] eqn:Ea; try discriminate. destruct (lin b) as [y|] eqn:Eb; try discriminate.
    inversion H; subst. rewrite pair_app. simpl. rewrite (go a x Ea), (go b y Eb). ring.
  - destruct es as [|c [|e [|]]]; try discriminate.
    all: destruct c as [a b|s|es|es|e' n|e'|e'|e'|e'|e']; try discriminate.
    all: destruct a as [[|a|a] [| |]]; try discriminate; try (destruct a; discriminate).
    all: destruct a; try discriminate.
    all: destruct b as [[| |] [| |]]; try discriminate.
    destruct (lin e) as [x|] eqn:Ee; simpl in H; try discriminate. inversion H; subst.
    rewrite pair_scale, toC_Z. simpl. rewrite (go e x Ee), Q2R_m1, Q2R_0.
    change ((-1)%R, 0%R) with (RtoC (-1)). ring.
Qed.

Lemma lin_syms : forall e l, lin e = Some l -> forall s, In s (syms e) -> exists n c, s = mksym n None /\ In (n, c) l.
Proof.
  fix go 1. intros e l H s I. destruct e as [a b|s'|es|es|e n|e|e|e|e|e]; simpl in H; try discriminate.
  - simpl in I. contradiction.
  - destruct s' as [n [|]]; try discriminate. inversion H; subst. destruct I as [<-|[]]. exists n, s1. simpl; auto.
  - destruct es as [|a [|b [|]]]; try discriminate.
    destruct (lin a) as [x|] eqn:Ea; try discriminate. destruct (lin b) as [y|] eqn:Eb; try discriminate.
    inversion H; subst. simpl in I. rewrite app_nil_r in I. apply in_app_iff in I as [I|I].
    + destruct (go a x Ea s I) as (n & c & E & J). exists n, c. rewrite in_app_iff. auto.
    + destruct (go b y Eb s I) as (n & c & E & J). exists n, c. rewrite in_app_iff. auto.
  - destruct es as [|c [|e [|]]]; try discriminate.
    all: destruct c as [a b|s'|es|es|e' n|e'|e'|e'|e'|e']; try discriminate.
    all: destruct a as [[|a|a] [| |]]; try discriminate; try (destruct a; discriminate).
    all: destruct a; try discriminate.
    all: destruct b as [[| |] [| |]]; try discriminate.
    destruct (lin e) as [x|] eqn:Ee; simpl in H; try discriminate. inversion H; subst.
    simpl in I. rewrite app_nil_r in I. destruct (go e x Ee s I) as (n & c & E & J).
    exists n, (smul (-1, 0)%Z c). split; auto. unfold scale. apply in_map_iff. exists (n, c). auto.
Qed.

(** All entries of a table at once. *)
Fixpoint all_some {A} (l : list (option A)) : option (list A) :=
  match l with
  | [] => Some []
  | Some a :: l' => option_map (cons a) (all_some l')
  | None :: _ => None
  end.

Lemma all_some_ok {A B} (f : A -> option B) : forall l m, all_some (map f l) = Some m ->
  forall k d d', k < length l -> f (nth k l d) = Some (nth k m d') /\ length m = length l.
Proof.
  induction l as [|a l IH]; intros m H k d d' L; simpl in *; [lia|].
  destruct (f a) as [b|] eqn:E; try discriminate.
  destruct (all_some (map f l)) as [m'|] eqn:E'; simpl in H; try discriminate. inversion H; subst.
  destruct k as [|k]; simpl.
  - split; auto. destruct l as [|a' l'].
    + simpl in E'. inversion E'; reflexivity.
    + destruct (IH m' eq_refl 0 d d') as [_ L']; simpl in *; lia.
  - destruct (IH m' eq_refl k d d') as [X L']; [lia|]. split; auto.
Qed.

(** ** The decision procedures *)
Definition zeta_names (rows : list (lc string)) : list string :=
  nodup string_dec (flat_map (map fst) rows).

(** 2^rank times row [I] of the transformed table, and of the table. *)
Definition pow2 (n : nat) : surd := ((2 ^ Z.of_nat n)%Z, 0%Z).

Definition invariance_check (rank : nat) (rows : list (lc string)) (g : smat) : bool :=
  let names := zeta_names rows in
  forallb (fun I =>
    same String.eqb names
      (flat_map (fun kc => scale (snd kc) (nth (position (fst kc)) rows [])) (expand g I))
      (scale (pow2 rank) (nth (position I) rows [])))
    (indices (repeat 3 rank)).

Lemma string_eqb_eq a b : String.eqb a b = true -> a = b.
Proof. apply String.eqb_eq. Qed.

Lemma toC_pow2 n : toC (pow2 n) = RtoC (2 ^ n).
Proof. unfold pow2. rewrite toC_Z, <- pow_IZR. reflexivity. Qed.

Lemma Cpow_half n : (Cpow (RtoC (/2)) n * RtoC (2 ^ n) = RtoC 1)%C.
Proof.
  induction n as [|n IH]; simpl; [ring|].
  replace (RtoC (2 * 2 ^ n)) with (RtoC 2 * RtoC (2 ^ n))%C by (rewrite <- RtoC_mult; reflexivity).
  transitivity ((RtoC (/2) * RtoC 2) * (Cpow (RtoC (/2)) n * RtoC (2 ^ n)))%C; [ring|].
  rewrite IH. rewrite <- RtoC_mult. apply C_ext; simpl; field.
Qed.

Lemma fold_pos i : forall a, fold_left (fun a x => 3 * a + x) i a = a * 3 ^ length i + position i.
Proof.
  unfold position. induction i as [|x i IH]; intros a; cbn [fold_left length Nat.pow]; [lia|].
  rewrite (IH (3 * a + x)), (IH (3 * 0 + x)). ring.
Qed.
Lemma position_cons x i : position (x :: i) = x * 3 ^ length i + position i.
Proof. unfold position at 1. cbn [fold_left]. rewrite fold_pos. ring. Qed.
Lemma position_lt n i : fits (repeat 3 n) i -> position i < 3 ^ n.
Proof.
  revert i; induction n as [|n IH]; intros i F; inversion F as [|x d i' sh L Fi]; subst; [unfold position; simpl; lia|].
  rewrite position_cons. apply fits_cube in Fi as E. rewrite E. pose proof (IH _ Fi).
  cbn [Nat.pow]. nia.
Qed.

Lemma expand_fits g : forall I k c, In (k, c) (expand g I) -> fits (repeat 3 (length I)) k.
Proof.
  induction I as [|i I IH]; intros k c H.
  - simpl in H. destruct H as [H|[]]. inversion H; subst. constructor.
  - cbn [expand] in H. apply in_flat_map in H as (a & Ia & H). cbv zeta in H.
    destruct (s_eqb (sentry g i a) s0); [contradiction|].
    apply in_map_iff in H as ([k' c'] & E & H). inversion E; subst. apply IH in H.
    constructor; auto. simpl in Ia. lia.
Qed.

Section Table.
  Context (rank : nat) (entries : list expr) (rows : list (lc string)).
  Context (Hlin : all_some (map lin entries) = Some rows).
  Context (Hlen : length entries = 3 ^ S rank).
  Notation t := (table_tensor (S rank) entries).

  Lemma row_ok I : fits (repeat 3 (S rank)) I -> lin (at_ t I) = Some (nth (position I) rows []).
  Proof.
    intros F. apply position_lt in F. rewrite <- Hlen in F.
    destruct (all_some_ok _ _ _ Hlin (position I) nul [] F) as [X _]. exact X.
  Qed.
  Lemma entry_ok rho I : fits (repeat 3 (S rank)) I ->
    at_ (instance rho t) I = pair_with (at_name rho) (nth (position I) rows []).
  Proof. intros F. simpl. apply (lin_ok rho). apply (row_ok I F). Qed.

  Lemma invariance_ok g rho : invariance_check (S rank) rows g = true -> invariant (instance rho t) (mat g).
  Proof.
    intros H. apply (invariant_iff _ _ rank); auto. intros I F.
    unfold invariance_check in H. rewrite forallb_forall in H.
    specialize (H I (proj2 (in_indices _ _) F)). apply same_sound with (f := at_name rho) in H; [|apply string_eqb_eq].
    pose proof (fits_cube _ _ F) as Ln.
    rewrite rotated_expand by (rewrite Ln; reflexivity).
    rewrite pair_scale, toC_pow2 in H. rewrite entry_ok by auto.
    rewrite pair_flat_map in H.
    assert (E : pair_with (at_ (instance rho t)) (expand g I) =
      Csum (fun kc => pair_with (at_name rho) (scale (snd kc) (nth (position (fst kc)) rows []))) (expand g I)).
    { unfold pair_with at 1. apply Csum_ext_in. intros [k c] K. apply expand_fits in K. rewrite Ln in K.
      rewrite pair_scale. cbn [fst snd]. rewrite entry_ok by auto. reflexivity. }
    rewrite E, H, Ln. rewrite Cmult_assoc, Cpow_half. ring.
  Qed.
End Table.
