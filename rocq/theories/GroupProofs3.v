(** Single components of the invariance condition; the isotropic tensor; the two
    trigonal groups whose tables disagree. *)
From Coq Require Import String Ascii List Arith Bool ZArith QArith Qreals Reals Lra Lia Psatz.
Import ListNotations.
From Coquelicot Require Import Complex.
From Verif Require Import PyBase CBase Expr ExprProofs TensorModel SpecTensor TensorProofs TensorProofs2
  TensorInst TensorDefs SpecGroups GroupProofs GroupProofs2.
Local Open Scope nat_scope.

(** ** One parameter at a time *)
Definition ind (p : string) : env := fun s => if String.eqb (sname s) p then RtoC 1 else RtoC 0.
Definition total (p : string) (row : lc string) : surd :=
  fold_right (fun kc acc => if String.eqb (fst kc) p then sadd (snd kc) acc else acc) s0 row.
Definition support (rank : nat) (rows : list (lc string)) (p : string) : lc (list nat) :=
  filter (fun ac => negb (s_eqb (snd ac) s0))
    (map (fun I => (I, total p (nth (position I) rows []))) (indices (repeat 3 rank))).

Lemma total_ok p row : pair_with (at_name (ind p)) row = toC (total p row).
Proof.
  induction row as [|[k c] row IH]; cbn [total fold_right].
  - rewrite toC_0. reflexivity.
  - unfold pair_with. rewrite Csum_cons. fold (pair_with (at_name (ind p)) row). rewrite IH.
    unfold at_name, ind. cbn [fst snd sname]. fold (total p row).
    destruct (String.eqb k p); [rewrite toC_add|]; ring.
Qed.

Lemma Csum_support {A} (h : A -> C) (l : lc A) :
  Csum (fun ac => h (fst ac) * toC (snd ac))%C (filter (fun ac => negb (s_eqb (snd ac) s0)) l)
  = Csum (fun ac => h (fst ac) * toC (snd ac))%C l.
Proof.
  induction l as [|[a c] l IH]; auto. cbn [filter snd]. destruct (s_eqb c s0) eqn:E; cbn [negb]; rewrite ?Csum_cons, IH; auto.
  apply s_eqb_eq in E. subst c. cbn [fst snd]. rewrite toC_0. ring.
Qed.

Section Component.
  Context (rank : nat) (entries : list expr) (rows : list (lc string)).
  Context (Hlin : all_some (map lin entries) = Some rows).
  Context (Hlen : length entries = 3 ^ S rank).
  Notation t := (table_tensor (S rank) entries).

  Lemma component p M I : shape M = [3; 3] -> invariant (instance (ind p) t) M -> fits (repeat 3 (S rank)) I ->
    Csum (fun ac => prod_entries M I (fst ac) * toC (snd ac))%C (support (S rank) rows p)
    = toC (total p (nth (position I) rows [])).
  Proof.
    intros Sh Inv F. rewrite <- total_ok, <- (entry_ok rank entries rows Hlin Hlen _ I F).
    rewrite <- (proj1 (invariant_iff (instance (ind p) t) M rank eq_refl Sh) Inv I F).
    unfold support. rewrite Csum_support, Csum_map. unfold rotated. rewrite sumv_Csum.
    apply Csum_ext_in. intros a Ia. cbn [fst snd]. cbn [instance tmap shape table_tensor] in Ia.
    apply in_indices in Ia. rewrite (entry_ok rank entries rows Hlin Hlen _ a Ia), total_ok. reflexivity.
  Qed.
End Component.

(** The entries of a named table. *)
Definition entries_of (table : list (string * list expr)) (name : string) : list expr :=
  match dget name table with Some l => l | None => [] end.
Definition rows_of (l : list expr) : list (lc string) :=
  match all_some (map lin l) with Some rows => rows | None => [] end.

Lemma fits3 a b c : a < 3 -> b < 3 -> c < 3 -> fits (repeat 3 3) [a; b; c].
Proof. intros. repeat (constructor; [assumption|]). constructor. Qed.
Lemma fits4 a b c d : a < 3 -> b < 3 -> c < 3 -> d < 3 -> fits (repeat 3 4) [a; b; c; d].
Proof. intros. repeat (constructor; [assumption|]). constructor. Qed.

(** ** The reflection (or half turn) of a conjugate group *)
Section Conjugate.
  Variable Q : tensor C.
  Hypothesis OQ : orthogonal Q.
  Let q i j := Re (at_ Q [i; j]).

  Lemma q_entry i j : i < 3 -> j < 3 -> at_ Q [i; j] = RtoC (q i j).
  Proof. intros Li Lj. apply C_ext; [reflexivity|]. apply (proj1 (proj2 OQ)); auto. Qed.

  Lemma q_rows i j : i < 3 -> j < 3 ->
    (q i 0%nat * q j 0%nat + q i 1%nat * q j 1%nat + q i 2%nat * q j 2%nat = if (i =? j)%nat then 1 else 0)%R.
  Proof.
    intros Li Lj. pose proof (proj1 (proj2 (proj2 OQ)) i j Li Lj) as H.
    change (seq 0 3) with [0; 1; 2] in H. cbn [map sumv fold_right add mul zero Sig_C] in H.
    rewrite !q_entry in H by lia. rewrite <- !RtoC_mult, <- !RtoC_plus in H. unfold delta in H.
    destruct (i =? j); apply RtoC_inj in H; lra.
  Qed.
  Lemma q_cols i j : i < 3 -> j < 3 ->
    (q 0%nat i * q 0%nat j + q 1%nat i * q 1%nat j + q 2%nat i * q 2%nat j = if (i =? j)%nat then 1 else 0)%R.
  Proof.
    intros Li Lj. pose proof (proj2 (proj2 (proj2 OQ)) i j Li Lj) as H.
    change (seq 0 3) with [0; 1; 2] in H. cbn [map sumv fold_right add mul zero Sig_C] in H.
    rewrite !q_entry in H by lia. rewrite <- !RtoC_mult, <- !RtoC_plus in H. unfold delta in H.
    destruct (i =? j); apply RtoC_inj in H; lra.
  Qed.

  (** For diag(s, -s, -s) the conjugate is s (2 q q^T - 1), q the first column. *)
  Definition conj_diag (s : Z) : tensor C :=
    matmul 3 Q (matmul 3 (matmul 3 (identity 3) (mat (diag s (- s) (- s)))) (transpose Q)).

  Lemma conj_entry s i j : i < 3 -> j < 3 ->
    at_ (conj_diag s) [i; j] = RtoC (IZR s * (2 * (q i 0%nat * q j 0%nat) - if (i =? j)%nat then 1 else 0)).
  Proof.
    intros Li Lj. rewrite <- (q_rows i j Li Lj).
    unfold conj_diag. cbn [matmul at_ transpose mat identity].
    change (seq 0 3) with [0; 1; 2]. cbn [map sumv fold_right add mul zero one Sig_C Nat.eqb].
    unfold diag, sentry. cbn [nth]. unfold whole, sval. cbn [fst snd].
    rewrite !q_entry by lia.
    rewrite <- ?RtoC_mult, <- ?RtoC_plus, <- ?RtoC_mult, <- ?RtoC_plus, <- ?RtoC_mult, <- ?RtoC_plus.
    f_equal. rewrite !mult_IZR, !opp_IZR. field.
  Qed.
End Conjugate.

(** Entries of an orthogonal involution that is not the identity, as reals. *)
Record mirror_like (m : nat -> nat -> R) : Prop := {
  ml_rows : forall i j, i < 3 -> j < 3 -> (m i 0%nat * m j 0%nat + m i 1%nat * m j 1%nat + m i 2%nat * m j 2%nat = if (i =? j)%nat then 1 else 0)%R;
  ml_sym : forall i j, i < 3 -> j < 3 -> m i j = m j i;
  ml_not1 : ~ (forall i j, i < 3 -> j < 3 -> m i j = if i =? j then 1%R else 0%R)
}.

Lemma conj_mirror_like Q s : orthogonal Q -> (s = 1 \/ s = -1)%Z ->
  mirror_like (fun i j => IZR s * (2 * (Re (at_ Q [i; 0%nat]) * Re (at_ Q [j; 0%nat])) - if (i =? j)%nat then 1 else 0))%R.
Proof.
  intros O Hs. pose proof (q_cols Q O 0 0 ltac:(lia) ltac:(lia)) as N. cbn [Nat.eqb] in N.
  set (a := Re (at_ Q [0; 0])) in *. set (b := Re (at_ Q [1; 0])) in *. set (c := Re (at_ Q [2; 0])) in *.
  assert (Hs2 : (IZR s * IZR s = 1)%R) by (destruct Hs as [-> | ->]; lra).
  constructor.
  - intros i j Li Lj.
    transitivity (4 * (Re (at_ Q [i; 0%nat]) * Re (at_ Q [j; 0%nat])) * (a * a + b * b + c * c - 1) +
                  if (i =? j)%nat then 1 else 0)%R; [|rewrite N; ring].
    destruct i as [|[|[|i]]]; [..|lia]; destruct j as [|[|[|j]]]; try lia; cbn [Nat.eqb];
      fold a; fold b; fold c; destruct Hs as [-> | ->]; ring.
  - intros i j _ _. rewrite (Nat.eqb_sym i j). ring.
  - intros H.
    pose proof (H 0 0 ltac:(lia) ltac:(lia)) as H00. pose proof (H 1 1 ltac:(lia) ltac:(lia)) as H11.
    pose proof (H 2 2 ltac:(lia) ltac:(lia)) as H22. pose proof (H 0 1 ltac:(lia) ltac:(lia)) as H01.
    cbn [Nat.eqb] in *. fold a in H00, H01. fold b in H11, H01. fold c in H22. destruct Hs as [-> | ->]; nra.
Qed.

(** ** No common orientation for C_3v and D_3 *)
Lemma cube_root_1 x : (x * (x * x) = 1 -> x = 1)%R.
Proof.
  intros H. assert (P : ((x - 1) * (x * x + x + 1) = 0)%R) by (transitivity (x * (x * x) - 1)%R; [ring|lra]).
  apply Rmult_integral in P as [P|P]; [lra|]. pose proof (Rle_0_sqr (x + /2)) as N. unfold Rsqr in N. lra.
Qed.

Definition d3v := entries_of dipole_table "C_3v".
Definition q3v := entries_of quadrupole_table "C_3v".
Definition d3 := entries_of dipole_table "D_3".
Definition q3 := entries_of quadrupole_table "D_3".

Ltac known x v H := replace x with v in H by (vm_compute; reflexivity).
Ltac real_eq me H :=
  unfold Csum in H; cbn [fold_right prod_entries fst snd mul one Sig_C] in H;
  rewrite ?me in H by lia; rewrite ?toC_Z in H;
  rewrite <- ?RtoC_mult, <- ?RtoC_plus, <- ?RtoC_mult, <- ?RtoC_plus, <- ?RtoC_mult, <- ?RtoC_plus in H;
  repeat (progress rewrite <- ?RtoC_mult, <- ?RtoC_plus in H); apply RtoC_inj in H.

Section Mirror.
  Variables (M : tensor C) (m : nat -> nat -> R).
  Hypothesis SM : shape M = [3; 3].
  Hypothesis EM : forall i j, i < 3 -> j < 3 -> at_ M [i; j] = RtoC (m i j).
  Hypothesis HM : mirror_like m.

  Lemma lin_d3v : all_some (map lin d3v) = Some (rows_of d3v). Proof. vm_compute; reflexivity. Qed.
  Lemma lin_q3v : all_some (map lin q3v) = Some (rows_of q3v). Proof. vm_compute; reflexivity. Qed.
  Lemma lin_d3 : all_some (map lin d3) = Some (rows_of d3). Proof. vm_compute; reflexivity. Qed.
  Lemma lin_q3 : all_some (map lin q3) = Some (rows_of q3). Proof. vm_compute; reflexivity. Qed.

  Lemma not_identity : m 0 0 = 1%R -> m 1 1 = 1%R -> m 2 2 = 1%R -> m 0 1 = 0%R -> m 0 2 = 0%R -> m 1 2 = 0%R -> False.
  Proof.
    intros. apply (ml_not1 m HM). intros i j Li Lj.
    destruct i as [|[|[|i]]]; [..|lia]; destruct j as [|[|[|j]]]; try lia; cbn [Nat.eqb]; auto;
      rewrite (ml_sym m HM) by lia; auto.
  Qed.

  (** C_3v: zzz fixes the axis; the two cubic parameters fix both the real and
      the imaginary part of (x+iy)^3. *)
  Lemma no_C_3v :
    (forall rho, invariant (instance rho (table_tensor 3 d3v)) M) ->
    (forall rho, invariant (instance rho (table_tensor 4 q3v)) M) -> False.
  Proof.
    intros D Q.
    pose proof (component 2 d3v _ lin_d3v eq_refl "zzz" M [2;2;2] SM (D _) (fits3 2 2 2 ltac:(lia) ltac:(lia) ltac:(lia))) as Z1.
    pose proof (component 2 d3v _ lin_d3v eq_refl "zzz" M [0;2;2] SM (D _) (fits3 0 2 2 ltac:(lia) ltac:(lia) ltac:(lia))) as Z2.
    pose proof (component 2 d3v _ lin_d3v eq_refl "zzz" M [1;2;2] SM (D _) (fits3 1 2 2 ltac:(lia) ltac:(lia) ltac:(lia))) as Z3.
    pose proof (component 2 d3v _ lin_d3v eq_refl "xyx" M [0;0;0] SM (D _) (fits3 0 0 0 ltac:(lia) ltac:(lia) ltac:(lia))) as A1.
    pose proof (component 2 d3v _ lin_d3v eq_refl "xyx" M [1;1;1] SM (D _) (fits3 1 1 1 ltac:(lia) ltac:(lia) ltac:(lia))) as A2.
    pose proof (component 3 q3v _ lin_q3v eq_refl "yyxz" M [0;0;0;2] SM (Q _) (fits4 0 0 0 2 ltac:(lia) ltac:(lia) ltac:(lia) ltac:(lia))) as B1.
    pose proof (component 3 q3v _ lin_q3v eq_refl "yyxz" M [1;1;1;2] SM (Q _) (fits4 1 1 1 2 ltac:(lia) ltac:(lia) ltac:(lia) ltac:(lia))) as B2.
    known (support 3 (rows_of d3v) "zzz") [([2;2;2], (1, 0)%Z)] Z1.
    known (support 3 (rows_of d3v) "zzz") [([2;2;2], (1, 0)%Z)] Z2.
    known (support 3 (rows_of d3v) "zzz") [([2;2;2], (1, 0)%Z)] Z3.
    known (support 3 (rows_of d3v) "xyx") [([0;0;1], (1, 0)%Z); ([0;1;0], (1, 0)%Z); ([1;0;0], (1, 0)%Z); ([1;1;1], (-1, 0)%Z)] A1.
    known (support 3 (rows_of d3v) "xyx") [([0;0;1], (1, 0)%Z); ([0;1;0], (1, 0)%Z); ([1;0;0], (1, 0)%Z); ([1;1;1], (-1, 0)%Z)] A2.
    known (support 4 (rows_of q3v) "yyxz") [([0;0;0;2], (-1, 0)%Z); ([0;1;1;2], (1, 0)%Z); ([1;0;1;2], (1, 0)%Z); ([1;1;0;2], (1, 0)%Z)] B1.
    known (support 4 (rows_of q3v) "yyxz") [([0;0;0;2], (-1, 0)%Z); ([0;1;1;2], (1, 0)%Z); ([1;0;1;2], (1, 0)%Z); ([1;1;0;2], (1, 0)%Z)] B2.
    known (total "zzz" (nth (position [2;2;2]) (rows_of d3v) [])) (1, 0)%Z Z1.
    known (total "zzz" (nth (position [0;2;2]) (rows_of d3v) [])) (0, 0)%Z Z2.
    known (total "zzz" (nth (position [1;2;2]) (rows_of d3v) [])) (0, 0)%Z Z3.
    known (total "xyx" (nth (position [0;0;0]) (rows_of d3v) [])) (0, 0)%Z A1.
    known (total "xyx" (nth (position [1;1;1]) (rows_of d3v) [])) (-1, 0)%Z A2.
    known (total "yyxz" (nth (position [0;0;0;2]) (rows_of q3v) [])) (-1, 0)%Z B1.
    known (total "yyxz" (nth (position [1;1;1;2]) (rows_of q3v) [])) (0, 0)%Z B2.
    real_eq EM Z1. real_eq EM Z2. real_eq EM Z3. real_eq EM A1. real_eq EM A2. real_eq EM B1. real_eq EM B2.
    assert (G : m 2 2 = 1%R) by (apply cube_root_1; lra).
    assert (G0 : m 0 2 = 0%R) by (rewrite G in Z2; lra).
    assert (G1 : m 1 2 = 0%R) by (rewrite G in Z3; lra).
    pose proof (ml_rows m HM 0 0 ltac:(lia) ltac:(lia)) as R00.
    pose proof (ml_rows m HM 0 1 ltac:(lia) ltac:(lia)) as R01.
    pose proof (ml_rows m HM 1 1 ltac:(lia) ltac:(lia)) as R11.
    cbn [Nat.eqb] in *. rewrite (ml_sym m HM 1 0) in * by lia.
    rewrite G, ?G0, ?G1 in *.
    pose proof not_identity as NI. rewrite G, G0, G1 in NI.
    set (a := m 0 0) in *. set (b := m 0 1) in *. set (d := m 1 1) in *.
    assert (P : (b * (a + d) = 0)%R) by lra. apply Rmult_integral in P as [P|P].
    - rewrite P in *. apply NI; auto; apply cube_root_1; lra.
    - replace d with (- a)%R in * by lra. lra.
  Qed.

  (** D_3: zzzz fixes the axis up to sign; the cubic parameters of the two tables
      exclude the sign, yxz excludes reflections. *)
  Lemma no_D_3 :
    (forall rho, invariant (instance rho (table_tensor 3 d3)) M) ->
    (forall rho, invariant (instance rho (table_tensor 4 q3)) M) -> False.
  Proof.
    intros D Q.
    pose proof (component 3 q3 _ lin_q3 eq_refl "zzzz" M [2;2;2;2] SM (Q _) (fits4 2 2 2 2 ltac:(lia) ltac:(lia) ltac:(lia) ltac:(lia))) as Z1.
    pose proof (component 3 q3 _ lin_q3 eq_refl "zzzz" M [0;2;2;2] SM (Q _) (fits4 0 2 2 2 ltac:(lia) ltac:(lia) ltac:(lia) ltac:(lia))) as Z2.
    pose proof (component 3 q3 _ lin_q3 eq_refl "zzzz" M [1;2;2;2] SM (Q _) (fits4 1 2 2 2 ltac:(lia) ltac:(lia) ltac:(lia) ltac:(lia))) as Z3.
    pose proof (component 2 d3 _ lin_d3 eq_refl "yxz" M [1;0;2] SM (D _) (fits3 1 0 2 ltac:(lia) ltac:(lia) ltac:(lia))) as A0.
    pose proof (component 2 d3 _ lin_d3 eq_refl "yxy" M [0;0;0] SM (D _) (fits3 0 0 0 ltac:(lia) ltac:(lia) ltac:(lia))) as A1.
    pose proof (component 3 q3 _ lin_q3 eq_refl "yyxz" M [0;0;0;2] SM (Q _) (fits4 0 0 0 2 ltac:(lia) ltac:(lia) ltac:(lia) ltac:(lia))) as B1.
    known (support 4 (rows_of q3) "zzzz") [([2;2;2;2], (1, 0)%Z)] Z1.
    known (support 4 (rows_of q3) "zzzz") [([2;2;2;2], (1, 0)%Z)] Z2.
    known (support 4 (rows_of q3) "zzzz") [([2;2;2;2], (1, 0)%Z)] Z3.
    known (support 3 (rows_of d3) "yxz") [([0;1;2], (-1, 0)%Z); ([1;0;2], (1, 0)%Z)] A0.
    known (support 3 (rows_of d3) "yxy") [([0;0;0], (-1, 0)%Z); ([0;1;1], (1, 0)%Z); ([1;0;1], (1, 0)%Z); ([1;1;0], (1, 0)%Z)] A1.
    known (support 4 (rows_of q3) "yyxz") [([0;0;0;2], (-1, 0)%Z); ([0;1;1;2], (1, 0)%Z); ([1;0;1;2], (1, 0)%Z); ([1;1;0;2], (1, 0)%Z)] B1.
    known (total "zzzz" (nth (position [2;2;2;2]) (rows_of q3) [])) (1, 0)%Z Z1.
    known (total "zzzz" (nth (position [0;2;2;2]) (rows_of q3) [])) (0, 0)%Z Z2.
    known (total "zzzz" (nth (position [1;2;2;2]) (rows_of q3) [])) (0, 0)%Z Z3.
    known (total "yxz" (nth (position [1;0;2]) (rows_of d3) [])) (1, 0)%Z A0.
    known (total "yxy" (nth (position [0;0;0]) (rows_of d3) [])) (-1, 0)%Z A1.
    known (total "yyxz" (nth (position [0;0;0;2]) (rows_of q3) [])) (-1, 0)%Z B1.
    real_eq EM Z1. real_eq EM Z2. real_eq EM Z3. real_eq EM A0. real_eq EM A1. real_eq EM B1.
    assert (G4 : (m 2 2 * (m 2 2 * (m 2 2 * m 2 2)) = 1)%R) by lra.
    assert (G0 : m 0 2 = 0%R).
    { transitivity (m 0 2 * (m 2 2 * (m 2 2 * (m 2 2 * m 2 2))))%R; [rewrite G4; ring|].
      transitivity (m 2 2 * (m 0 2 * (m 2 2 * (m 2 2 * m 2 2))))%R; [ring|].
      replace (m 0 2 * (m 2 2 * (m 2 2 * m 2 2)))%R with 0%R by lra. ring. }
    assert (G1 : m 1 2 = 0%R).
    { transitivity (m 1 2 * (m 2 2 * (m 2 2 * (m 2 2 * m 2 2))))%R; [rewrite G4; ring|].
      transitivity (m 2 2 * (m 1 2 * (m 2 2 * (m 2 2 * m 2 2))))%R; [ring|].
      replace (m 1 2 * (m 2 2 * (m 2 2 * m 2 2)))%R with 0%R by lra. ring. }
    assert (G : m 2 2 = 1%R).
    { match type of A1 with ?e = _ => match type of B1 with ?f = _ =>
        assert (X : (e * m 2 2 = -1)%R) by (transitivity f; [ring|exact B1]) end end.
      rewrite A1 in X. lra. }
    pose proof (ml_rows m HM 0 0 ltac:(lia) ltac:(lia)) as R00.
    pose proof (ml_rows m HM 0 1 ltac:(lia) ltac:(lia)) as R01.
    pose proof (ml_rows m HM 1 1 ltac:(lia) ltac:(lia)) as R11.
    cbn [Nat.eqb] in *. rewrite (ml_sym m HM 1 0) in * by lia.
    rewrite G, ?G0, ?G1 in *.
    pose proof not_identity as NI. rewrite G, G0, G1 in NI.
    set (a := m 0 0) in *. set (b := m 0 1) in *. set (d := m 1 1) in *.
    assert (P : (b * (a + d) = 0)%R) by lra. apply Rmult_integral in P as [P|P].
    - rewrite P in *. assert (a = 1)%R by (apply cube_root_1; lra). apply NI; auto. replace a with 1%R in * by auto. lra.
    - replace d with (- a)%R in * by lra. lra.
  Qed.
End Mirror.
