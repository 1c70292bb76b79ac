(** Proofs for C137. *)
From Coq Require Import String ZArith List Bool Lia.
From Coquelicot Require Import Rbar.
From Flocq Require Import Core IEEE754.BinarySingleNaN.
From Verif Require Import PyBase NanModel SpecNan NanProofs GapModel SpecGap.
Import ListNotations.
Local Open Scope nat_scope.

Notation nan := (B754_nan : b64) (only parsing).
Lemma plus_l (y : b64) : plus B754_nan y = B754_nan.
Proof. destruct y; reflexivity. Qed.
Lemma plus_r (x : b64) : plus x B754_nan = B754_nan.
Proof. destruct x; reflexivity. Qed.
Lemma minus_l (y : b64) : minus B754_nan y = B754_nan.
Proof. destruct y; reflexivity. Qed.
Lemma minus_r (x : b64) : minus x B754_nan = B754_nan.
Proof. destruct x; reflexivity. Qed.
Lemma mult_l (y : b64) : mult B754_nan y = B754_nan.
Proof. destruct y; reflexivity. Qed.
Lemma mult_r (x : b64) : mult x B754_nan = B754_nan.
Proof. destruct x; reflexivity. Qed.
Lemma divide_l (y : b64) : divide B754_nan y = B754_nan.
Proof. destruct y; reflexivity. Qed.

Lemma rmult_nan z : rmult B754_nan z = (nan, nan).
Proof. unfold rmult. rewrite !mult_l, minus_l, plus_l. reflexivity. Qed.
Lemma summand_nan wave per m dx x : summand wave per m dx B754_nan x = (nan, nan).
Proof. unfold summand. rewrite mult_r. apply rmult_nan. Qed.
Lemma fold_nan l : fold_left cplus l (nan, nan) = (nan, nan).
Proof. induction l as [|z l IH]; [reflexivity|]. cbn [fold_left]. unfold cplus at 2. cbn [fst snd]. rewrite !plus_l. exact IH. Qed.
Lemma fold_In l : forall a, In (nan, nan) l -> fold_left cplus l a = (nan, nan).
Proof.
  induction l as [|z l IH]; intros a I; [destruct I|]. cbn [fold_left]. destruct I as [-> |I]; [|apply IH, I].
  unfold cplus at 2. cbn [fst snd]. rewrite !plus_r. apply fold_nan.
Qed.

Section Transform.
Variable interp : list (b64 * b64) -> res (b64 -> b64).
Variable grid : nat -> list b64.
Variable wave : Z -> b64 -> b64 * b64.
Variable per_turn : b64.

Lemma entry_lost p m z f x : entry interp grid wave per_turn p m = Ok z -> interp p = Ok f -> In x (grid (length p)) -> f x = B754_nan -> lost z.
Proof.
  unfold entry. intros E F I N. rewrite F in E. cbn [bind] in E. destruct (grid (length p)) as [|x0 [|x1 xs]] eqn:G; try discriminate E.
  rewrite <- G in *. cbn zeta in E. rewrite fold_In in E.
  - injection E as <-. reflexivity.
  - apply in_map_iff. exists x. split; [|exact I]. rewrite N. apply summand_nan.
Qed.
Lemma entry_same p p' m : length p = length p' -> (forall f, interp p = Ok f -> exists f', interp p' = Ok f' /\ forall x, In x (grid (length p)) -> f x = f' x) ->
  is_ok (interp p) -> entry interp grid wave per_turn p m = entry interp grid wave per_turn p' m.
Proof.
  intros L H K. destruct K as (f & F). destruct (H f F) as (f' & F' & E). unfold entry. rewrite F, F', <- L. cbn [bind].
  destruct (grid (length p)) as [|x0 [|x1 xs]] eqn:G; try reflexivity. rewrite <- G in *. cbn zeta.
  rewrite (map_ext_in _ (fun x => summand wave per_turn m (minus x1 x0) (f' x) x)); [reflexivity|]. intros x I. rewrite E by exact I. reflexivity.
Qed.

(** what happens to one polarization *)
Lemma row_of d M fd : transform64 interp grid wave per_turn d M = Ok fd ->
  Forall2 (fun kp kr => fst kp = fst kr /\ Forall2 (fun m z => entry interp grid wave per_turn (snd kp) m = Ok z) (freqs M) (snd kr)) d fd.
Proof.
  intros E. apply dmapM_Ok in E. induction E as [|[k p] [k' row] d fd (E1 & E2) _ IH]; constructor; [|exact IH]. split; [exact E1|]. apply mapM_Ok, E2.
Qed.
Lemma lost_row d M fd : transform64 interp grid wave per_turn d M = Ok fd ->
  Forall2 (fun kp kr => fst kp = fst kr /\ (forall f x, interp (snd kp) = Ok f -> In x (grid (length (snd kp))) -> f x = B754_nan -> all_lost (snd kr))) d fd.
Proof.
  intros E. apply row_of in E. induction E as [|[k p] [k' row] d fd (E1 & E2) _ IH]; constructor; [|exact IH]. split; [exact E1|]. cbn [snd] in *.
  intros f x F I N. unfold all_lost. clear - E2 F I N. induction E2 as [|m z l row E _ IH]; constructor; [|exact IH]. exact (entry_lost p m z f x E F I N).
Qed.
Lemma same_row d d' M fd fd' : transform64 interp grid wave per_turn d M = Ok fd -> transform64 interp grid wave per_turn d' M = Ok fd' ->
  forall k p row row', NoDup (map fst d) -> NoDup (map fst d') -> In (k, p) d -> In (k, p) d' -> In (k, row) fd -> In (k, row') fd' -> row = row'.
Proof.
  assert (X : forall d fd k p row, transform64 interp grid wave per_turn d M = Ok fd -> NoDup (map fst d) -> In (k, p) d -> In (k, row) fd -> mapM (entry interp grid wave per_turn p) (freqs M) = Ok row).
  { clear. intros d fd k p row E. apply dmapM_Ok in E. induction E as [|[k1 p1] [k2 r2] d fd (E1 & E2) Fr IH]; intros N I J; [destruct I|]. cbn [fst snd map] in *. subst k2.
    inversion N as [|? ? N1 N2]; subst.
    assert (K : map fst d = map fst fd). { clear - Fr. induction Fr as [|a b d fd (E & _) _ IH]; [reflexivity|]. cbn. rewrite E, IH. reflexivity. }
    destruct I as [I|I], J as [J|J].
    - injection I as -> ->. injection J as ->. exact E2.
    - injection I as -> ->. exfalso. apply N1. rewrite K. apply in_map_iff. exists (k, row). split; [reflexivity|exact J].
    - injection J as -> ->. exfalso. apply N1. apply in_map_iff. exists (k, p). split; [reflexivity|exact I].
    - apply IH; assumption. }
  intros E E' k p row row' N N' I I' J J'. pose proof (X d fd k p row E N I J). pose proof (X d' fd' k p row' E' N' I' J'). congruence.
Qed.
End Transform.

(** ** The spline kinds *)
Lemma spline_gap fit p f : has_gap p -> spline fit p = Ok f -> forall x, f x = B754_nan.
Proof.
  intros (x0 & I) E x. unfold spline in E. rewrite (proj2 (existsb_exists _ p)) in E.
  - destruct (fit _) as [g|]; [|discriminate E]. cbn [bind] in E. injection E as <-. reflexivity.
  - exists (x0, B754_nan). split; [exact I|reflexivity].
Qed.

(** ** The linear kind *)
Lemma between_nan a b x : snd a = B754_nan \/ snd b = B754_nan -> between a b x = B754_nan.
Proof.
  unfold between. intros [-> | ->]; [apply plus_r|]. rewrite minus_l, divide_l, mult_l. apply plus_l.
Qed.
Lemma slot_range xs x : S (slot xs x) < length xs \/ length xs <= 1 \/ S (slot xs x) = length xs - 1.
Proof.
  induction xs as [|x1 xs IH]; [right; left; cbn; lia|]. destruct xs as [|x2 [|x3 xs]]; [right; left; cbn; lia|right; right; reflexivity|].
  change (slot (x1 :: x2 :: x3 :: xs) x) with (if Bltb x2 x then S (slot (x2 :: x3 :: xs) x) else 0). destruct (Bltb x2 x).
  - cbn [length] in *. lia.
  - left. cbn [length]. lia.
Qed.

(** A missing value in the middle: either a sampling angle lies next to it, and its
    sample is nan, or its value does not matter. *)
Lemma linear_gap l x r grid : let p := l ++ (x, B754_nan) :: r in
  (exists g, In g (grid (length p)) /\ segment p g = B754_nan) \/
  (forall y g, In g (grid (length p)) -> segment p g = segment (l ++ (x, y) :: r) g).
Proof.
  intros p. set (touches := fun g => Nat.eqb (slot (map fst p) g) (length l) || Nat.eqb (S (slot (map fst p) g)) (length l)).
  destruct (existsb touches (grid (length p))) eqn:T.
  - left. apply existsb_exists in T as (g & I & T). exists g. split; [exact I|]. unfold segment. apply orb_prop in T.
    assert (At : nth_error p (length l) = Some (x, B754_nan)). { unfold p. rewrite nth_error_app2, Nat.sub_diag by lia. reflexivity. }
    destruct T as [T|T]; apply Nat.eqb_eq in T; rewrite T.
    + rewrite At. destruct (nth_error p (S (length l))) as [b|]; [|reflexivity]. apply between_nan. left. reflexivity.
    + rewrite At. destruct (nth_error p (slot (map fst p) g)) as [a|]; [|reflexivity]. apply between_nan. right. reflexivity.
  - right. intros y g I. assert (T' : touches g = false). { destruct (touches g) eqn:E; [|reflexivity]. rewrite <- T. symmetry. apply existsb_exists. exists g. split; assumption. }
    apply orb_false_iff in T' as (T1 & T2). apply Nat.eqb_neq in T1, T2.
    assert (A : map fst (l ++ (x, y) :: r) = map fst p) by (unfold p; rewrite !map_app; reflexivity).
    assert (N : forall i, i <> length l -> nth_error p i = nth_error (l ++ (x, y) :: r) i).
    { intros i Ni. unfold p. destruct (Nat.lt_ge_cases i (length l)) as [L|L]; [rewrite !nth_error_app1 by exact L; reflexivity|].
      rewrite !nth_error_app2 by exact L. destruct (i - length l) as [|j] eqn:Z; [lia|reflexivity]. }
    unfold segment. rewrite A, (N _ T1), (N _ T2). reflexivity.
Qed.

(** Data taken at the sampling angles. *)
Lemma lt_asym (x y : b64) : Bltb x y = true -> Bltb y x = false.
Proof.
  intros H. destruct (ltb_number x y H) as (Nx & Ny). destruct (Bltb y x) eqn:E; [|reflexivity].
  apply (ltb_size x y Nx Ny) in H. apply (ltb_size y x Ny Nx) in E. exfalso. destruct (size x), (size y); cbn in *; try contradiction; Lra.lra.
Qed.
Lemma lt_irrefl (x : b64) : Bltb x x = false.
Proof. destruct (Bltb x x) eqn:E; [|reflexivity]. pose proof (lt_asym x x E). congruence. Qed.
Lemma lt_trans (x y z : b64) : Bltb x y = true -> Bltb y z = true -> Bltb x z = true.
Proof.
  intros H K. destruct (ltb_number x y H) as (Nx & Ny). destruct (ltb_number y z K) as (_ & Nz).
  apply (ltb_size x z Nx Nz). apply (ltb_size x y Nx Ny) in H. apply (ltb_size y z Ny Nz) in K. exact (Rbar_lt_trans _ _ _ H K).
Qed.
Lemma increasing_all x xs : increasing (x :: xs) -> forall y, In y xs -> Bltb x y = true.
Proof.
  revert x. induction xs as [|x2 xs IH]; intros x H y I; [destruct I|]. destruct H as (H1 & H2). destruct I as [<- |I]; [exact H1|].
  apply (lt_trans x x2 y H1). apply IH; assumption.
Qed.
Lemma slot_node xs : forall i x, increasing xs -> 2 <= length xs -> nth_error xs i = Some x -> slot xs x = i - 1.
Proof.
  induction xs as [|x1 xs IH]; intros i x H L E; [cbn in L; lia|]. destruct xs as [|x2 [|x3 xs]]; [cbn in L; lia| |].
  - destruct i as [|[|i]]; [reflexivity|reflexivity|destruct i; discriminate E].
  - change (slot (x1 :: x2 :: x3 :: xs) x) with (if Bltb x2 x then S (slot (x2 :: x3 :: xs) x) else 0).
    destruct i as [|[|i]].
    + injection E as <-. rewrite (lt_asym x1 x2 (proj1 H)). reflexivity.
    + injection E as <-. rewrite lt_irrefl. reflexivity.
    + change (nth_error (x2 :: x3 :: xs) (S i) = Some x) in E. rewrite (increasing_all x2 (x3 :: xs) (proj2 H) x (nth_error_In _ i E)).
      rewrite (IH (S i) x (proj2 H)); [lia|cbn; lia|exact E].
Qed.
Lemma linear_nodes p : increasing (map fst p) -> 2 <= length p -> has_gap p -> exists g, In g (map fst p) /\ segment p g = B754_nan.
Proof.
  intros H L (x & I). exists x. split; [apply in_map_iff; exists (x, B754_nan); split; [reflexivity|exact I]|].
  apply In_nth_error in I as (i & E). assert (Ex : nth_error (map fst p) i = Some x) by (rewrite nth_error_map, E; reflexivity).
  unfold segment. rewrite (slot_node (map fst p) i x H) by (rewrite ?map_length; assumption).
  destruct i as [|i].
  - cbn [Nat.sub]. rewrite E. destruct (nth_error p 1); [|reflexivity]. apply between_nan. left. reflexivity.
  - replace (S i - 1) with i by lia. rewrite E. destruct (nth_error p i); [|reflexivity]. apply between_nan. right. reflexivity.
Qed.
