(** Agreement of the deprecated generators, and the tables. *)
From Coq Require Import String List Arith ZArith Bool Lia Reals QArith Qreals Lra.
From Coquelicot Require Import Complex.
Import ListNotations.
From Verif Require Import PyBase CBase FourierBase Expr ExprProofs SpecForm SpecTensor TensorInst TensorProofs TensorNat
  UtilModel SpecUtil DataModel FormModel FormgenModel SpecGroups GroupProofs TensorDefs SpecFormgen TrigPoly TensorModel
  FormgenProofs FormgenProofs2 FormgenProofs3 FormgenProofs4 FormgenProofs5 FormgenPhys FormgenThms FormgenTables LookupTable PropertiesForm PropertiesTensor.
Local Open Scope nat_scope.

Definition denotes_all (theta : expr) F e m q : Prop :=
  forall rho th, respects rho -> eval rho theta = RtoC th -> denotes rho th F e m q.

Lemma keys_pol (F : list (string * expr)) k x : dkeys F = ["PP"; "PS"; "SP"; "SS"]%string -> dget k F = Some x ->
  exists inp out, k = key inp out.
Proof.
  intros K X. assert (Ik : In k (dkeys F)) by (apply dget_keys; congruence). rewrite K in Ik.
  destruct Ik as [<-|[<-|[<-|[<-|[]]]]]; [exists Pin, Pin|exists Pin, Sin|exists Sin, Pin|exists Sin, Sin]; reflexivity.
Qed.

Lemma same_denotes theta F G e m q : dkeys F = ["PP"; "PS"; "SP"; "SS"]%string -> dkeys G = ["PP"; "PS"; "SP"; "SS"]%string ->
  denotes_all theta F e m q -> denotes_all theta G e m q -> same_values theta F G.
Proof.
  intros KF KG DF DG. split; [congruence|]. intros k x y X Y rho th Rs Ht.
  destruct (keys_pol F k x KF X) as (inp & out & ->).
  destruct (DF rho th Rs Ht) as (_ & VF). destruct (DG rho th Rs Ht) as (_ & VG).
  destruct (VF inp out) as (x' & X' & Ex). destruct (VG inp out) as (y' & Y' & Ey).
  rewrite X in X'. injection X' as <-. rewrite Y in Y'. injection Y' as <-. congruence.
Qed.

Section Agree.
Variable ev ex : expr -> expr.
Hypothesis EV : sound_ev ev.
Hypothesis EX : sound_ev ex.

(** A container that denotes the intensities at every real angle *)
Lemma agrees_with_formgen theta F G e m q : shapes e m q -> real_angle theta -> formgen ev ex theta e m q = Ok G ->
  denotes_all theta F e m q -> same_values theta F G.
Proof.
  intros Sh (rho & th & Rs & Ht) HG DF.
  assert (DG : denotes_all theta G e m q).
  { intros r t Rr Hr. exact (formgen_denotes ev ex EV EX theta e m q G r t Sh HG Rr Hr). }
  apply (same_denotes theta F G e m q); auto; [apply (DF rho th Rs Ht)|apply (DG rho th Rs Ht)].
Qed.

Lemma just_dipole_agrees theta t : shape t = [3; 3; 3] -> real_angle theta ->
  ((exists F, formgen_just_dipole ev t theta = Ok F) <-> exists G, formgen ev ex theta (Some t) None None = Ok G) /\
  forall F G, formgen_just_dipole ev t theta = Ok F -> formgen ev ex theta (Some t) None None = Ok G -> same_values theta F G.
Proof.
  intros Sh RA. assert (Shs : shapes (Some t) None None) by (repeat split; exact Sh).
  assert (P : forall F, formgen_just_dipole ev t theta = Ok F -> real_params (Some t)).
  { intros F H. unfold formgen_just_dipole in H. destruct (assert_real_params t) as [[]|] eqn:A; [|discriminate].
    apply assert_ok. exact A. }
  assert (D : forall F, formgen_just_dipole ev t theta = Ok F -> denotes_all theta F (Some t) None None).
  { intros F H rho th Rs Ht. destruct (just_dipole_eval ev EV rho Rs theta th Ht t Sh (P F H)) as (F' & E & D).
    rewrite E in H. injection H as <-. exact D. }
  split; [split|].
  - intros (F & H). apply (proj1 (formgen_outcome ev ex EV theta (Some t) None None Sh I I)).
    repeat split; [exact (P F H)|]. intros (X & _). discriminate X.
  - intros (G & H). destruct (formgen_params ev ex EV theta (Some t) None None G Shs H) as (Rp & _).
    destruct RA as (rho & th & Rs & Ht).
    destruct (just_dipole_eval ev EV rho Rs theta th Ht t Sh Rp) as (F & E & _). exists F. exact E.
  - intros F G HF HG. exact (agrees_with_formgen theta F G (Some t) None None Shs RA HG (D F HF)).
Qed.

Lemma dipole_quadrupole_agrees is_real theta t q : shape t = [3; 3; 3] -> shape q = [3; 3; 3; 3] -> real_angle theta ->
  is_real theta = Some true ->
  ((exists F, formgen_dipole_quadrupole ev is_real t q theta = Ok F) <-> exists G, formgen ev ex theta (Some t) None (Some q) = Ok G) /\
  forall F G, formgen_dipole_quadrupole ev is_real t q theta = Ok F -> formgen ev ex theta (Some t) None (Some q) = Ok G ->
    same_values theta F G.
Proof.
  intros Sh Shq RA IR. assert (Shs : shapes (Some t) None (Some q)) by (repeat split; [exact Sh|exact Shq]).
  assert (P : forall F, formgen_dipole_quadrupole ev is_real t q theta = Ok F -> real_params (Some t) /\ real_params (Some q)).
  { intros F H. unfold formgen_dipole_quadrupole in H. destruct (assert_real_params t) as [[]|] eqn:A; [|discriminate].
    destruct (assert_real_params q) as [[]|] eqn:B; [|discriminate]. split; apply assert_ok; assumption. }
  assert (D : forall F, formgen_dipole_quadrupole ev is_real t q theta = Ok F -> denotes_all theta F (Some t) None (Some q)).
  { intros F H rho th Rs Ht. destruct (P F H) as [P1 P2].
    destruct (dipole_quadrupole_eval ev EV is_real rho theta th t q Rs Ht Sh Shq P1 P2 IR) as (F' & E & D).
    rewrite E in H. injection H as <-. exact D. }
  split; [split|].
  - intros (F & H). destruct (P F H) as [P1 P2]. apply (proj1 (formgen_outcome ev ex EV theta (Some t) None (Some q) Sh I Shq)).
    split; [exact P1|]. split; [exact I|]. split; [exact P2|]. intros (X & _). discriminate X.
  - intros (G & H). destruct (formgen_params ev ex EV theta (Some t) None (Some q) G Shs H) as (R1 & _ & R2 & _).
    destruct RA as (rho & th & Rs & Ht).
    destruct (dipole_quadrupole_eval ev EV is_real rho theta th t q Rs Ht Sh Shq R1 R2 IR) as (F & E & _). exists F. exact E.
  - intros F G HF HG. exact (agrees_with_formgen theta F G (Some t) None (Some q) Shs RA HG (D F HF)).
Qed.

Lemma make_form_agrees theta t q G : shape t = [3; 3; 3] -> shape q = [3; 3; 3; 3] -> real_angle theta -> angle_ok theta ->
  formgen ev ex theta (Some t) None (Some q) = Ok G ->
  exists Pp Ps Qp Qs F, gen_P_dipole_quadrupole ev t q theta = Ok (Pp, Ps, Qp, Qs) /\
    make_form_from_P_and_Q ev Pp Ps Qp Qs = Ok F /\ same_values theta F G.
Proof.
  intros Sh Shq RA AO HG. assert (Shs : shapes (Some t) None (Some q)) by (repeat split; [exact Sh|exact Shq]).
  destruct (formgen_params ev ex EV theta (Some t) None (Some q) G Shs HG) as (R1 & _ & R2 & _).
  assert (RA' := RA). destruct RA' as (rho & th & Rs & Ht).
  destruct (make_form_eval ev EV rho theta th t q Rs Ht Sh Shq R1 R2 AO) as (Pp & Ps & Qp & Qs & F & E & EF & _).
  exists Pp, Ps, Qp, Qs, F. split; [exact E|]. split; [exact EF|].
  apply (agrees_with_formgen theta F G (Some t) None (Some q) Shs RA HG).
  intros r h Rr Hr. destruct (make_form_eval ev EV r theta h t q Rr Hr Sh Shq R1 R2 AO) as (Pp' & Ps' & Qp' & Qs' & F' & E' & EF' & D).
  rewrite E in E'. injection E' as <- <- <- <-. rewrite EF in EF'. injection EF' as <-. exact D.
Qed.
End Agree.

(** ** The tables *)
Lemma axis_invariant t n gens a rho u : shape t = repeat 3 (S n) -> invariant_table t gens ->
  (exists R, generated gens R /\ teq R (rot_z a)) ->
  (exists rho', teq (instance rho u) (instance rho' t)) -> invariant (instance rho u) (rot_z a).
Proof.
  intros St Inv (R & G & T) (rho' & E).
  assert (SR : shape R = [3; 3]) by (destruct T as [S _]; rewrite S; reflexivity).
  apply (invariant_same _ (instance rho' t) _ n); [destruct E as [E _]; rewrite E; exact St|reflexivity|exact E|].
  apply (invariant_teq _ R _ n); [exact St|exact SR|exact T|]. apply Inv. exact G.
Qed.

Lemma tables_axis ev ex order theta name n d q gens gens' ord ord' : sound_ev ev -> sound_ev ex -> iterates order ->
  dipole name = Ok d -> quadrupole name = Ok q ->
  dget name dipole_groups = Some (gens, ord) -> dget name quadrupole_groups = Some (gens', ord') ->
  (0 < n)%Z -> has_axis n gens -> has_axis n gens' -> ~ In phi (syms theta) ->
  forall dr qr, (make_tensor_real order d = Ok dr /\ make_tensor_real order q = Ok qr) \/
    (make_tensor_complex order dprefix dsuffix d = Ok dr /\ make_tensor_complex order dprefix dsuffix q = Ok qr) ->
  exists F, formgen ev ex theta (Some dr) None (Some qr) = Ok F /\
  forall inp out x rho th k, dget (key inp out) F = Some x -> respects rho -> eval rho theta = RtoC th -> ~ (n | k)%Z ->
  fourier_coefficient (fun y => eval (at_phi rho y) x) k = RtoC 0.
Proof.
  intros EV EX Ho D Q G G' Pn A A' Nt dr qr C.
  destruct plain_tables as (T1 & _ & T3).
  destruct (plain_lookup _ _ _ _ T1 D) as [Pd Sd]. destruct (plain_lookup _ _ _ _ T3 Q) as [Pq Sq].
  destruct (C38_dipole name d D) as (g1 & o1 & G1 & I1). rewrite G in G1. injection G1 as <- <-.
  assert (NI : name <> "Isotropic"%string) by (intros ->; vm_compute in G; discriminate).
  destruct (C40_invariant name q Q NI) as (g2 & o2 & G2 & I2 & _). rewrite G' in G2. injection G2 as <- <-.
  assert (X : shape dr = [3; 3; 3] /\ shape qr = [3; 3; 3; 3] /\ real_params (Some dr) /\ real_params (Some qr) /\
    phi_free (Some dr) /\ phi_free (Some qr) /\
    (forall rho, exists rho', teq (instance rho dr) (instance rho' d)) /\
    (forall rho, exists rho', teq (instance rho qr) (instance rho' q))).
  { destruct C as [[C1 C2]|[C1 C2]].
    - apply (real_inv order d dr Pd) in C1. apply (real_inv order q qr Pq) in C2. subst dr qr.
      split; [exact Sd|]. split; [exact Sq|].
      split; [apply assert_ok; apply real_params_real; assumption|]. split; [apply assert_ok; apply real_params_real; assumption|].
      split; [apply real_phi_free; assumption|]. split; [apply real_phi_free; assumption|].
      split; intros rho; exists (with_real rho); apply real_instance; assumption.
    - apply (complex_inv order d dr Pd) in C1. apply (complex_inv order q qr Pq) in C2. subst dr qr.
      split; [exact Sd|]. split; [exact Sq|].
      split; [apply assert_ok; apply complex_params_real; assumption|]. split; [apply assert_ok; apply complex_params_real; assumption|].
      split; [apply complex_phi_free; assumption|]. split; [apply complex_phi_free; assumption|].
      split; intros rho; exists (with_complex dprefix dsuffix rho); apply complex_instance; assumption. }
  clear C. destruct X as (Sdr & Sqr & Rd & Rq & Fd & Fq & Vd & Vq).
  destruct (proj1 (formgen_outcome ev ex EV theta (Some dr) None (Some qr) Sdr I Sqr)) as (F & HF).
  { split; [exact Rd|]. split; [exact I|]. split; [exact Rq|]. intros (X & _). discriminate X. }
  exists F. split; [exact HF|]. intros inp out x rho th k X Rs Ht Nk.
  assert (Sh : shapes (Some dr) None (Some qr)) by (split; [exact Sdr|split; [exact I|exact Sqr]]).
  assert (NP : all_phi_free theta (Some dr) None (Some qr)) by (split; [exact Nt|split; [exact Fd|split; [exact I|exact Fq]]]).
  apply (tp_periodic 8 _ n k); [|exact Pn| |exact Nk].
  - exact (proj1 (formgen_trigpoly ev ex EV EX theta _ _ _ F rho th inp out x Sh HF Rs Ht NP X)).
  - apply (formgen_periodic ev ex EV EX theta _ _ _ F rho th inp out x _ Sh HF Rs Ht NP X).
    + exact (axis_invariant d 2 gens _ rho dr Sd I1 A (Vd rho)).
    + exact I.
    + exact (axis_invariant q 3 gens' _ rho qr Sq I2 A' (Vq rho)).
Qed.

Lemma unit_left g : teq (matmul 3 (identity 3) (mat g)) (mat g).
Proof.
  split; [reflexivity|]. intros i Ii. apply in_indices in Ii. simpl in Ii.
  pose proof (fits_length _ _ Ii) as L. destruct i as [|i [|j [|]]]; try discriminate.
  pose proof (fits_nth _ _ 0 Ii). pose proof (fits_nth _ _ 1 Ii). simpl in *.
  assert (Li : i < 3) by lia. destruct i as [|[|[|i]]]; [..|lia]; simpl; ring.
Qed.

(** ** The degree bounds are reached *)
Definition theta_ : expr := ESym (mksym "theta" (Some true)).
Definition only3 : tensor expr := mkT [3; 3; 3] (fun i => match i with [0; 0; 0] => num 1 | _ => num 0 end).
Definition only4 : tensor expr := mkT [3; 3; 3; 3] (fun i => match i with [0; 0; 0; 0] => num 1 | _ => num 0 end).
Definition eighth : sym -> C := fun _ => RtoC (PI / 4).

Lemma only3_intensity th y rho : intensity th (val3 rho (Some only3)) (val3 rho None) (val4 rho None) Pin Pin y = (cos th ^ 6 * cos y ^ 6)%R.
Proof.
  unfold intensity. rewrite detected_p.
  assert (S : forall i, i < 3 -> source th (val3 rho (Some only3)) (val3 rho None) (val4 rho None) Pin y i =
    (Rz y i 0 * RtoC (cos th ^ 2 * cos y ^ 2))%C).
  { intros i I. rewrite source_dipole by (auto; intros a b c d _ _ _ _; reflexivity).
    assert (V : forall l m n, l < 3 -> m < 3 -> n < 3 ->
      val3 rho (Some only3) l m n = if (l =? 0) && (m =? 0) && (n =? 0) then RtoC 1 else RtoC 0).
    { intros l m n L M N. cases3 l L; cases3 m M; cases3 n N; cbn [val3 only3 at_ Nat.eqb andb]; rewrite ?eval_num0, ?eval_num1; reflexivity. }
    assert (T : forall i j k, turned3 y (val3 rho (Some only3)) i j k = (Rz y i 0 * Rz y j 0 * Rz y k 0)%C).
    { intros a b c. rewrite (turned3_ext y _ (fun l m n => if (l =? 0) && (m =? 0) && (n =? 0) then RtoC 1 else RtoC 0)) by exact V.
      unfold turned3, sum3. cbn [Nat.eqb andb]. ring. }
    assert (Z : forall i j k, turned3 y (val3 rho None) i j k = RtoC 0) by (intros; unfold turned3, sum3; cbn [val3]; ring).
    unfold moment3, cross, triple, k_incident, field, sum3. rewrite !T, !Z. cbn [Rz triple].
    cases3 i I; apply C_ext; unfold Re, Im; simpl; ring. }
  unfold dot3, sum3, p_out, triple. rewrite !S by lia. cbn [Rz].
  match goal with |- (Cmod ?z ^ 2)%R = _ => replace z with (RtoC (cos th ^ 3 * cos y ^ 3)%R) by (apply C_ext; unfold Re, Im; simpl; ring) end.
  rewrite Cmod_R, <- Rsqr_pow2, <- Rsqr_abs, Rsqr_pow2. ring.
Qed.

Lemma only4_intensity th y rho : intensity th (val3 rho None) (val3 rho None) (val4 rho (Some only4)) Pin Pin y =
  (sin th ^ 2 * cos th ^ 6 * cos y ^ 8)%R.
Proof.
  unfold intensity. rewrite detected_p.
  assert (S : forall i, i < 3 -> source th (val3 rho None) (val3 rho None) (val4 rho (Some only4)) Pin y i =
    (Ci * Rz y i 0 * RtoC (sin th * cos th ^ 2 * cos y ^ 3))%C).
  { intros i I.
    assert (V : forall l m n o, l < 3 -> m < 3 -> n < 3 -> o < 3 ->
      val4 rho (Some only4) l m n o = if (l =? 0) && (m =? 0) && (n =? 0) && (o =? 0) then RtoC 1 else RtoC 0).
    { intros l m n o L M N O. cases3 l L; cases3 m M; cases3 n N; cases3 o O; cbn [val4 only4 at_ Nat.eqb andb]; rewrite ?eval_num0, ?eval_num1; reflexivity. }
    assert (T : forall i j k h, turned4 y (val4 rho (Some only4)) i j k h = (Rz y i 0 * Rz y j 0 * Rz y k 0 * Rz y h 0)%C).
    { intros a b c d. rewrite (turned4_ext y _ (fun l m n o => if (l =? 0) && (m =? 0) && (n =? 0) && (o =? 0) then RtoC 1 else RtoC 0)) by exact V.
      unfold turned4, sum3. cbn [Nat.eqb andb]. ring. }
    assert (Z : forall i j k, turned3 y (val3 rho None) i j k = RtoC 0) by (intros; unfold turned3, sum3; cbn [val3]; ring).
    unfold source, moment3, moment4, cross, triple, k_incident, field, sum3. cbv zeta. rewrite !T, !Z. cbn [Rz triple].
    cases3 i I; apply C_ext; unfold Re, Im; simpl; ring. }
  unfold dot3, sum3, p_out, triple. rewrite !S by lia. cbn [Rz].
  match goal with |- (Cmod ?z ^ 2)%R = _ => replace z with (Ci * RtoC (sin th * cos th ^ 3 * cos y ^ 4)%R)%C by (apply C_ext; unfold Re, Im; simpl; ring) end.
  rewrite Cmod_mult, Cmod_R.
  replace (Cmod Ci) with 1%R by (unfold Cmod; simpl; rewrite <- sqrt_1 at 1; f_equal; ring).
  rewrite Rmult_1_l, <- Rsqr_pow2, <- Rsqr_abs, Rsqr_pow2. ring.
Qed.

Lemma cos_top n : (n = 6 \/ n = 8) -> fourier_coefficient (fun x => RtoC (cos x ^ n)) (Z.of_nat n) <> RtoC 0.
Proof.
  assert (H : forall n v, dget (n, 0) lookup_table <> None -> (Z.of_nat n <= 16)%Z ->
    match dget (n, 0) lookup_table with Some l => py_nth l (Z.of_nat n + 16) = Ok v | None => False end ->
    fourier_coefficient (fun x => RtoC (cos x ^ n)) (Z.of_nat n) = qval v).
  { intros k v D B. destruct (dget (k, 0) lookup_table) as [l|] eqn:E; [|congruence]. intros P.
    destruct (C22_entries k 0 l (Z.of_nat k) E ltac:(lia)) as (w & W & Q). rewrite P in W. injection W as <-. rewrite Q.
    apply fourier_coefficient_ext. intros x. f_equal. simpl. ring. }
  intros [-> | ->].
  - rewrite (H 6 (1 # 64, 0)%Q); [|vm_compute; discriminate|lia|vm_compute; reflexivity].
    intros X. injection X as X _. unfold Q2R in X. simpl in X. lra.
  - rewrite (H 8 (1 # 256, 0)%Q); [|vm_compute; discriminate|lia|vm_compute; reflexivity].
    intros X. injection X as X _. unfold Q2R in X. simpl in X. lra.
Qed.

Lemma Cmult_zero a b : (a * b = RtoC 0)%C -> a = RtoC 0 \/ b = RtoC 0.
Proof.
  intros H. destruct (Ceq_dec a (RtoC 0)) as [|N]; [auto|]. right.
  transitivity (/ a * (a * b))%C; [field; exact N|]. rewrite H. ring.
Qed.

Lemma degree_reached ev ex : sound_ev ev -> sound_ev ex ->
  (exists e F x rho, shape e = [3; 3; 3] /\ formgen ev ex theta_ (Some e) None None = Ok F /\ dget "PP"%string F = Some x /\
     respects rho /\ fourier_coefficient (fun y => eval (at_phi rho y) x) 6 <> RtoC 0) /\
  (exists q F x rho, shape q = [3; 3; 3; 3] /\ formgen ev ex theta_ None None (Some q) = Ok F /\ dget "PP"%string F = Some x /\
     respects rho /\ fourier_coefficient (fun y => eval (at_phi rho y) x) 8 <> RtoC 0).
Proof.
  intros EV EX.
  assert (Rs : respects eighth) by (intros s _; reflexivity).
  assert (Nt : ~ In phi (syms theta_)) by (intros [X|[]]; discriminate).
  assert (c4 : (0 < cos (PI / 4))%R) by (apply cos_gt_0; pose proof PI_RGT_0; lra).
  assert (s4 : (0 < sin (PI / 4))%R) by (apply sin_gt_0; pose proof PI_RGT_0; lra).
  split.
  - assert (P3 : forall i s, ~ In s (syms (at_ only3 i))).
    { intros i s. cbn [only3 at_]. destruct i as [|[|a] [|[|b] [|[|c] [|d i]]]]; intros []. }
    assert (Sh : shapes (Some only3) None None) by (repeat split).
    destruct (proj1 (formgen_outcome ev ex EV theta_ (Some only3) None None eq_refl I I)) as (F & HF).
    { split; [intros i s _ Is; destruct (P3 i s Is)|]. split; [exact I|]. split; [exact I|]. intros (X & _). discriminate X. }
    destruct (formgen_denotes ev ex EV EX theta_ _ _ _ F eighth (PI / 4) Sh HF Rs eq_refl) as (_ & V).
    destruct (V Pin Pin) as (x & X & _). exists only3, F, x, eighth. split; [reflexivity|]. split; [exact HF|]. split; [exact X|].
    split; [exact Rs|].
    rewrite (fourier_coefficient_ext _ (fun y => RtoC (cos (PI / 4) ^ 6) * RtoC (cos y ^ 6))%C).
    + rewrite (tp_scale_coefficient 6) by apply tp_cos_pow. intros Z. apply Cmult_zero in Z. destruct Z as [Z|Z].
      * apply RtoC_inj in Z. apply (pow_nonzero (cos (PI / 4)) 6); [lra|exact Z].
      * exact (cos_top 6 (or_introl eq_refl) Z).
    + intros y. rewrite (formgen_function ev ex EV EX theta_ _ _ _ F eighth (PI / 4) Pin Pin x Sh HF Rs eq_refl); [|split; [exact Nt|]|exact X].
      * rewrite only3_intensity, RtoC_mult. reflexivity.
      * split; [intros i _; apply P3|split; exact I].
  - assert (P4 : forall i s, ~ In s (syms (at_ only4 i))).
    { intros i s. cbn [only4 at_]. destruct i as [|[|a] [|[|b] [|[|c] [|[|d] [|h i]]]]]; intros []. }
    assert (Sh : shapes None None (Some only4)) by (repeat split).
    destruct (proj1 (formgen_outcome ev ex EV theta_ None None (Some only4) I I eq_refl)) as (F & HF).
    { split; [exact I|]. split; [exact I|]. split; [intros i s _ Is; destruct (P4 i s Is)|]. intros (_ & _ & X). discriminate X. }
    destruct (formgen_denotes ev ex EV EX theta_ _ _ _ F eighth (PI / 4) Sh HF Rs eq_refl) as (_ & V).
    destruct (V Pin Pin) as (x & X & _). exists only4, F, x, eighth. split; [reflexivity|]. split; [exact HF|]. split; [exact X|].
    split; [exact Rs|].
    rewrite (fourier_coefficient_ext _ (fun y => RtoC (sin (PI / 4) ^ 2 * cos (PI / 4) ^ 6) * RtoC (cos y ^ 8))%C).
    + rewrite (tp_scale_coefficient 8) by apply tp_cos_pow. intros Z. apply Cmult_zero in Z. destruct Z as [Z|Z].
      * apply RtoC_inj in Z. apply Rmult_integral in Z as [Z|Z]; revert Z; apply pow_nonzero; lra.
      * exact (cos_top 8 (or_intror eq_refl) Z).
    + intros y. rewrite (formgen_function ev ex EV EX theta_ _ _ _ F eighth (PI / 4) Pin Pin x Sh HF Rs eq_refl); [|split; [exact Nt|]|exact X].
      * rewrite only4_intensity, RtoC_mult. reflexivity.
      * split; [exact I|]. split; [exact I|]. intros i _; apply P4.
Qed.
