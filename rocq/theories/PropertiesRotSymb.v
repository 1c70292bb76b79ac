(** Property C95: the rotation matrix as formulas of the angle.  Beside each theorem
    a concrete case. *)
From Coq Require Import String List Arith Lia Reals Lra.
From Coquelicot Require Import Complex.
Import ListNotations.
From Verif Require Import PyBase CBase Expr UtilModel SpecUtil RotProofs FitModel SpecForm SpecFit FitProofs5 RotSymbModel SpecRot PropertiesUtil.
Local Open Scope R_scope.

Section S.
Variable kev : code -> code.
Hypothesis KEV : sound_kev kev.
Variable rho : sym -> C.
Hypothesis Rr : respects rho.
Variable xs : nat -> R.
Notation v e := (keval rho xs e).

Lemma v_add a b : v (kadd kev a b) = Cplus (v a) (v b).
Proof. unfold kadd. rewrite (proj1 KEV) by exact Rr. cbn [keval map fold_right]. ring. Qed.
Lemma v_mul a b : v (kmul kev a b) = Cmult (v a) (v b).
Proof. unfold kmul. rewrite (proj1 KEV) by exact Rr. cbn [keval map fold_right]. ring. Qed.
Lemma v_sub a b : v (ksub kev a b) = Cminus (v a) (v b).
Proof. unfold ksub. rewrite (proj1 KEV) by exact Rr. cbn [keval map fold_right]. apply C_ext; unfold Re, Im; simpl; ring. Qed.
Lemma Ccos_real x : Ccos (RtoC x) = RtoC (cos x).
Proof. unfold Ccos, RtoC. cbn [fst snd]. rewrite cosh_0, sinh_0. apply C_ext; unfold Re, Im; simpl; ring. Qed.
Lemma Csin_real x : Csin (RtoC x) = RtoC (sin x).
Proof. unfold Csin, RtoC. cbn [fst snd]. rewrite cosh_0, sinh_0. apply C_ext; unfold Re, Im; simpl; ring. Qed.

Lemma rows_value n c s cx sx : v c = RtoC cx -> v s = RtoC sx ->
  map (map (fun e => v e)) (symb_rows kev n c s) = real_rows (rot_rows n cx sx).
Proof.
  intros Hc Hs. destruct n as [[nx ny] nz]. unfold symb_rows, rot_rows, real_rows. cbn [map].
  repeat f_equal; rewrite ?v_add, ?v_sub, ?v_mul, ?v_sub, ?Hc, ?Hs; cbn [keval knum]; apply C_ext; unfold Re, Im; simpl; ring.
Qed.
End S.

Lemma rows_syms kev n c s row e x : sound_kev kev -> In row (symb_rows kev n c s) -> In e row -> In x (ksyms e) -> In x (ksyms c) \/ In x (ksyms s).
Proof.
  intros (_ & K & _) Ir Ie Ix.
  assert (A : forall a b, In x (ksyms (kadd kev a b)) -> In x (ksyms a) \/ In x (ksyms b)).
  { intros a b I. apply K in I. cbn [ksyms flat_map] in I. rewrite app_nil_r in I. apply in_app_or in I. exact I. }
  assert (M : forall z a, In x (ksyms (kmul kev (knum z) a)) -> In x (ksyms a)).
  { intros z a I. apply K in I. cbn [ksyms flat_map knum] in I. rewrite app_nil_r in I. exact I. }
  assert (B : forall a b, In x (ksyms (ksub kev a b)) -> In x (ksyms a) \/ In x (ksyms b)).
  { intros a b I. apply K in I. cbn [ksyms flat_map] in I. rewrite !app_nil_r in I. apply in_app_or in I. exact I. }
  assert (O : In x (ksyms (ksub kev (knum 1) c)) -> In x (ksyms c)).
  { intros I. apply B in I. destruct I as [[]|I]. exact I. }
  destruct n as [[nx ny] nz]. unfold symb_rows in Ir.
  repeat destruct Ir as [<-|Ir]; try contradiction; repeat destruct Ie as [<-|Ie]; try contradiction;
    first [apply B in Ix|apply A in Ix]; destruct Ix as [Ix|Ix]; auto; apply M in Ix; auto.
Qed.

(** At every angle the formulas give the matrix of [rotation_matrix3]; the axis is
    left normalised in the same way; no symbol but those of the angle occurs. *)
Theorem C95_symbolic : forall kev dt n t, sound_kev kev ->
  (forall n' m x, rotation_matrix3 dt n x = Ok (n', m) ->
   exists rows, rotation_matrix3symb kev dt n t = Ok (n', rows) /\
     (forall rho xs, respects rho -> keval rho xs t = RtoC x -> map (map (fun e => keval rho xs e)) rows = real_rows m) /\
     (forall row e s, In row rows -> In e row -> In s (ksyms e) -> In s (ksyms t))) /\
  (forall x e, rotation_matrix3 dt n x = Raise e -> rotation_matrix3symb kev dt n t = Raise e).
Proof.
  intros kev dt n t KEV. unfold rotation_matrix3, rotation_matrix3symb. cbv zeta. destruct (Req_EM_T (vnorm n) 0).
  - split; [intros; discriminate|]. intros x er E. congruence.
  - split; [|intros; discriminate]. intros n' m x E. injection E as <- <-. eexists. split; [reflexivity|]. split.
    + intros rho xs R H. apply (rows_value kev KEV rho R).
      * rewrite (proj1 KEV) by exact R. cbn [keval]. rewrite H. apply Ccos_real.
      * rewrite (proj1 KEV) by exact R. cbn [keval]. rewrite H. apply Csin_real.
    + intros row e s Ir Ie Is. destruct (rows_syms _ _ _ _ _ _ _ KEV Ir Ie Is) as [I|I]; apply (proj1 (proj2 KEV)) in I; exact I.
Qed.
Print Assumptions C95_symbolic.

(** So, for an axis of floats, every value of the angle gives the right-handed
    rotation about it. *)
Theorem C95_rotation : forall kev n t, sound_kev kev -> nonzero n ->
  exists rows, rotation_matrix3symb kev VFloat n t = Ok (unit_of n, rows) /\
    forall rho xs x, respects rho -> keval rho xs t = RtoC x ->
    exists m, map (map (fun e => keval rho xs e)) rows = real_rows m /\ is_rotation m /\ apply m n = n /\ mtrace m = 1 + 2 * cos x /\
      (forall w, dot n w = 0 -> apply m w = vadd (smul (cos x) w) (smul (sin x) (cross (unit_of n) w))).
Proof.
  intros kev n t KEV N. destruct (C95_symbolic kev VFloat n t KEV) as [H _].
  destruct (PropertiesUtil.C35_rotation n 0 N) as (m0 & E0 & _). destruct (H _ _ _ E0) as (rows & E & _).
  exists rows. split; [exact E|]. intros rho xs x R Hx.
  destruct (PropertiesUtil.C35_rotation n x N) as (m & Em & P). exists m. split; [|exact P].
  destruct (H _ _ _ Em) as (rows' & E' & V & _). rewrite E in E'. injection E' as <-. exact (V rho xs R Hx).
Qed.
Print Assumptions C95_rotation.

(** The matrix about z that fformgen builds with the angle of the sample. *)
Example C95_case : exists rows, rotation_matrix3symb (fun e => e) VFloat (0, 0, 1) (KSym FormModel.phi) = Ok ((0, 0, 1), rows) /\
  forall rho xs x, respects rho -> rho FormModel.phi = RtoC x ->
    map (map (fun e => keval rho xs e)) rows = real_rows ((cos x, - sin x, 0), (sin x, cos x, 0), (0, 0, 1)).
Proof.
  assert (N : vnorm (0, 0, 1) = 1) by (cbn; replace (0 * (0 * 1) + 0 * (0 * 1) + 1 * (1 * 1)) with 1 by ring; apply sqrt_1).
  destruct (C95_symbolic (fun e => e) VFloat (0, 0, 1) (KSym FormModel.phi) FitProofs5.id_sound) as [H _].
  assert (E : forall x, rotation_matrix3 VFloat (0, 0, 1) x = Ok ((0, 0, 1), ((cos x, - sin x, 0), (sin x, cos x, 0), (0, 0, 1)))).
  { intros x. unfold rotation_matrix3. rewrite N. destruct (Req_EM_T 1 0); [lra|]. cbn [vmap vcast rot_rows]. f_equal. f_equal; repeat f_equal; field. }
  destruct (H _ _ _ (E 0)) as (rows & E0 & _). exists rows. split; [exact E0|]. intros rho xs x R Hx.
  destruct (H _ _ _ (E x)) as (rows' & E' & V & _). rewrite E0 in E'. injection E' as <-. exact (V rho xs R Hx).
Qed.
