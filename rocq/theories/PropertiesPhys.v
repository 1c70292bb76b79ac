(** Properties C70-C73: what turning, scaling, mirroring and inverting the crystal
    does to the generated formulas.  Beside each theorem a concrete case. *)
From Coq Require Import String List Arith ZArith Bool Lia Reals QArith Qreals Lra.
From Coquelicot Require Import Complex.
Import ListNotations.
From Verif Require Import PyBase CBase Expr ExprProofs SpecForm TensorModel SpecTensor TensorInst TensorProofs UtilModel SpecUtil
  FormModel FormgenModel TensorDefs SpecGroups GroupProofs GroupProofs2 SpecFormgen FormgenProofs2 FormgenProofs4 FormgenThms FormgenThms2
  SpecPhys PhysThms PropertiesTensor PropertiesFormgen.
Local Open Scope nat_scope.

(* ================================================================== *)
(** * C70: a turned crystal is a phase shift *)

Theorem C70_turned : forall ev ex theta e m q R F, sound_ev ev -> sound_ev ex -> shapes e m q ->
  formgen ev ex theta e m q = Ok F -> all_phi_free theta e m q ->
  shape R = [3; 3] -> real_params (Some R) -> phi_free (Some R) ->
  exists e' m' q' F', opt_transformed ev R e e' /\ opt_transformed ev R m m' /\ opt_transformed ev R q q' /\
    formgen ev ex theta e' m' q' = Ok F' /\
    forall inp out x x', dget (key inp out) F = Some x -> dget (key inp out) F' = Some x' ->
    forall rho th a, respects rho -> eval rho theta = RtoC th -> teq (instance rho R) (rot_z a) ->
    forall y, eval (at_phi rho y) x' = eval (at_phi rho (y + a)) x.
Proof.
  intros ev ex theta e m q R F EV EX Sh H N SR RR PR.
  destruct (formgen_turned ev ex EV EX theta e m q R F Sh H N SR RR PR) as (e' & m' & q' & F' & Te & Tm & Tq & HF & _ & _ & V).
  exists e', m', q', F'. auto.
Qed.
Print Assumptions C70_turned.

(** The same with the package's own [apply_phase_shift]. *)
Theorem C70_phase_shift : forall ev ex theta e m q R a F, sound_ev ev -> sound_ev ex -> shapes e m q ->
  formgen ev ex theta e m q = Ok F -> all_phi_free theta e m q ->
  shape R = [3; 3] -> real_params (Some R) -> phi_free (Some R) -> ~ In phi (syms a) ->
  exists e' m' q' F', opt_transformed ev R e e' /\ opt_transformed ev R m m' /\ opt_transformed ev R q q' /\
    formgen ev ex theta e' m' q' = Ok F' /\
    forall rho th b, respects rho -> eval rho theta = RtoC th -> eval rho a = RtoC b -> teq (instance rho R) (rot_z b) ->
    forall inp out, exists x' z, dget (key inp out) F' = Some x' /\ dget (key inp out) (form_phase_shift ev F a phi) = Some z /\
    forall y, eval (at_phi rho y) x' = eval (at_phi rho y) z.
Proof.
  intros ev ex theta e m q R a F EV EX Sh H N SR RR PR Na.
  destruct (formgen_turned ev ex EV EX theta e m q R F Sh H N SR RR PR) as (e' & m' & q' & F' & Te & Tm & Tq & HF & Sh' & _ & V).
  exists e', m', q', F'. split; [exact Te|]. split; [exact Tm|]. split; [exact Tq|]. split; [exact HF|].
  intros rho th b Rs Ht Ha HR inp out.
  destruct (formgen_denotes ev ex EV EX theta e m q F rho th Sh H Rs Ht) as (_ & K).
  destruct (formgen_denotes ev ex EV EX theta e' m' q' F' rho th Sh' HF Rs Ht) as (_ & K').
  destruct (K inp out) as (x & X & _). destruct (K' inp out) as (x' & X' & _).
  destruct (phase_shift_value ev EV F (key inp out) a x rho b 0 Rs X Ha Na) as (z & Z & _).
  exists x', z. split; [exact X'|]. split; [exact Z|]. intros y.
  rewrite (V inp out x x' X X' rho th b Rs Ht HR y).
  destruct (phase_shift_value ev EV F (key inp out) a x rho b y Rs X Ha Na) as (z' & Z' & E). rewrite Z in Z'. injection Z' as <-.
  symmetry. exact E.
Qed.
Print Assumptions C70_phase_shift.

(** A rotation by a symbolic angle. *)
Definition alpha_ : expr := ESym (mksym "alpha" (Some true)).
Definition rot_alpha : tensor expr := mkT [3; 3] (fun ix => match ix with
  | [0; 0] | [1; 1] => ECos alpha_
  | [0; 1] => EMul [num (-1); ESin alpha_]
  | [1; 0] => ESin alpha_
  | [2; 2] => num 1
  | _ => num 0
  end).
Example C70_case : shape rot_alpha = [3; 3] /\ real_params (Some rot_alpha) /\ phi_free (Some rot_alpha) /\
  ~ In phi (syms alpha_) /\ eval half alpha_ = RtoC (1 / 2) /\ teq (instance half rot_alpha) (rot_z (1 / 2)) /\
  all_phi_free theta_ (Some full3) (Some full3) (Some full4).
Proof.
  split; [reflexivity|]. split; [|split; [|split; [|split; [reflexivity|split; [|exact full_phi_free]]]]].
  - intros i s Ii. cbn in Ii. repeat destruct Ii as [<-|Ii]; try contradiction; cbn; intuition; subst; reflexivity.
  - intros i Fi. apply in_indices in Fi. cbn in Fi. repeat destruct Fi as [<-|Fi]; try contradiction; cbn; intuition; discriminate.
  - intros [X|[]]. discriminate.
  - split; [reflexivity|]. intros i Ii. cbn in Ii.
    assert (C : eval half (ECos alpha_) = RtoC (cos (1 / 2))) by (exact (Ccos_R (1 / 2))).
    assert (S : eval half (ESin alpha_) = RtoC (sin (1 / 2))) by (exact (Csin_R (1 / 2))).
    repeat destruct Ii as [<-|Ii]; try contradiction; cbn [instance tmap at_ rot_alpha rot_z]; try exact C; try exact S;
      rewrite ?eval_mul; cbn [map fold_right]; rewrite ?S; cbn [eval num]; unfold Q2R; cbn;
      apply C_ext; unfold Re, Im; simpl; field.
Qed.

(* ================================================================== *)
(** * C71: multiplying all tensors by a constant *)

Theorem C71_scale : forall ev ex theta e m q c F, sound_ev ev -> sound_ev ex -> shapes e m q ->
  formgen ev ex theta e m q = Ok F -> all_phi_free theta e m q ->
  (forall s, In s (syms c) -> sreal s = Some true) -> ~ In phi (syms c) ->
  exists F', formgen ev ex theta (option_map (times ev c) e) (option_map (times ev c) m) (option_map (times ev c) q) = Ok F' /\
    forall inp out x x', dget (key inp out) F = Some x -> dget (key inp out) F' = Some x' ->
    forall rho th, respects rho -> eval rho theta = RtoC th ->
    forall y, eval (at_phi rho y) x' = (RtoC (Cmod (eval rho c) ^ 2) * eval (at_phi rho y) x)%C.
Proof. intros ev ex theta e m q c F EV EX. exact (formgen_scaled ev ex EV EX theta e m q c F). Qed.
Print Assumptions C71_scale.

(** A common phase (or sign: the inverted crystal has the dipole tensor -e)
    cannot be seen. *)
Theorem C71_phase : forall ev ex theta e m q c F, sound_ev ev -> sound_ev ex -> shapes e m q ->
  formgen ev ex theta e m q = Ok F -> all_phi_free theta e m q ->
  (forall s, In s (syms c) -> sreal s = Some true) -> ~ In phi (syms c) ->
  exists F', formgen ev ex theta (option_map (times ev c) e) (option_map (times ev c) m) (option_map (times ev c) q) = Ok F' /\
    forall inp out x x', dget (key inp out) F = Some x -> dget (key inp out) F' = Some x' ->
    forall rho th, respects rho -> eval rho theta = RtoC th -> Cmod (eval rho c) = 1%R ->
    forall y, eval (at_phi rho y) x' = eval (at_phi rho y) x.
Proof.
  intros ev ex theta e m q c F EV EX Sh H N Rc Pc.
  destruct (formgen_scaled ev ex EV EX theta e m q c F Sh H N Rc Pc) as (F' & HF & V). exists F'. split; [exact HF|].
  intros inp out x x' X X' rho th Rs Ht U y. rewrite (V inp out x x' X X' rho th Rs Ht y), U.
  replace (1 ^ 2)%R with 1%R by ring. ring.
Qed.
Print Assumptions C71_phase.

Example C71_case : (forall s, In s (syms (ENum 0 1)) -> sreal s = Some true) /\ ~ In phi (syms (ENum 0 1)) /\
  Cmod (eval half (ENum 0 1)) = 1%R /\ shapes (Some full3) (Some full3) (Some full4) /\
  all_phi_free theta_ (Some full3) (Some full3) (Some full4).
Proof.
  split; [intros s []|]. split; [intros []|]. split; [|exact (conj full_shapes full_phi_free)].
  cbn [eval]. unfold Cmod, Q2R. simpl. rewrite <- sqrt_1. f_equal. rewrite sqrt_1. field.
Qed.

(* ================================================================== *)
(** * C72: mirror planes that contain the surface normal *)

Theorem C72_mirror : forall ev ex theta e m q F inp out x rho th a, sound_ev ev -> sound_ev ex -> shapes e m q ->
  formgen ev ex theta e m q = Ok F -> dget (key inp out) F = Some x ->
  respects rho -> eval rho theta = RtoC th -> all_phi_free theta e m q ->
  opt_invariant rho e (mirror_z a) -> opt_axial_mirror rho m (mirror_z a) -> opt_invariant rho q (mirror_z a) ->
  (forall y, eval (at_phi rho (- y - 2 * a)) x = eval (at_phi rho y) x) /\
  (out = Sin -> eval (at_phi rho (- a)) x = RtoC 0).
Proof.
  intros ev ex theta e m q F inp out x rho th a EV EX Sh H X Rs Ht N Ie Jm Iq. split.
  - exact (formgen_mirror ev ex EV EX theta e m q F rho th inp out x a Sh H Rs Ht N X Ie Jm Iq).
  - intros ->. exact (formgen_mirror_s ev ex EV EX theta e m q F rho th inp x a Sh H Rs Ht N X Ie Jm Iq).
Qed.
Print Assumptions C72_mirror.

(** The tensors of the package for a group with such a mirror plane. *)
Theorem C72_tables : forall ev ex order theta name a d q gens gens' ord ord', sound_ev ev -> sound_ev ex -> iterates order ->
  dipole_entry name d -> quadrupole name = Ok q ->
  dget name dipole_groups = Some (gens, ord) -> dget name quadrupole_groups = Some (gens', ord') ->
  has_mirror a gens -> has_mirror a gens' -> ~ In phi (syms theta) ->
  forall dr qr, prepared order d dr -> prepared order q qr ->
  exists F, formgen ev ex theta (Some dr) None (Some qr) = Ok F /\
  forall inp out x rho th, dget (key inp out) F = Some x -> respects rho -> eval rho theta = RtoC th ->
  (forall y, eval (at_phi rho (- y - 2 * a)) x = eval (at_phi rho y) x) /\ (out = Sin -> eval (at_phi rho (- a)) x = RtoC 0).
Proof. exact tables_mirror. Qed.
Print Assumptions C72_tables.

Lemma mirror_case g a gens : In g gens -> (forall i j, i < 3 -> j < 3 -> at_ (mat g) [i; j] = at_ (mirror_z a) [i; j]) -> has_mirror a gens.
Proof.
  intros Ig H. exists (matmul 3 (identity 3) (mat g)). split; [apply gen_step; [apply gen_1|exact Ig]|].
  apply (teq_trans _ (mat g)); [apply unit_left|]. split; [reflexivity|].
  intros i I. cbn in I. repeat destruct I as [<-|I]; try contradiction; apply H; lia.
Qed.
Example C72_case : dget "C_4v"%string dipole_groups = Some ([C4z; mx], 8) /\ dget "C_4v"%string quadrupole_groups = Some ([C4z; mx], 8) /\
  has_mirror (PI / 2) [C4z; mx] /\
  exists d d' q, dipole_entry "C_4v" d /\ dipole_entry "C_4v" d' /\ quadrupole "C_4v" = Ok q /\ at_ d [0; 0; 2] = ESym (mksym "yyz" None).
Proof.
  split; [reflexivity|]. split; [reflexivity|]. split.
  - apply (mirror_case mx); [right; left; reflexivity|]. intros i j I J. cbn [mirror_z at_].
    replace (2 * (PI / 2))%R with PI by field. rewrite cos_PI, sin_PI.
    destruct i as [|[|[|i]]]; [..|lia]; (destruct j as [|[|[|j]]]; [..|lia]); cbn; unfold sval; cbn;
      apply C_ext; unfold Re, Im; simpl; field.
  - eexists _, _, _. split; [left; reflexivity|]. split; [right; reflexivity|]. split; reflexivity.
Qed.

(* ================================================================== *)
(** * C73: no dipole signal from a centrosymmetric crystal *)

Theorem C73_inversion : forall ev ex order theta name d gens ord, sound_ev ev -> sound_ev ex -> iterates order ->
  dipole_entry name d -> dget name dipole_groups = Some (gens, ord) -> has_inversion gens -> ~ In phi (syms theta) ->
  forall dr, prepared order d dr ->
  exists F, formgen ev ex theta (Some dr) None None = Ok F /\
  forall k x rho th, dget k F = Some x -> respects rho -> eval rho theta = RtoC th -> forall y, eval (at_phi rho y) x = RtoC 0.
Proof. exact tables_inversion. Qed.
Print Assumptions C73_inversion.

Example C73_case : dget "D_3d"%string dipole_groups = Some ([C3z; C2y; inv], 12) /\ has_inversion [C3z; C2y; inv] /\
  exists d, dipole_entry "D_3d" d.
Proof.
  split; [reflexivity|]. split; [|eexists; left; reflexivity].
  exists (matmul 3 (identity 3) (mat inv)). split; [apply gen_step; [apply gen_1|right; right; left; reflexivity]|apply unit_left].
Qed.
