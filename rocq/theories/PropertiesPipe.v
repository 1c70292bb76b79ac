(** Properties C74-C77: formulas, data and fits together.  Beside each theorem a
    concrete case. *)
From Coq Require Import String List ZArith QArith Qreals Reals Lra Lia Bool.
From Coquelicot Require Import Complex.
From Verif Require Import PyBase RMod CBase FourierBase DataModel SpecData FDataModel SpecFData FDataProofs FDataProofs2 Expr ExprProofs FormModel SpecForm
  FormProofs FormProofs2 FormProofs3 TensorModel UtilModel FormgenModel SpecGroups SpecFormgen FormgenPhys FormgenThms FitModel SpecFit SpecPipe PipeProofs PipeThms PipeThms2
  PropertiesFData PropertiesForm PropertiesFormgen.
Import ListNotations.
Local Open Scope nat_scope.

(* ================================================================== *)
(** * C74: two routes from a formula to data, and back *)

(** The coefficients of the simulated Fourier data are those of the formula, as
    a function of phi, at the given values. *)
Theorem C74_coefficients : forall ev f d rho, sound_ev ev -> (exists it, form_construct it = Ok f) -> (forall k e, In (k, e) f -> covered e) ->
  (forall x, form_occurs f x -> x <> phi -> In x (dkeys d)) -> respects rho -> agrees rho d ->
  exists fd, form_to_fdat ev f d 16 = Ok fd /\ fget_keys fd = dkeys f /\ fget_M fd = 16 /\
    forall k e, form_get_pc f k = Ok e -> exists v, fget_pc fd k = Ok v /\ length v = 33 /\
      forall m, (Z.abs m <= 16)%Z -> coef 16 v m = fourier_coefficient (fun x => eval (at_phi rho x) e) m.
Proof.
  intros ev f d rho EV [it Cf] H O Hr Ha. apply form_construct_inv in Cf. eexists.
  split; [exact (form_to_fdat_value ev EV f d rho Cf H O Hr Ha)|]. split; [unfold fget_keys; cbn [fd_data]; apply dkeys_dmap|]. split; [reflexivity|].
  intros k e E. unfold form_get_pc, dgetr in E. unfold fget_pc, dgetr. cbn [fd_data]. rewrite dget_dmap. destruct (dget k f) as [e'|]; [|discriminate].
  injection E as ->. exists (coefficients rho e). split; [reflexivity|]. split; [apply coefficients_length|]. intros m B. apply coef_coefficients. exact B.
Qed.
Print Assumptions C74_coefficients.

(** Sampling the formula, or synthesising its Fourier data: the same container. *)
Theorem C74_two_routes : forall ev f d rho n x1 x2, sound_ev ev -> (exists it, form_construct it = Ok f) -> (forall k e, In (k, e) f -> covered e) -> 0 < n ->
  (forall x, form_occurs f x -> x <> phi -> In x (dkeys d)) -> ~ In phi (dkeys d) -> respects rho -> agrees rho d ->
  (exists k e, In (k, e) f /\ eval (at_phi rho x1) e <> eval (at_phi rho x2) e) ->
  exists fd dt, form_to_fdat ev f d 16 = Ok fd /\ fdat_to_dat fd n = Ok dt /\ form_to_dat ev f d n = Ok dt.
Proof. intros ev f d rho n x1 x2 EV [it Cf] H. apply form_construct_inv in Cf. exact (simulate_routes ev EV f d rho n x1 x2 Cf H). Qed.
Print Assumptions C74_two_routes.

(** Real formulas: transforming the sampled data gives back the Fourier data. *)
Theorem C74_round_trip : forall ev interp f d rho n x1 x2, sound_ev ev -> exact_at_nodes interp -> accepts interp n ->
  (exists it, form_construct it = Ok f) -> (forall k e, In (k, e) f -> covered e) -> 32 < n ->
  (forall x, form_occurs f x -> x <> phi -> In x (dkeys d)) -> ~ In phi (dkeys d) -> respects rho -> agrees rho d ->
  (exists k e, In (k, e) f /\ eval (at_phi rho x1) e <> eval (at_phi rho x2) e) ->
  (forall k e x, In (k, e) f -> Im (eval (at_phi rho x) e) = 0%R) ->
  exists dt fd, form_to_dat ev f d n = Ok dt /\ form_to_fdat ev f d 16 = Ok fd /\ dat_to_fdat interp dt 16 = Ok fd.
Proof. intros ev interp f d rho n x1 x2 EV X Ac [it Cf] H. apply form_construct_inv in Cf. exact (simulate_back ev EV interp f d rho n x1 x2 X Ac Cf H). Qed.
Print Assumptions C74_round_trip.

(** a cos(phi) sin(phi) at a = 2. *)
Definition wave : list (string * expr) := [("PP"%string, EMul [A_; COS; SIN])].
Example C74_case : exists dt fd, form_to_dat (fun e => e) wave [(a_sym, (2, 0)%Q)] 40 = Ok dt /\
  form_to_fdat (fun e => e) wave [(a_sym, (2, 0)%Q)] 16 = Ok fd /\ dat_to_fdat table_interp dt 16 = Ok fd.
Proof.
  apply (C74_round_trip (fun e => e) table_interp wave [(a_sym, (2, 0)%Q)] rho2 40 0%R (PI / 4)%R id_sound table_exact (table_accepts 40)).
  - exists [(KStr "PP", Some (EMul [A_; COS; SIN]))]. reflexivity.
  - intros k e [E|[]]. injection E as <- <-. apply (cov_mul _ 1 1); [|lia].
    apply mono_free; [cbn; intuition discriminate|]. apply (mono_trig COS [SIN] 0 1 1 0); [constructor|]. apply (mono_trig SIN [] 0 0 0 1); constructor.
  - lia.
  - intros x (k & e & [E|[]] & I) N. injection E as <- <-. destruct I as [<-|[<-|[<-|[]]]]; [left; reflexivity|destruct (N eq_refl)|destruct (N eq_refl)].
  - cbn. intuition discriminate.
  - exact rho2_ok.
  - intros s q [E|[]]. injection E as <- <-. unfold rho2, qval, Q2R. apply C_ext; unfold Re, Im; simpl; field.
  - exists "PP"%string, (EMul [A_; COS; SIN]). split; [left; reflexivity|]. rewrite !eval_mul. cbn [map fold_right eval A_ COS SIN].
    unfold at_phi. change (sym_eqb a_sym phi) with false. change (sym_eqb phi phi) with true. cbv iota. rewrite !Ccos_R, !Csin_R.
    intros E. apply (f_equal Re) in E. unfold rho2 in E. unfold Re, Cmult, RtoC in E. cbn [fst snd] in E.
    rewrite sin_0, sin_PI4, cos_PI4 in E. assert (S : (sqrt 2 * sqrt 2 = 2)%R) by (apply sqrt_sqrt; lra).
    assert (Z : (sqrt 2 <> 0)%R) by (intros Z; rewrite Z in S; lra). assert (Y : (1 / sqrt 2 * (1 / sqrt 2) = / 2)%R) by (field_simplify_eq; [nra|exact Z]). nra.
  - intros k e x [E|[]]. injection E as <- <-. rewrite eval_mul. cbn [map fold_right eval A_ COS SIN].
    unfold at_phi. change (sym_eqb a_sym phi) with false. change (sym_eqb phi phi) with true. cbv iota. rewrite Ccos_R, Csin_R.
    unfold rho2, Im, Cmult, RtoC. cbn [fst snd]. ring.
Qed.

(* ================================================================== *)
(** * C75: zero cost at the parameters that generated the data *)

Theorem C75_zero : forall ev kev F d free xs chunk save fs, sound_ev ev -> sound_kev kev -> ff_reachable ev F -> symbolic F -> ff_M F = 16 ->
  argument_list F free -> (chunk = true -> ff_rows F <> []) -> parameter_values d -> listed d free xs ->
  exists D lib, fform_to_fdat ev F d = Ok D /\ gen_cost_func kev F D (Some free) chunk save fs = (save_lib save lib fs, Ok lib) /\
    call lib xs = Some 0%R /\ forall ys, length free <= length ys -> exists c, call lib ys = Some c /\ (0 <= c)%R.
Proof.
  intros ev kev F d free xs chunk save fs EV KEV R S M16 Ar Ne [N Rd] L.
  destruct (zero_cost ev EV kev KEV F d free xs chunk save fs (ff_reachable_wf ev F R) S M16 Ar Ne N Rd L) as (D & lib & E & G & Z & P & _).
  exists D, lib. auto.
Qed.
Print Assumptions C75_zero.

(** Other parameters have zero cost only if they generate the same data. *)
Theorem C75_same_data : forall ev kev F d free xs chunk save fs, sound_ev ev -> sound_kev kev -> ff_reachable ev F -> symbolic F -> ff_M F = 16 ->
  argument_list F free -> (chunk = true -> ff_rows F <> []) -> parameter_values d -> listed d free xs ->
  exists D lib, fform_to_fdat ev F d = Ok D /\ gen_cost_func kev F D (Some free) chunk save fs = (save_lib save lib fs, Ok lib) /\
    forall d' ys, parameter_values d' -> listed d' free ys ->
      (call lib ys = Some 0%R <-> exists D', fform_to_fdat ev F d' = Ok D' /\ fget_items D' = fget_items D).
Proof.
  intros ev kev F d free xs chunk save fs EV KEV R S M16 Ar Ne [N Rd] L.
  destruct (zero_cost ev EV kev KEV F d free xs chunk save fs (ff_reachable_wf ev F R) S M16 Ar Ne N Rd L) as (D & lib & E & G & _ & _ & H).
  exists D, lib. split; [exact E|]. split; [exact G|]. intros d' ys [N' R'] L'. exact (H d' ys N' R' L').
Qed.
Print Assumptions C75_same_data.

Example C75_case : parameter_values [(a_sym, (3 # 2, 0)%Q)] /\ listed [(a_sym, (3 # 2, 0)%Q)] [a_sym] [(3 / 2)%R] /\ argument_list (flat 16) [a_sym].
Proof.
  split; [split; [repeat constructor; cbn; tauto|]|split].
  - intros s a b [E|[]] _. injection E as _ _ <-. reflexivity.
  - constructor; [|constructor]. exists (3 # 2)%Q, 0%Q. split; [left; reflexivity|]. split; [reflexivity|]. unfold Q2R. cbn. field.
  - split; [repeat constructor; cbn; tauto|]. intros s O. apply flat_occurs in O. left. auto.
Qed.

(* ================================================================== *)
(** * C76: data completed at normal incidence lie on the generated curves *)

Theorem C76_normal : forall ev ex theta e m q F rho it u d, sound_ev ev -> sound_ev ex -> shapes e m q ->
  formgen ev ex theta e m q = Ok F -> respects rho -> eval rho theta = RtoC 0 -> all_phi_free theta e m q ->
  construct it u true = Ok d ->
  (forall k0 dt raw, given it k0 dt raw -> (u = "degrees"%string \/ dt = DFloat) /\
     forall x y, In (x, y) (in_radians u raw) -> exists z, dget (prefix2 k0) F = Some z /\ y = Re (eval (at_phi rho x) z)) ->
  forall k p x y, In k four_keys -> get_pc d k "radians" = Ok p -> In (x, y) p ->
  exists z, dget k F = Some z /\ y = Re (eval (at_phi rho x) z).
Proof.
  intros ev ex theta e m q F rho it u d EV EX Sh H Rs Ht N C G k p x y K E I.
  destruct (formgen_denotes ev ex EV EX theta e m q F rho 0%R Sh H Rs Ht) as (_ & Dn).
  assert (Dn' : forall inp out, exists z, dget (key inp out) F = Some z) by (intros inp out; destruct (Dn inp out) as (z & Z & _); eauto).
  set (g := fun k x => match dget k F with Some z => Re (eval (at_phi rho x) z) | None => 0%R end).
  assert (Q : forall inp out x, g (key (other inp) (other out)) (x + PI / 2)%R = g (key inp out) x).
  { intros inp out x0. unfold g. destruct (Dn' inp out) as (z & Z). destruct (Dn' (other inp) (other out)) as (z' & Z'). rewrite Z, Z'.
    f_equal. exact (formgen_normal ev ex EV EX theta e m q F rho inp out z z' Sh H Rs Ht N Z Z' x0). }
  assert (Q4 : forall k x, In k four_keys -> g k (x + PI / 2)%R = g (partner k) x).
  { intros k0 x0 [<-|[<-|[<-|[<-|[]]]]]; [exact (Q Sin Sin x0)|exact (Q Sin Pin x0)|exact (Q Pin Sin x0)|exact (Q Pin Pin x0)]. }
  assert (P4 : forall k, In k four_keys -> In (partner k) four_keys /\ partner (partner k) = k) by (intros k0 [<-|[<-|[<-|[<-|[]]]]]; cbn; tauto).
  assert (Pi : forall k x, In k four_keys -> g k (x + PI)%R = g k x).
  { intros k0 x0 K0. destruct (P4 k0 K0) as [K1 K2]. replace (x0 + PI)%R with ((x0 + PI / 2) + PI / 2)%R by field. rewrite (Q4 k0 _ K0), (Q4 _ _ K1), K2. reflexivity. }
  assert (Kk : exists z, dget k F = Some z).
  { destruct K as [<-|[<-|[<-|[<-|[]]]]]; [exact (Dn' Pin Pin)|exact (Dn' Pin Sin)|exact (Dn' Sin Pin)|exact (Dn' Sin Sin)]. }
  destruct Kk as (z & Z). exists z. split; [exact Z|]. transitivity (g k x); [|unfold g; rewrite Z; reflexivity].
  apply (completed_on_curve it u d g C) with (p := p); auto.
  - intros k0 x0 K0. replace (x0 + 2 * PI)%R with ((x0 + PI) + PI)%R by ring. rewrite !(Pi k0) by exact K0. reflexivity.
  - intros k0 dt raw Gi. destruct (G k0 dt raw Gi) as [Gu Gy]. split; [exact Gu|]. intros x0 y0 J. destruct (Gy x0 y0 J) as (z0 & Z0 & ->).
    unfold g. rewrite Z0. reflexivity.
Qed.
Print Assumptions C76_normal.

(** Measurements of PP and PS on the curves of a general crystal: a container
    with the four polarizations results. *)
Example C76_case : exists F d zp zs, formgen (fun e => e) (fun e => e) (num 0) (Some full3) (Some full3) (Some full4) = Ok F /\
  dget "PP"%string F = Some zp /\ dget "PS"%string F = Some zs /\
  let curve z x := (x, Re (eval (at_phi half x) z)) in
  construct (input DFloat [("PP"%string, [curve zp 1%R; curve zp 2%R]); ("ps"%string, [curve zs 1%R])]) "radians" true = Ok d.
Proof.
  destruct C47_case as (Sh & N & Ht & F & H). pose proof half_respects as Rs.
  destruct (formgen_denotes _ _ same_sound same_sound _ _ _ _ F half 0%R Sh H Rs Ht) as (_ & Dn).
  destruct (Dn Pin Pin) as (zp & Zp & _). destruct (Dn Pin Sin) as (zs & Zs & _).
  assert (A : is_ok (construct (input DFloat [("PP"%string, [(1, Re (eval (at_phi half 1) zp)); (2, Re (eval (at_phi half 2) zp))]%R); ("ps"%string, [(1, Re (eval (at_phi half 1) zs))]%R)]) "radians" true)).
  { eexists. reflexivity. }
  destruct A as [d A]. exists F, d, zp, zs. auto.
Qed.

(* ================================================================== *)
(** * C77: methods of a Fourier formula and of the formula it stands for *)

Theorem C77_histories : forall ev F f h, sound_ev ev -> ff_reachable ev F -> symbolic F -> ~ ff_occurs F phi -> fform_to_form ev F = Ok f ->
  Forall sensible h ->
  exists g, fform_to_form ev (fold_left (ff_step ev) h F) = Ok g /\ dkeys g = dkeys (fold_left (form_step ev) h f) /\
    forall k e, form_get_pc g k = Ok e -> exists e', form_get_pc (fold_left (form_step ev) h f) k = Ok e' /\
      forall rho, respects rho -> eval rho e = eval rho e'.
Proof. intros ev F f h EV R. exact (history_twins ev EV F f h (ff_reachable_wf ev F R)). Qed.
Print Assumptions C77_histories.

Example C77_case : Forall sensible [FFSubs [(a_sym, EMul [num 3; ESym (mksym "b" None)])]; FFPhase (num (1 # 2)); FFScale (EPow A_ 2); FFPhase (ESym (mksym "c" (Some true)))].
Proof.
  apply Forall_cons; [|apply Forall_cons; [|apply Forall_cons; [|apply Forall_cons; [|constructor]]]]; cbn [sensible].
  - intros s v [E|[]]. injection E as <- <-. split; [discriminate|]. split; [cbn; intuition discriminate|]. discriminate.
  - split; [cbn; tauto|]. intros rho _. cbn. unfold Q2R. cbn. ring.
  - cbn. intuition discriminate.
  - split; [cbn; intuition discriminate|]. intros rho Hr. cbn. apply Hr. reflexivity.
Qed.
