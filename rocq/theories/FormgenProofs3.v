(** [gen_S], [formgen] and the deprecated generators as a whole. *)
From Coq Require Import String List Arith Bool Lia Reals QArith Qreals Lra.
From Coquelicot Require Import Complex.
Import ListNotations.
From Verif Require Import PyBase CBase Expr ExprProofs SpecForm TensorModel SpecTensor TensorInst TensorNat UtilModel
  DataModel FormModel FormgenModel SpecFormgen FormgenProofs FormgenProofs2.
Local Open Scope nat_scope.

Lemma assert_ok t : real_params (Some t) <-> assert_real_params t = Ok tt.
Proof.
  unfold assert_real_params, real_params.
  destruct (forallb _ _) eqn:B.
  - split; auto. intros _ i s I Hs. rewrite forallb_forall in B.
    specialize (B s). destruct (sreal s) as [[|]|]; auto; exfalso; (assert (false = true); [apply B|discriminate]);
    apply in_flat_map; exists (at_ t i); split; try (apply in_free_symbols; exact Hs); apply in_map; exact I.
  - split; [|discriminate]. intros H. exfalso. assert (X : forallb (fun s => match sreal s with Some true => true | _ => false end)
      (flat_map free_symbols (flatten t)) = true); [|congruence].
    apply forallb_forall. intros s I. apply in_flat_map in I as (e & Ie & Is). apply in_map_iff in Ie as (i & <- & Ii).
    apply in_free_symbols in Is. rewrite (H i s Ii Is). reflexivity.
Qed.
Lemma assert_bad t : ~ real_params (Some t) -> assert_real_params t = Raise ValueError.
Proof.
  intros N. destruct (assert_real_params t) as [[]|e] eqn:E.
  - exfalso. apply N. apply assert_ok. exact E.
  - unfold assert_real_params in E. destruct (forallb _ _); congruence.
Qed.

Section Whole.
Variable ev ex : expr -> expr.
Hypothesis EV : sound_ev ev.
Hypothesis EX : sound_ev ex.

Section Values.
Variable rho : sym -> C.
Hypothesis Rs : respects rho.
Variable theta : expr.
Variable th : R.
Hypothesis Hth : eval rho theta = RtoC th.
Notation ph := (azimuth rho).
Notation is1 := (is1 rho).

Definition isacc (acc : option (tensor expr * tensor expr)) (X : pol -> nat -> C) : Prop :=
  match acc with
  | None => forall p i, X p i = RtoC 0
  | Some (p, s) => is1 p (X Pin) /\ is1 s (X Sin)
  end.

Lemma acc_add_eval (acc : option (tensor expr)) X t Y :
  match acc with None => forall i, X i = RtoC 0 | Some a => is1 a X end -> is1 t Y ->
  exists r, acc_add ev acc t = Ok r /\ is1 r (fun i => X i + Y i)%C.
Proof.
  intros HA HT. destruct acc as [a|]; simpl.
  - apply is1_add; auto.
  - eexists. split; [reflexivity|]. destruct HT as [Sh H]. split; [exact Sh|]. intros i I. cbn [tmap at_].
    rewrite (eval_ev_add ev EV rho Rs), eval_num0, H, HA by auto. ring.
Qed.

Lemma opt_add_eval acc X p s Y : isacc acc X -> is1 p (Y Pin) -> is1 s (Y Sin) ->
  exists r, opt_add ev acc p s = Ok r /\ isacc (Some r) (fun q i => X q i + Y q i)%C.
Proof.
  intros A P S. unfold opt_add.
  destruct (acc_add_eval (option_map fst acc) (X Pin) p (Y Pin)) as (p' & -> & P').
  { destruct acc as [[a b]|]; simpl in *; [apply A|intros; apply A]. } { exact P. }
  destruct (acc_add_eval (option_map snd acc) (X Sin) s (Y Sin)) as (s' & -> & S').
  { destruct acc as [[a b]|]; simpl in *; [apply A|intros; apply A]. } { exact S. }
  cbn [bind]. eexists. split; [reflexivity|]. split; assumption.
Qed.

Definition part_e (t : option (tensor expr)) (p : pol) : nat -> C := moment3 (turned3 ph (val3 rho t)) (field th p).
Definition part_m (t : option (tensor expr)) (p : pol) : nat -> C :=
  cross (k_incident th) (moment3 (turned3 ph (val3 rho t)) (field th p)).
Definition part_q (t : option (tensor expr)) (p : pol) : nat -> C := fun i =>
  (Ci * moment4 (turned4 ph (val4 rho t)) (k_incident th) (field th p) i)%C.

Lemma is3_self t : shape t = [3; 3; 3] -> is3 rho t (val3 rho (Some t)).
Proof. intros Sh. split; auto. Qed.
Lemma is4_self t : shape t = [3; 3; 3; 3] -> is4 rho t (val4 rho (Some t)).
Proof. intros Sh. split; auto. Qed.

Lemma is1_part_e t p rt : is3 rho rt (turned3 ph (val3 rho (Some t))) ->
  exists r, dipole_source ev rt (fld ev theta p) = Ok r /\ is1 r (part_e (Some t) p).
Proof. intros H. apply dipole_eval; auto. apply is1_field; auto. Qed.

Lemma add_eee_eval acc X t : isacc acc X -> shape t = [3; 3; 3] -> real_params (Some t) ->
  exists r, add_eee ev ex theta acc t = Ok r /\ isacc (Some r) (fun q i => X q i + part_e (Some t) q i)%C.
Proof.
  intros A Sh Rp. unfold add_eee. rewrite (proj1 (assert_ok t) Rp). cbn [bind].
  destruct (rotate3_eval ev EV rho Rs t _ (is3_self t Sh)) as (r & -> & Hr). cbn [bind]. cbv zeta.
  apply (is3_ex ex EX rho Rs) in Hr.
  destruct (is1_part_e t Sin _ Hr) as (s & Es & Hs). destruct (is1_part_e t Pin _ Hr) as (p & Ep & Hp).
  cbn [fld] in Es, Ep. rewrite Es. cbn [bind]. rewrite Ep. cbn [bind].
  apply opt_add_eval; auto; apply is1_ex; auto.
Qed.

Lemma add_mee_eval acc X t : isacc acc X -> shape t = [3; 3; 3] -> real_params (Some t) ->
  exists r, add_mee ev ex theta acc t = Ok r /\ isacc (Some r) (fun q i => X q i + part_m (Some t) q i)%C.
Proof.
  intros A Sh Rp. unfold add_mee. rewrite (proj1 (assert_ok t) Rp). cbn [bind].
  destruct (rotate3_eval ev EV rho Rs t _ (is3_self t Sh)) as (r & -> & Hr). cbn [bind]. cbv zeta.
  apply (is3_ex ex EX rho Rs) in Hr.
  pose proof (is1_k_in ev EV rho Rs theta th Hth) as K.
  destruct (magnetic_eval ev EV rho Rs _ _ _ _ _ _ Hr K (is1_field ev EV rho Rs theta th Hth Sin)) as (s & Es & Hs).
  destruct (magnetic_eval ev EV rho Rs _ _ _ _ _ _ Hr K (is1_field ev EV rho Rs theta th Hth Pin)) as (p & Ep & Hp).
  cbn [fld] in Es, Ep. rewrite Es. cbn [bind]. rewrite Ep. cbn [bind].
  apply opt_add_eval; auto; apply is1_ex; auto.
Qed.

Lemma add_qee_eval acc X t : isacc acc X -> shape t = [3; 3; 3; 3] -> real_params (Some t) ->
  exists r, add_qee ev ex theta acc t = Ok r /\ isacc (Some r) (fun q i => X q i + part_q (Some t) q i)%C.
Proof.
  intros A Sh Rp. unfold add_qee. rewrite (proj1 (assert_ok t) Rp). cbn [bind].
  destruct (rotate4_eval ev EV rho Rs t _ (is4_self t Sh)) as (r & -> & Hr). cbn [bind]. cbv zeta.
  apply (is4_ex ex EX rho Rs) in Hr.
  pose proof (is1_k_in ev EV rho Rs theta th Hth) as K.
  destruct (quadrupole_eval ev EV rho Rs _ _ _ _ _ _ Hr K (is1_field ev EV rho Rs theta th Hth Sin)) as (s & Es & Hs).
  destruct (quadrupole_eval ev EV rho Rs _ _ _ _ _ _ Hr K (is1_field ev EV rho Rs theta th Hth Pin)) as (p & Ep & Hp).
  cbn [fld] in Es, Ep. rewrite Es. cbn [bind]. rewrite Ep. cbn [bind].
  apply opt_add_eval; auto; apply is1_ex; auto.
  - apply (is1_scale ev EV rho Rs EI) in Hp. eapply is1_ext; [exact Hp|]. intros i I. unfold part_q. rewrite eval_EI. reflexivity.
  - apply (is1_scale ev EV rho Rs EI) in Hs. eapply is1_ext; [exact Hs|]. intros i I. unfold part_q. rewrite eval_EI. reflexivity.
Qed.

Lemma turned3_zero a i j k : turned3 a (fun _ _ _ => RtoC 0) i j k = RtoC 0.
Proof. unfold turned3, sum3. ring. Qed.
Lemma turned4_zero a i j k l : turned4 a (fun _ _ _ _ => RtoC 0) i j k l = RtoC 0.
Proof. unfold turned4, sum3. ring. Qed.
Lemma part_e_none p i : part_e None p i = RtoC 0.
Proof. unfold part_e, moment3, sum3. change (val3 rho None) with (fun _ _ _ : nat => RtoC 0). rewrite !turned3_zero. ring. Qed.
Lemma part_m_none p i : part_m None p i = RtoC 0.
Proof.
  unfold part_m, cross, triple, moment3, sum3. change (val3 rho None) with (fun _ _ _ : nat => RtoC 0).
  destruct i as [|[|[|i]]]; rewrite ?turned3_zero; try reflexivity; ring.
Qed.
Lemma part_q_none p i : part_q None p i = RtoC 0.
Proof. unfold part_q, moment4, sum3. change (val4 rho None) with (fun _ _ _ _ : nat => RtoC 0). rewrite !turned4_zero. ring. Qed.

Lemma when_eval (f : option (tensor expr * tensor expr) -> tensor expr -> res (tensor expr * tensor expr)) (sh : list nat)
    (part : option (tensor expr) -> pol -> nat -> C) :
  (forall acc X t, isacc acc X -> shape t = sh -> real_params (Some t) ->
     exists r, f acc t = Ok r /\ isacc (Some r) (fun q i => X q i + part (Some t) q i)%C) ->
  (forall p i, part None p i = RtoC 0) ->
  forall acc X t, isacc acc X -> has_shape sh t -> real_params t ->
  exists r, when f acc t = Ok r /\ isacc r (fun q i => X q i + part t q i)%C /\ (r = None <-> acc = None /\ t = None).
Proof.
  intros HS HN acc X t A Sh Rp. destruct t as [t|]; simpl.
  - destruct (HS acc X t A Sh Rp) as (r & -> & Hr). simpl. exists (Some r). split; [reflexivity|]. split; [exact Hr|].
    split; [discriminate|intros [_ ?]; discriminate].
  - exists acc. split; [reflexivity|]. split; [|tauto].
    destruct acc as [[p s]|]; simpl in *.
    + split; (eapply is1_ext; [apply A|]); intros i I; rewrite HN; ring.
    + intros p i. rewrite A, HN. ring.
Qed.

Lemma gen_S_eval e m q : has_shape [3; 3; 3] e -> has_shape [3; 3; 3] m -> has_shape [3; 3; 3; 3] q ->
  real_params e -> real_params m -> real_params q -> ~ (e = None /\ m = None /\ q = None) ->
  exists Sp Ss, gen_S ev ex theta e m q = Ok (Sp, Ss) /\
    is1 Sp (transverse th (source th (val3 rho e) (val3 rho m) (val4 rho q) Pin ph)) /\
    is1 Ss (transverse th (source th (val3 rho e) (val3 rho m) (val4 rho q) Sin ph)).
Proof.
  intros She Shm Shq Re Rm Rq N. unfold gen_S.
  destruct (when_eval _ _ part_e add_eee_eval part_e_none None (fun _ _ => RtoC 0) e) as (a1 & -> & A1 & N1); auto.
  { intros ? ?. reflexivity. }
  cbn [bind].
  destruct (when_eval _ _ part_m add_mee_eval part_m_none a1 _ m A1) as (a2 & -> & A2 & N2); auto. cbn [bind].
  destruct (when_eval _ _ part_q add_qee_eval part_q_none a2 _ q A2) as (a3 & -> & A3 & N3); auto. cbn [bind].
  destruct a3 as [[Sp Ss]|]; [|exfalso; apply N; tauto].
  destruct A3 as [P S].
  destruct (project_eval ev EV rho Rs theta th Hth _ _ S) as (s & -> & Hs). cbn [bind].
  destruct (project_eval ev EV rho Rs theta th Hth _ _ P) as (p & -> & Hp). cbn [bind].
  eexists _, _. split; [reflexivity|].
  assert (X : forall z, is1 z (transverse th (source th (val3 rho e) (val3 rho m) (val4 rho q) Pin ph)) ->
     is1 (tmap ex z) (transverse th (source th (val3 rho e) (val3 rho m) (val4 rho q) Pin ph))) by (intros; apply is1_ex; auto).
  split; apply is1_ex; auto.
  - eapply is1_ext; [exact Hp|]. intros i I. unfold transverse, dot3, sum3, source. cbv zeta.
    unfold part_e, part_m, part_q. ring.
  - eapply is1_ext; [exact Hs|]. intros i I. unfold transverse, dot3, sum3, source. cbv zeta.
    unfold part_e, part_m, part_q. ring.
Qed.

(** The four intensities of a source *)
Lemma square_eval f v X i : (forall e, eval rho (f e) = eval rho e) -> is1 v X -> i < 3 ->
  exists e, square_of ev f v i = Ok e /\ eval rho e = RtoC (Cmod (X i) ^ 2).
Proof.
  intros F [Sh H] I. unfold square_of, entry_of. rewrite Sh, (proj2 (Nat.ltb_lt _ _) I). cbn [bind].
  eexists. split; [reflexivity|]. rewrite F, (eval_ev_mul ev EV rho Rs). unfold conjugate. rewrite (ev_ok ev EV rho Rs).
  cbn [eval]. rewrite (H i I). apply Cmult_conj.
Qed.

Lemma intensities_eval f Sp Ss XP XS : (forall e, eval rho (f e) = eval rho e) -> is1 Sp XP -> is1 Ss XS ->
  exists F, intensities ev f Sp Ss = Ok F /\ dkeys F = ["PP"; "PS"; "SP"; "SS"]%string /\
  forall inp out, exists e, dget (key inp out) F = Some e /\
    eval rho e = RtoC (detected (match inp with Pin => XP | Sin => XS end) out).
Proof.
  intros F P S. unfold intensities.
  destruct (square_eval f Sp XP 0 F P) as (p0 & -> & P0); [lia|]. cbn [bind].
  destruct (square_eval f Sp XP 2 F P) as (p2 & -> & P2); [lia|]. cbn [bind].
  destruct (square_eval f Sp XP 1 F P) as (p1 & -> & P1); [lia|]. cbn [bind].
  destruct (square_eval f Ss XS 0 F S) as (s0 & -> & S0); [lia|]. cbn [bind].
  destruct (square_eval f Ss XS 2 F S) as (s2 & -> & S2); [lia|]. cbn [bind].
  destruct (square_eval f Ss XS 1 F S) as (s1 & -> & S1); [lia|]. cbn [bind].
  eexists. split; [reflexivity|]. split; [reflexivity|].
  intros [|] [|]; eexists; (split; [reflexivity|]); cbn [fst snd]; rewrite ?(eval_ev_add ev EV rho Rs), ?P0, ?P1, ?P2, ?S0, ?S1, ?S2; cbn [detected];
    rewrite ?RtoC_plus; reflexivity.
Qed.

Lemma formgen_eval e m q : has_shape [3; 3; 3] e -> has_shape [3; 3; 3] m -> has_shape [3; 3; 3; 3] q ->
  real_params e -> real_params m -> real_params q -> ~ (e = None /\ m = None /\ q = None) ->
  exists F, formgen ev ex theta e m q = Ok F /\ dkeys F = ["PP"; "PS"; "SP"; "SS"]%string /\
  forall inp out, exists x, dget (key inp out) F = Some x /\
    eval rho x = RtoC (intensity th (val3 rho e) (val3 rho m) (val4 rho q) inp out ph).
Proof.
  intros She Shm Shq Re Rm Rq N.
  destruct (gen_S_eval e m q She Shm Shq Re Rm Rq N) as (Sp & Ss & E & P & S).
  unfold formgen. rewrite E. cbn [bind].
  destruct (intensities_eval ex Sp Ss _ _ (ex_ok ex EX rho Rs) P S) as (F & -> & K & H).
  exists F. split; [reflexivity|]. split; [exact K|]. intros inp out. destruct (H inp out) as (x & G & V).
  exists x. split; [exact G|]. rewrite V. unfold intensity. destruct inp; reflexivity.
Qed.
End Values.
End Whole.
