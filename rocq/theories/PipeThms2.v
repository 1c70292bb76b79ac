(** Histories of methods on a Fourier formula and on the formula it stands for. *)
From Coq Require Import String List ZArith QArith Qreals Reals Lra Lia Bool.
From Coquelicot Require Import Complex.
From Verif Require Import PyBase CBase DataModel Expr ExprProofs FormModel SpecForm FormProofs FormProofs2 FormProofs3 FormProofs4 SpecPipe.
Import ListNotations.
Local Open Scope nat_scope.

Section H.
Variable ev : expr -> expr.
Hypothesis EV : sound_ev ev.

(** Sequential substitution is evaluation at changed values. *)
Lemma subs_seq_env sa : (forall s v, In (s, v) sa -> s <> phi /\ ~ In phi (syms v) /\ (sreal s = Some true -> real_valued v)) ->
  forall rho, respects rho -> exists rho', respects rho' /\ rho' phi = rho phi /\ forall e, eval rho (subs_seq ev sa e) = eval rho' e.
Proof.
  induction sa as [|[s v] sa IH]; intros H rho Hr; [exists rho; auto|].
  destruct (IH (fun s v I => H s v (or_intror I)) rho Hr) as (r1 & R1 & P1 & E1).
  destruct (H s v (or_introl eq_refl)) as (Ns & Np & Rv).
  exists (upd r1 s (eval r1 v)). split; [|split].
  - intros t Et. unfold upd. destruct (sym_eqb_spec t s) as [->|]; [apply Rv; auto|apply R1; auto].
  - unfold upd. destruct (sym_eqb_spec phi s) as [E|]; [congruence|exact P1].
  - intros e. unfold subs_seq in *. cbn [fold_left fst snd]. rewrite E1, (proj1 EV) by auto. apply eval_subst.
Qed.
Lemma subs_seq_phi sa : (forall s v, In (s, v) sa -> ~ In phi (syms v)) -> forall e, ~ In phi (syms e) -> ~ In phi (syms (subs_seq ev sa e)).
Proof.
  induction sa as [|[s v] sa IH]; intros H e N; [exact N|]. unfold subs_seq in *. cbn [fold_left fst snd].
  apply IH; [intros s' v' I; apply (H s' v'); right; exact I|]. intros I. apply (proj2 EV) in I. apply syms_subst in I as [[I _]|[_ I]]; [auto|].
  apply (H s v (or_introl eq_refl)); auto.
Qed.

Definition twin (M : nat) (kr : string * row) (ke : string * expr) : Prop :=
  fst kr = fst ke /\ r_obj (snd kr) = true /\ (forall c, In c (r_cells (snd kr)) -> ~ In phi (syms c)) /\
  length (r_cells (snd kr)) = 2 * M + 1 /\
  forall rho, respects rho -> eval rho (snd ke) = fseries M (map (eval rho) (r_cells (snd kr))) (rho phi).
Definition twins (F : fform) (f : list (string * expr)) : Prop := Forall2 (twin (ff_M F)) (ff_rows F) f.

Lemma Forall2_dmap {A B A' B'} (P : string * A -> string * B -> Prop) (Q : string * A' -> string * B' -> Prop) g h l m :
  (forall k a k' b, P (k, a) (k', b) -> Q (k, g a) (k', h b)) -> Forall2 P l m -> Forall2 Q (dmap g l) (dmap h m).
Proof. intros H F. induction F as [|[k a] [k' b] l m X F IH]; constructor; auto. Qed.

Lemma combine_length_freqs M (l : list expr) : length l = 2 * M + 1 -> length (combine (freqs M) l) = 2 * M + 1.
Proof. intros L. rewrite combine_length, length_freqs, L. apply Nat.min_id. Qed.

Lemma map_snd_freqs {A} (f : expr -> A) M l : length l = 2 * M + 1 -> map (fun mc => f (snd mc)) (combine (freqs M) l) = map f l.
Proof. intros L. apply map_snd_combine. rewrite length_freqs. auto. Qed.

Lemma fseries_scale M cs w z : fseries M (map (Cmult w) cs) z = Cmult w (fseries M cs z).
Proof.
  unfold fseries. rewrite combine_map_r, Csum_map, <- Csum_mult_l. apply Csum_ext. intros [m c]. cbn [fst snd]. ring.
Qed.

Lemma twins_symbolic F f : twins F f -> symbolic F.
Proof.
  intros T k r I. unfold twins in T. induction T as [|[k1 r1] y l m (_ & X & _) T IH]; [destruct I|]. destruct I as [E|I]; [|auto]. injection E as -> ->. exact X.
Qed.

Lemma twins_step F f o : sensible o -> twins F f -> twins (ff_step ev F o) (form_step ev f o).
Proof.
  intros S T. pose proof (twins_symbolic F f T) as Sy. destruct o as [sa|a|s]; cbn [sensible] in S.
  - cbn [ff_step form_step]. unfold ff_subs. rewrite (all_cells_symbolic F Sy). cbn [bind].
    unfold twins, map_rows, form_subs. cbn [ff_M ff_rows]. eapply Forall2_dmap; [|exact T].
    intros k r k' e (E & _ & N & L & V). cbn [fst snd] in *. split; [exact E|]. cbn [fst snd r_obj r_cells].
    rewrite (map_snd_freqs (subs_seq ev sa)) by exact L. split; [reflexivity|]. split; [|split].
    + intros c I. apply in_map_iff in I as (c0 & <- & I). apply subs_seq_phi; [intros s v J; apply (S s v J)|auto].
    + rewrite map_length. exact L.
    + intros rho Hr. destruct (subs_seq_env sa S rho Hr) as (r' & R' & P' & X). rewrite X, (V r' R'), P', map_map. f_equal.
      apply map_ext. intros c. symmetry. apply X.
  - destruct S as [Na Ra]. cbn [ff_step form_step]. unfold twins, ff_phase_shift, map_rows, form_phase_shift, form_subs. cbn [ff_M ff_rows].
    eapply Forall2_dmap; [|exact T]. intros k r k' e (E & _ & N & L & V). cbn [fst snd] in *. split; [exact E|]. cbn [fst snd r_obj r_cells].
    split; [reflexivity|]. split; [|split].
    + intros c I. apply in_map_iff in I as ([m c0] & <- & I). cbn [fst snd]. intros J. apply (proj2 EV) in J. cbn in J.
      rewrite !app_nil_r in J. apply in_app_iff in J as [J|J]; [apply in_combine_r in I; exact (N c0 I J)|].
      rewrite ?in_app_iff in J. tauto.
    + rewrite map_length. apply combine_length_freqs. exact L.
    + intros rho Hr. unfold subs_seq. cbn [fold_left fst snd]. rewrite (proj1 EV) by auto. rewrite eval_subst.
      rewrite (proj1 EV) by auto. rewrite eval_add. cbn [map fold_right].
      replace (Cplus (eval rho (ESym phi)) (Cplus (eval rho a) (RtoC 0))) with (Cplus (rho phi) (eval rho a)) by (cbn [eval]; ring).
      rewrite V.
      * unfold upd at 2. replace (sym_eqb phi phi) with true by reflexivity. rewrite <- fseries_shift. f_equal.
        rewrite combine_map_r, !map_map. apply map_ext_in. intros [m c] I. cbn [fst snd]. rewrite (proj1 EV) by auto. rewrite eval_mul.
        cbn [map fold_right]. rewrite eval_cis_expr.
        rewrite (eval_ext (upd rho phi (Cplus (rho phi) (eval rho a))) rho c); [ring|].
        intros t It. unfold upd. destruct (sym_eqb_spec t phi) as [->|]; auto. exfalso. apply in_combine_r in I. exact (N c I It).
      * intros t Et. unfold upd. destruct (sym_eqb_spec t phi) as [->|]; auto.
        change (Im (Cplus (rho phi) (eval rho a))) with (Im (rho phi) + Im (eval rho a))%R. rewrite (Ra rho Hr), Hr by auto. ring.
  - cbn [ff_step form_step]. unfold twins, ff_scale, map_rows, form_scale. cbn [ff_M ff_rows]. eapply Forall2_dmap; [|exact T].
    intros k r k' e (E & _ & N & L & V). cbn [fst snd] in *. split; [exact E|]. cbn [fst snd r_obj r_cells].
    rewrite (map_snd_freqs (fun c => ev (EMul [s; c]))) by exact L. split; [reflexivity|]. split; [|split].
    + intros c I. apply in_map_iff in I as (c0 & <- & I). intros J. apply (proj2 EV) in J. cbn in J. rewrite app_nil_r in J.
      apply in_app_iff in J as [J|J]; [auto|exact (N c0 I J)].
    + rewrite map_length. exact L.
    + intros rho Hr. rewrite (proj1 EV) by auto. rewrite eval_mul. cbn [map fold_right]. rewrite (V rho Hr).
      transitivity (Cmult (eval rho s) (fseries (ff_M F) (map (eval rho) (r_cells r)) (rho phi))); [ring|]. rewrite <- fseries_scale, !map_map. f_equal.
      apply map_ext. intros c. rewrite (proj1 EV) by auto. rewrite eval_mul. cbn [map fold_right]. ring.
Qed.
Lemma twins_history h : forall F f, Forall sensible h -> twins F f -> twins (fold_left (ff_step ev) h F) (fold_left (form_step ev) h f).
Proof.
  induction h as [|o h IH]; intros F f S T; [exact T|]. inversion S; subst. cbn [fold_left]. apply IH; auto. apply twins_step; auto.
Qed.
Lemma twins_start F f : ff_wf F -> symbolic F -> ~ ff_occurs F phi -> fform_to_form ev F = Ok f -> twins F f.
Proof.
  intros W S N E. rewrite (fform_to_form_ok ev F W) in E. injection E as <-. destruct W as [_ L]. unfold twins.
  assert (X : forall kr, In kr (ff_rows F) -> twin (ff_M F) kr (fst kr, formula_from_fexpr ev (ff_M F) (r_cells (snd kr)))).
  { intros [k r] I. split; [reflexivity|]. cbn [fst snd]. split; [exact (S k r I)|]. split; [|split; [exact (L k r I)|]].
    - intros c Ic Ip. apply N. exists k, r, c. auto.
    - intros rho Hr. apply formula_value; auto. }
  clear S N L. unfold dmap. induction (ff_rows F) as [|kr l IH]; constructor; [apply X; left; reflexivity|]. apply IH.
  intros kr' I. apply X. right; auto.
Qed.

Lemma history_twins F f h : ff_wf F -> symbolic F -> ~ ff_occurs F phi -> fform_to_form ev F = Ok f -> Forall sensible h ->
  exists g, fform_to_form ev (fold_left (ff_step ev) h F) = Ok g /\ dkeys g = dkeys (fold_left (form_step ev) h f) /\
    forall k e, form_get_pc g k = Ok e -> exists e', form_get_pc (fold_left (form_step ev) h f) k = Ok e' /\
      forall rho, respects rho -> eval rho e = eval rho e'.
Proof.
  intros W S N E Hs. pose proof (twins_history h F f Hs (twins_start F f W S N E)) as T. set (G := fold_left (ff_step ev) h F) in *.
  assert (WG : ff_wf G). { unfold G. clear - W EV. revert F W. induction h as [|o h IH]; intros F W; [exact W|]. cbn [fold_left]. apply IH. apply ff_step_wf; auto. }
  eexists. split; [apply fform_to_form_ok; exact WG|]. set (g := fold_left (form_step ev) h f) in *. clearbody G g. unfold twins in T.
  unfold form_get_pc, dgetr. split.
  - clear WG. unfold dkeys, dmap. rewrite map_map. cbn [fst]. induction T as [|[k r] [k' e] l m (X & _) T IH]; [reflexivity|]. cbn in X. subst. cbn. f_equal. exact IH.
  - intros k e. clear WG. induction T as [|[k1 r] [k2 e2] l m (X & _ & _ & _ & V) T IH]; cbn [dmap map dget fst snd]; [discriminate|]. cbn in X, V. subst k2.
    destruct (eqb k k1).
    + cbn iota. intros Y. assert (Z : e = formula_from_fexpr ev (ff_M G) (r_cells r)) by congruence. subst e. exists e2. split; [reflexivity|]. intros rho Hr. rewrite (V rho Hr). apply formula_value; auto.
    + apply IH.
Qed.
End H.
