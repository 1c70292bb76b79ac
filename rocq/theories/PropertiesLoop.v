(** C138: fitting simulated data. *)
From Coq Require Import String List Arith ZArith QArith Qreals Bool Lia Reals Lra.
From Coq Require ClassicalDedekindReals.
From Coquelicot Require Import Complex.
From Verif Require Import PyBase CBase Expr ExprProofs SpecForm SpecFData FDataModel FormModel FitModel SpecFit SpecPipe FitProofs3 PropertiesForm PropertiesPipe SpecLoop LoopProofs.
Import ListNotations.
Local Open Scope nat_scope.

(* ================================================================== *)
(** * C138 *)

(** Data simulated from a formula, fitted with the same formula by an optimiser that
    finds the minimum: the fitted dictionary simulates the same data. *)
Theorem C138_least_squares : forall ev kev F d free xs optimiser guess bounds chunk save kw fs, sound_ev ev -> sound_kev kev ->
  ff_reachable ev F -> symbolic F -> ff_M F = 16 -> ff_free_symbols F = Ok free -> free <> [] -> parameter_values d -> listed d free xs ->
  finds_minimum optimiser -> bounds_hold bounds free xs ->
  exists D, fform_to_fdat ev F d = Ok D /\ forall fs' x xd,
    least_squares_fit kev optimiser F D guess bounds chunk save None kw fs = (fs', Ok (Fitted x xd)) ->
    xd = combine free x /\ length x = length free /\
    forall d', parameter_values d' -> same_numbers xd d' -> exists D', fform_to_fdat ev F d' = Ok D' /\ fget_items D' = fget_items D.
Proof.
  intros ev kev F d free xs optimiser guess bounds chunk save kw fs EV KEV RF SF MF FF NE PD LD.
  exact (loop_least_squares ev EV kev KEV F d free xs RF SF MF FF NE PD LD optimiser guess bounds chunk save kw fs).
Qed.
Print Assumptions C138_least_squares.

Theorem C138_dual_annealing : forall ev kev F d free xs optimiser guess bounds chunk save kw fs, sound_ev ev -> sound_kev kev ->
  ff_reachable ev F -> symbolic F -> ff_M F = 16 -> ff_free_symbols F = Ok free -> free <> [] -> parameter_values d -> listed d free xs ->
  finds_minimum optimiser -> bounds_hold bounds free xs ->
  exists D, fform_to_fdat ev F d = Ok D /\ forall fs' x xd,
    dual_annealing_fit kev optimiser F D guess bounds chunk save None kw fs = (fs', Ok (Fitted x xd)) ->
    xd = combine free x /\ length x = length free /\
    forall d', parameter_values d' -> same_numbers xd d' -> exists D', fform_to_fdat ev F d' = Ok D' /\ fget_items D' = fget_items D.
Proof.
  intros ev kev F d free xs optimiser guess bounds chunk save kw fs EV KEV RF SF MF FF NE PD LD.
  exact (loop_dual_annealing ev EV kev KEV F d free xs RF SF MF FF NE PD LD optimiser guess bounds chunk save kw fs).
Qed.
Print Assumptions C138_dual_annealing.

Theorem C138_basinhopping : forall ev kev F d free xs optimiser guess own chunk save kw fs, sound_ev ev -> sound_kev kev ->
  ff_reachable ev F -> symbolic F -> ff_M F = 16 -> ff_free_symbols F = Ok free -> free <> [] -> parameter_values d -> listed d free xs ->
  finds_minimum optimiser ->
  exists D, fform_to_fdat ev F d = Ok D /\ forall fs' kw' x xd,
    basinhopping_fit kev optimiser F D guess None own chunk save None kw fs = (fs', kw', Ok (Fitted x xd)) ->
    xd = combine free x /\ length x = length free /\
    forall d', parameter_values d' -> same_numbers xd d' -> exists D', fform_to_fdat ev F d' = Ok D' /\ fget_items D' = fget_items D.
Proof.
  intros ev kev F d free xs optimiser guess own chunk save kw fs EV KEV RF SF MF FF NE PD LD.
  exact (loop_basinhopping ev EV kev KEV F d free xs RF SF MF FF NE PD LD optimiser guess own chunk save kw fs).
Qed.
Print Assumptions C138_basinhopping.

(** An optimiser that answers [cand] when [cand] is the minimum, and fails otherwise. *)
Definition candidate (cand : list R) (o : objective) (x0 : list R) (bs : option (list (R * R))) (own kw : list (string * val)) : res (list R) :=
  match o with
  | Scalar f => if ClassicalDedekindReals.sig_not_dec (smallest f (length x0) bs cand) then Ok cand else Raise ValueError
  | WithGradient _ _ => Raise ValueError
  end.
Lemma smallest_stable f n bs x : ~ ~ smallest f n bs x -> smallest f n bs x.
Proof.
  intros H. split.
  - destruct (Nat.eq_dec (length x) n) as [E|E]; [exact E|]. exfalso. apply H. intros (L & _). exact (E L).
  - intros y v Ly W Y. destruct (f x) as [u|] eqn:X.
    + exists u. split; [reflexivity|]. destruct (Rle_lt_dec u v) as [Q|Q]; [exact Q|]. exfalso. apply H. intros (_ & M).
      destruct (M y v Ly W Y) as (u' & E & Le). assert (u' = u) by congruence. subst. lra.
    + exfalso. apply H. intros (_ & M). destruct (M y v Ly W Y) as (u' & E & _). congruence.
Qed.
Lemma candidate_finds cand : finds_minimum (candidate cand).
Proof.
  intros f x0 bs own kw x E. unfold candidate in E. destruct (ClassicalDedekindReals.sig_not_dec _) as [H|]; [|discriminate E].
  injection E as <-. apply smallest_stable, H.
Qed.
Lemma candidate_answers cand f x0 bs own kw : smallest f (length x0) bs cand -> candidate cand (Scalar f) x0 bs own kw = Ok cand.
Proof. intros H. unfold candidate. destruct (ClassicalDedekindReals.sig_not_dec _) as [|N]; [reflexivity|]. exfalso. exact (N H). Qed.

(** A formula with one parameter, simulated at 3/2, fitted from 0 within bounds. *)
Example C138_case : exists optimiser D, finds_minimum optimiser /\ bounds_hold (Some [(a_sym, (0, 2)%R)]) [a_sym] [(3 / 2)%R] /\
  fform_to_fdat (fun e => e) (flat 16) [(a_sym, (3 # 2, 0)%Q)] = Ok D /\
  least_squares_fit (fun e => e) optimiser (flat 16) D [(a_sym, 0%R)] (Some [(a_sym, (0, 2)%R)]) false None None [] [] = ([], Ok (Fitted [(3 / 2)%R] [(a_sym, (3 / 2)%R)])) /\
  same_numbers [(a_sym, (3 / 2)%R)] [(a_sym, (6 # 4, 0)%Q)].
Proof.
  destruct C75_case as (PV & Li & A).
  assert (FS : ff_free_symbols (flat 16) = Ok [a_sym]) by reflexivity.
  destruct (loop_cost (fun e => e) PropertiesForm.id_sound (fun e => e) FitProofs5.id_sound (flat 16) [(a_sym, (3 # 2, 0)%Q)] [a_sym] [(3 / 2)%R]
    (flat_reachable _ 16) (flat_symbolic 16) eq_refl FS ltac:(discriminate) PV Li false None []) as (D & lib & E & G & Z & _).
  destruct (C75_zero (fun e => e) (fun e => e) (flat 16) [(a_sym, (3 # 2, 0)%Q)] [a_sym] [(3 / 2)%R] false None [] PropertiesForm.id_sound FitProofs5.id_sound
    (flat_reachable _ 16) (flat_symbolic 16) eq_refl A ltac:(discriminate) PV Li) as (D1 & lib1 & E1 & G1 & _ & P).
  assert (D1 = D) by congruence. subst D1. unfold cost_of in G. assert (lib1 = lib) by congruence. subst lib1.
  exists (candidate [(3 / 2)%R]), D. split; [apply candidate_finds|]. split.
  { constructor; [|constructor]. exists 0%R, 2%R. split; [reflexivity|]. lra. }
  split; [exact E|]. split.
  - unfold least_squares_fit. rewrite FS. unfold cost_of. rewrite G. cbn [bind].
    change (x0_of [a_sym] [(a_sym, 0%R)]) with (Ok [0%R]). change (x0_of [a_sym] [(a_sym, (0, 2)%R)]) with (Ok [(0, 2)%R]). cbn [bind].
    change (no_clash ["fun"; "x0"; "bounds"]%string []) with (Ok tt). cbn [bind].
    rewrite candidate_answers.
    + reflexivity.
    + split; [reflexivity|]. intros y v Ly _ Y. exists 0%R. unfold root in *. rewrite Z. cbn [option_map]. rewrite sqrt_0. split; [reflexivity|].
      destruct (call lib y) as [c|]; [|discriminate Y]. cbn [option_map] in Y. injection Y as <-. apply sqrt_pos.
  - intros s x [I|[]]. injection I as <- <-. exists (6 # 4)%Q, 0%Q. split; [left; reflexivity|]. split; [reflexivity|]. unfold Q2R. cbn [Qnum Qden]. field.
Qed.
