(** Proofs for C140: fits with an unknown orientation. *)
From Coq Require Import String List Arith ZArith Bool Lia Reals Lra.
From Coquelicot Require Import Complex.
From Verif Require Import PyBase RMod CBase Expr ExprProofs DataModel DataProofs DataProofs2 FDataModel SpecFData FDataProofs FDataProofs2 FormModel SpecForm FormProofs FormProofs2 FormProofs3 FormgenProofs FitModel SpecFit FitProofs FitProofs2
  LsqProofs LsqProofs2 SpecUnit SpecOrient.
Import ListNotations.
Local Open Scope nat_scope.

(** * Arrays *)

Lemma turned_length psi a free xs : length xs = length free -> length (turned psi a free xs) = length free.
Proof. intros L. unfold turned. rewrite map_length, combine_length. lia. Qed.
Lemma turned_back psi a free xs : length xs = length free -> turned psi (- a) free (turned psi a free xs) = xs.
Proof.
  revert xs. induction free as [|s free IH]; intros [|x xs] L; try discriminate L; [reflexivity|]. unfold turned in *. cbn [combine map fst snd].
  injection L as L. rewrite (IH xs L). destruct (sym_eqb s psi); f_equal. ring.
Qed.
Lemma turned_other psi a free xs s : length xs = length free -> s <> psi -> reading free (turned psi a free xs) s = reading free xs s.
Proof.
  intros L N. revert xs L. induction free as [|f free IH]; intros [|x xs] L; try discriminate L; [reflexivity|]. unfold turned in *. cbn [combine map fst snd reading].
  injection L as L. destruct (sym_eqb_spec s f) as [<-|Nf].
  - destruct (sym_eqb_spec s psi) as [->|_]; [congruence|reflexivity].
  - apply IH. exact L.
Qed.
Lemma turned_psi psi a free xs : length xs = length free -> In psi free -> exists p, reading free xs psi = RtoC p /\ reading free (turned psi a free xs) psi = RtoC (p + a).
Proof.
  revert xs. induction free as [|f free IH]; intros [|x xs] L I; try discriminate L; [destruct I|]. unfold turned in *. cbn [combine map fst snd reading].
  injection L as L. destruct (sym_eqb_spec psi f) as [<-|Nf].
  - exists x. destruct (sym_eqb_spec psi psi) as [_|]; [|congruence]. split; reflexivity.
  - apply IH; [exact L|]. destruct I as [I|I]; [congruence|exact I].
Qed.
Lemma reading_respects free xs : respects (reading free xs).
Proof.
  intros s _. revert xs. induction free as [|f free IH]; intros [|x xs]; try reflexivity. cbn [reading]. destruct (sym_eqb s f); [reflexivity|apply IH].
Qed.

(** * Data *)

Lemma shifted_values F D x np : matching F D -> matching F (fst (phase_shift_fdata D x np "radians")) /\
  forall k m, In k (map fst (ff_rows F)) -> In m (freqs (ff_M F)) -> dvalue (fst (phase_shift_fdata D x np "radians")) k m = Cmult (cis (IZR m * x)) (dvalue D k m).
Proof.
  intros (FO & DO & EM & K).
  assert (Ed : fd_data (fst (phase_shift_fdata D x np "radians")) = dmap (shift_row (fd_M D) x) (fd_data D) /\ fd_M (fst (phase_shift_fdata D x np "radians")) = fd_M D).
  { unfold phase_shift_fdata. cbn. destruct (phase_add _ _ _); split; reflexivity. }
  destruct Ed as [Ed Em]. set (D' := fst (phase_shift_fdata D x np "radians")) in *. clearbody D'. destruct DO as [Nd Ld].
  split.
  - split; [exact FO|]. split; [split|split].
    + rewrite Ed. change (NoDup (dkeys (dmap (shift_row (fd_M D) x) (fd_data D)))). rewrite dkeys_dmap. exact Nd.
    + intros k v I. rewrite Ed in I. apply In_dmap in I as (w & I & ->). rewrite Em. apply shift_row_length. apply (Ld k w I).
    + rewrite Em, EM. reflexivity.
    + intros k I. rewrite Ed. change (In k (dkeys (dmap (shift_row (fd_M D) x) (fd_data D)))). rewrite dkeys_dmap. apply K, I.
  - intros k m I J. apply In_freqs in J. assert (Jm : (Z.abs m <= Z.of_nat (fd_M D))%Z) by lia.
    apply K in I. unfold dvalue. rewrite Ed, Em, dget_dmap. destruct (dget k (fd_data D)) as [v|] eqn:G.
    + cbn [option_map]. rewrite shift_row_coef; [ring|apply (Ld k v), dget_In, G|exact Jm].
    + cbn [option_map]. ring.
Qed.

(** * The misfit of a formula with an orientation *)

Section Orient.
Variable ev : expr -> expr.
Hypothesis EV : sound_ev ev.
Variable F : fform.
Variable psi : sym.
Hypothesis FO : formula_ok F.
Hypothesis NP : ~ ff_occurs F psi.

Lemma oriented_misfit D rho p : respects rho -> rho psi = RtoC p -> misfit (ff_phase_shift ev F (ESym psi)) D rho =
  rsum (fun kr => rsum (fun m => (Cmod (Cminus (Cmult (eval rho (fcell (ff_M F) (snd kr) m)) (cis (IZR m * p))) (dvalue D (fst kr) m)) ^ 2)%R) (freqs (ff_M F))) (ff_rows F).
Proof.
  intros Hr Ep. unfold misfit. change (ff_M (ff_phase_shift ev F (ESym psi))) with (ff_M F).
  pose proof (map_rows_related (fun m e => ev (EMul [e; cis_expr m (ESym psi)])) F FO) as A. change (ff_rows (ff_phase_shift ev F (ESym psi))) with (ff_rows (map_rows (fun m e => ev (EMul [e; cis_expr m (ESym psi)])) F)).
  induction A as [|[k r] [k' r'] l l' [E X] A IH]; [reflexivity|]. cbn [fst snd] in E, X. subst k'. unfold rsum at 1 3. cbn [fold_right fst snd].
  unfold rsum at 1 3 in IH. cbn [fst snd] in IH. rewrite IH. f_equal. apply rsum_ext. intros m I. rewrite (X m I). do 3 f_equal.
  rewrite (proj1 EV) by exact Hr. rewrite eval_mul. cbn [map fold_right]. rewrite eval_cis_expr.
  assert (Es : eval rho (ESym psi) = RtoC p) by exact Ep. rewrite Es, <- RtoC_mult, Cexpi_R. ring.
Qed.
Lemma cells_free rho rho' k r m : (forall s, s <> psi -> rho' s = rho s) -> In (k, r) (ff_rows F) -> In m (freqs (ff_M F)) ->
  eval rho' (fcell (ff_M F) r m) = eval rho (fcell (ff_M F) r m).
Proof.
  intros Eq I J. apply eval_ext. intros s S. apply Eq. intros ->. apply NP. exists k, r, (fcell (ff_M F) r m). split; [exact I|]. split; [|exact S].
  apply In_freqs in J. unfold fcell. apply nth_In. rewrite (proj2 FO k r I). lia.
Qed.
Lemma oriented_turn D D' a rho rho' p : (forall k m, In k (map fst (ff_rows F)) -> In m (freqs (ff_M F)) -> dvalue D' k m = Cmult (cis (IZR m * a)) (dvalue D k m)) ->
  respects rho -> respects rho' -> (forall s, s <> psi -> rho' s = rho s) -> rho psi = RtoC p -> rho' psi = RtoC (p + a) ->
  misfit (ff_phase_shift ev F (ESym psi)) D' rho' = misfit (ff_phase_shift ev F (ESym psi)) D rho.
Proof.
  intros V Hr Hr' Eq Ep Ep'. rewrite (oriented_misfit D rho p Hr Ep), (oriented_misfit D' rho' (p + a)%R Hr' Ep'). apply rsum_ext. intros (k, r) I. apply rsum_ext. intros m J. cbn [fst snd].
  rewrite (cells_free rho rho' k r m Eq I J), (V k m) by (first [exact J|exact (in_map fst (ff_rows F) (k, r) I)]).
  rewrite Rmult_plus_distr_l, cis_plus.
  replace (Cminus (Cmult (eval rho (fcell (ff_M F) r m)) (Cmult (cis (IZR m * p)) (cis (IZR m * a)))) (Cmult (cis (IZR m * a)) (dvalue D k m)))
    with (Cmult (cis (IZR m * a)) (Cminus (Cmult (eval rho (fcell (ff_M F) r m)) (cis (IZR m * p))) (dvalue D k m))) by ring.
  rewrite Cmod_mult, Cmod_cis, Rmult_1_l. reflexivity.
Qed.

Variable kev : code -> code.
Hypothesis KEV : sound_kev kev.
Variables D D' : fdat.
Variable a : R.
Variable free : list sym.
Hypothesis Ma : matching F D.
Hypothesis Ma' : matching F D'.
Hypothesis V : forall k m, In k (map fst (ff_rows F)) -> In m (freqs (ff_M F)) -> dvalue D' k m = Cmult (cis (IZR m * a)) (dvalue D k m).
Hypothesis A : argument_list (ff_phase_shift ev F (ESym psi)) free.
Hypothesis Ip : In psi free.

Lemma oriented_matching E : matching F E -> matching (ff_phase_shift ev F (ESym psi)) E.
Proof.
  intros (_ & DO & EM & K). split; [apply map_rows_ok; exact FO|]. split; [exact DO|]. split; [exact EM|]. intros k I. apply K.
  change (In k (dkeys (ff_rows F))). change (In k (dkeys (dmap (fun r => mkrow true (map (fun mc => ev (EMul [snd mc; cis_expr (fst mc) (ESym psi)])) (combine (freqs (ff_M F)) (r_cells r)))) (ff_rows F)))) in I.
  rewrite dkeys_dmap in I. exact I.
Qed.
Lemma oriented_costs chunk save fs : (chunk = true -> ff_rows F <> []) -> exists lib lib',
  gen_cost_func kev (ff_phase_shift ev F (ESym psi)) D (Some free) chunk save fs = (save_lib save lib fs, Ok lib) /\
  gen_cost_func kev (ff_phase_shift ev F (ESym psi)) D' (Some free) chunk save fs = (save_lib save lib' fs, Ok lib') /\
  (forall xs, length xs = length free -> exists c, call lib xs = Some c /\ call lib' (turned psi a free xs) = Some c) /\
  (forall xs, minimises lib (length free) xs -> minimises lib' (length free) (turned psi a free xs)) /\
  (forall xs, minimises lib' (length free) (turned psi a free xs) -> length xs = length free -> minimises lib (length free) xs).
Proof.
  intros Ne. assert (Ne' : chunk = true -> ff_rows (ff_phase_shift ev F (ESym psi)) <> []).
  { intros E N. apply (Ne E). cbn [ff_phase_shift map_rows ff_rows] in N. apply map_eq_nil in N. exact N. }
  destruct (cost_ok kev KEV _ D free chunk save fs (oriented_matching D Ma) A Ne') as (lib & G & W).
  destruct (cost_ok kev KEV _ D' free chunk save fs (oriented_matching D' Ma') A Ne') as (lib' & G' & W').
  exists lib, lib'. split; [exact G|]. split; [exact G'|].
  assert (C : forall xs, length xs = length free -> exists c, call lib xs = Some c /\ call lib' (turned psi a free xs) = Some c).
  { intros xs L. pose proof (turned_length psi a free xs L) as L'. exists (misfit (ff_phase_shift ev F (ESym psi)) D (reading free xs)). split.
    - apply W; [lia|]. apply reading_assigns; [apply A|lia].
    - rewrite (W' _ (reading free (turned psi a free xs))) by (first [lia|apply reading_assigns; [apply A|lia]]). f_equal.
      destruct (turned_psi psi a free xs L Ip) as (p & Ep & Ep').
      apply (oriented_turn D D' a _ _ p V); [apply reading_respects|apply reading_respects| |exact Ep|exact Ep'].
      intros s N. apply turned_other; assumption. }
  split; [exact C|]. split.
  - intros xs (L & c & E & H). split; [apply turned_length; exact L|]. destruct (C xs L) as (c' & E1 & E2). assert (c' = c) by congruence. subst c'. exists c. split; [exact E2|].
    intros ys Ly. destruct (C (turned psi (- a) free ys)) as (d & F1 & F2); [apply turned_length; exact Ly|].
    pose proof (turned_back psi (- a) free ys Ly) as Q. rewrite Ropp_involutive in Q. rewrite Q in F2.
    destruct (H (turned psi (- a) free ys)) as (d' & F3 & Le); [apply turned_length; exact Ly|]. assert (d' = d) by congruence. subst d'. exists d. split; assumption.
  - intros xs (_ & c & E & H) L. split; [exact L|]. destruct (C xs L) as (c' & E1 & E2). assert (c' = c) by congruence. subst c'. exists c. split; [exact E1|].
    intros ys Ly. destruct (C ys Ly) as (d & F1 & F2). destruct (H (turned psi a free ys)) as (d' & F3 & Le); [apply turned_length; exact Ly|]. assert (d' = d) by congruence. subst d'. exists d. split; assumption.
Qed.
End Orient.
