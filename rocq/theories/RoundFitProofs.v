(** Proofs for C126: the cost of a rounded formula. *)
From Coq Require Import String List Arith ZArith Bool Lia Reals QArith Qreals Lra.
From Coquelicot Require Import Complex.
Import ListNotations.
From Verif Require Import PyBase DataProofs2 CBase FourierBase Expr ExprProofs SpecForm SpecFData FDataModel FDataProofs FormModel TensorInst TensorProofs
  FformgenModel SpecFformgen FformgenThms PropertiesFformgen FitModel SpecFit FitProofs FitProofs2 FitProofs3 LsqProofs SymProofs2 SpecRound SpecRoundFit RoundProofs.
From Verif Require Import SpecTensor TensorModel.
Local Open Scope nat_scope.

Lemma le_hyp_l p q : (0 <= p -> p <= sqrt (p ^ 2 + q ^ 2))%R.
Proof. intros P. rewrite <- (sqrt_pow2 p P) at 1. apply sqrt_le_1_alt. pose proof (pow2_ge_0 q). lra. Qed.
Lemma le_hyp_r p q : (0 <= q -> q <= sqrt (p ^ 2 + q ^ 2))%R.
Proof. intros Q. rewrite Rplus_comm. apply le_hyp_l. exact Q. Qed.
Lemma hyp_add p q r s : (0 <= p -> 0 <= q -> 0 <= r -> 0 <= s -> sqrt ((p + r) ^ 2 + (q + s) ^ 2) <= sqrt (p ^ 2 + q ^ 2) + (r + s))%R.
Proof.
  intros P Q Rr S. pose proof (le_hyp_l p q P) as A. pose proof (le_hyp_r p q Q) as B. set (h := sqrt (p ^ 2 + q ^ 2)) in *.
  assert (H : (0 <= h)%R) by lra. assert (E : (h ^ 2 = p ^ 2 + q ^ 2)%R) by (unfold h; rewrite pow2_sqrt; [reflexivity|pose proof (pow2_ge_0 p); pose proof (pow2_ge_0 q); lra]).
  rewrite <- (sqrt_pow2 (h + (r + s))) by lra. apply sqrt_le_1_alt.
  assert (X : (p * r <= h * r)%R) by (apply Rmult_le_compat_r; assumption). assert (Y : (q * s <= h * s)%R) by (apply Rmult_le_compat_r; assumption).
  assert (Z : (0 <= h * s)%R) by (apply Rmult_le_pos; assumption). assert (Z' : (0 <= h * r)%R) by (apply Rmult_le_pos; assumption). assert (Z'' : (0 <= r * s)%R) by (apply Rmult_le_pos; assumption). nra.
Qed.

(** A sum of squares of numbers that differ by e *)
Lemma root_rsum {A} (f g e : A -> R) l : (forall a, In a l -> 0 <= f a /\ 0 <= g a /\ 0 <= e a /\ f a <= g a + e a)%R ->
  (sqrt (rsum (fun a => f a ^ 2) l) <= sqrt (rsum (fun a => g a ^ 2) l) + rsum e l)%R.
Proof.
  intros H. induction l as [|a l IH]; [cbn; rewrite sqrt_0; lra|]. specialize (IH (fun b I => H b (or_intror I))).
  destruct (H a (or_introl eq_refl)) as (F & G & Ee & X). unfold rsum in *. cbn [fold_right].
  set (sf := fold_right (fun a s => (f a ^ 2 + s)%R) 0%R l) in *. set (sg := fold_right (fun a s => (g a ^ 2 + s)%R) 0%R l) in *. set (se := fold_right (fun a s => (e a + s)%R) 0%R l) in *.
  assert (Pf : (0 <= sf)%R) by (unfold sf; clear; induction l as [|b l I]; cbn; [lra|pose proof (pow2_ge_0 (f b)); cbn in *; lra]).
  assert (Pg : (0 <= sg)%R) by (unfold sg; clear; induction l as [|b l I]; cbn; [lra|pose proof (pow2_ge_0 (g b)); cbn in *; lra]).
  assert (Pe : (0 <= se)%R).
  { unfold se. clear - H. induction l as [|b l I]; cbn; [lra|]. destruct (H b (or_intror (or_introl eq_refl))) as (_ & _ & Y & _).
    assert (Z := I (fun c J => H c (match J with or_introl j => or_introl j | or_intror j => or_intror (or_intror j) end))). lra. }
  apply Rle_trans with (sqrt ((g a + e a) ^ 2 + (sqrt sg + se) ^ 2)).
  - apply sqrt_le_1_alt. apply Rplus_le_compat; [apply pow_incr; split; assumption|].
    rewrite <- (pow2_sqrt sf) by exact Pf. apply pow_incr. split; [apply sqrt_pos|exact IH].
  - eapply Rle_trans; [apply hyp_add; try assumption; apply sqrt_pos|]. rewrite pow2_sqrt by exact Pg. lra.
Qed.

Lemma rewritten_ok g F : formula_ok F -> formula_ok (rewritten g F).
Proof.
  intros (N & L). split.
  - change (NoDup (dkeys (dmap (fun r => mkrow true (map g (r_cells r))) (ff_rows F)))). rewrite dkeys_dmap. exact N.
  - intros k r I. apply In_dmap in I as (r0 & I & ->). cbn [r_cells]. rewrite map_length. exact (L k r0 I).
Qed.
Lemma rewritten_matching g F D : matching F D -> matching (rewritten g F) D.
Proof.
  intros (O & DO & M & K). split; [apply rewritten_ok; exact O|]. split; [exact DO|]. split; [exact M|].
  intros k I. apply K. change (In k (dkeys (dmap (fun r => mkrow true (map g (r_cells r))) (ff_rows F)))) in I. rewrite dkeys_dmap in I. exact I.
Qed.
Lemma rewritten_arguments g F free : (forall e, incl (syms (g e)) (syms e)) -> argument_list F free -> argument_list (rewritten g F) free.
Proof.
  intros G (N & A). split; [exact N|]. intros s (k & r & e & I & J & S). apply A. apply In_dmap in I as (r0 & I & ->). cbn [r_cells] in J.
  apply in_map_iff in J as (e0 & <- & J). exists k, r0, e0. split; [exact I|]. split; [exact J|apply G; exact S].
Qed.
Lemma rewritten_cell g F k r m : formula_ok F -> In (k, r) (ff_rows F) -> In m (freqs (ff_M F)) -> fcell (ff_M F) (mkrow true (map g (r_cells r))) m = g (fcell (ff_M F) r m).
Proof.
  intros (_ & L) I J. specialize (L k r I). unfold fcell. cbn [r_cells]. rewrite (nth_indep _ (num 0) (g (num 0))); [apply map_nth|].
  rewrite map_length, L. apply In_freqs in J. lia.
Qed.

(** The misfit as one sum over polarizations and frequencies *)
Definition places (F : fform) : list (string * row * Z) := flat_map (fun kr => map (fun m => (kr, m)) (freqs (ff_M F))) (ff_rows F).
Lemma in_places F k r m : In (k, r, m) (places F) <-> In (k, r) (ff_rows F) /\ In m (freqs (ff_M F)).
Proof.
  unfold places. rewrite in_flat_map. split.
  - intros (kr & I & J). apply in_map_iff in J as (m' & E & J). injection E as -> ->. auto.
  - intros (I & J). exists (k, r). split; [exact I|]. apply in_map. exact J.
Qed.
Lemma rsum_places F f : rsum f (places F) = rsum (fun kr => rsum (fun m => f (kr, m)) (freqs (ff_M F))) (ff_rows F).
Proof. unfold places. rewrite rsum_flat_map. apply rsum_ext. intros kr _. rewrite FitProofs.rsum_map. reflexivity. Qed.
Lemma misfit_places F D rho : misfit F D rho = rsum (fun p => (Cmod (Cminus (eval rho (fcell (ff_M F) (snd (fst p)) (snd p))) (dvalue D (fst (fst p)) (snd p))) ^ 2)%R) (places F).
Proof. rewrite rsum_places. reflexivity. Qed.
Lemma misfit_rewritten g F D rho : formula_ok F ->
  misfit (rewritten g F) D rho = rsum (fun p => (Cmod (Cminus (eval rho (g (fcell (ff_M F) (snd (fst p)) (snd p)))) (dvalue D (fst (fst p)) (snd p))) ^ 2)%R) (places F).
Proof.
  intros O. rewrite rsum_places. unfold misfit, rewritten. cbn [ff_M ff_rows]. unfold dmap. rewrite FitProofs.rsum_map. apply rsum_ext. intros [k r] I. cbn [fst snd].
  apply rsum_ext. intros m J. rewrite (rewritten_cell g F k r m O I J). reflexivity.
Qed.

Lemma Cmod_swap a b c : (Cmod (Cminus a c) <= Cmod (Cminus b c) + Cmod (Cminus a b))%R.
Proof. replace (Cminus a c) with (Cplus (Cminus b c) (Cminus a b)) by ring. apply Cmod_triangle. Qed.
Lemma Cmod_back a b c : (Cmod (Cminus b c) <= Cmod (Cminus a c) + Cmod (Cminus a b))%R.
Proof.
  replace (Cminus b c) with (Cplus (Cminus a c) (Copp (Cminus a b))) by ring. eapply Rle_trans; [apply Cmod_triangle|]. rewrite Cmod_opp. lra.
Qed.

Lemma rewritten_error g F D rho (err : string -> Z -> R) : formula_ok F ->
  (forall k r m, In (k, r) (ff_rows F) -> In m (freqs (ff_M F)) -> (Cmod (Cminus (eval rho (g (fcell (ff_M F) r m))) (eval rho (fcell (ff_M F) r m))) <= err k m)%R) ->
  (Rabs (sqrt (misfit (rewritten g F) D rho) - sqrt (misfit F D rho)) <= rsum (fun kr => rsum (fun m => err (fst kr) m) (freqs (ff_M F))) (ff_rows F))%R.
Proof.
  intros O H. rewrite (misfit_rewritten g F D rho O), (misfit_places F D rho).
  set (e := fun p : string * row * Z => err (fst (fst p)) (snd p)).
  assert (B : forall p, In p (places F) -> (Cmod (Cminus (eval rho (g (fcell (ff_M F) (snd (fst p)) (snd p)))) (eval rho (fcell (ff_M F) (snd (fst p)) (snd p)))) <= e p)%R).
  { intros [[k r] m] I. apply in_places in I as (I & J). exact (H k r m I J). }
  replace (rsum (fun kr => rsum (fun m => err (fst kr) m) (freqs (ff_M F))) (ff_rows F)) with (rsum e (places F)) by apply rsum_places.
  assert (X := root_rsum (fun p : string * row * Z => Cmod (Cminus (eval rho (g (fcell (ff_M F) (snd (fst p)) (snd p)))) (dvalue D (fst (fst p)) (snd p))))
    (fun p => Cmod (Cminus (eval rho (fcell (ff_M F) (snd (fst p)) (snd p))) (dvalue D (fst (fst p)) (snd p)))) e (places F)).
  assert (Y := root_rsum (fun p : string * row * Z => Cmod (Cminus (eval rho (fcell (ff_M F) (snd (fst p)) (snd p))) (dvalue D (fst (fst p)) (snd p))))
    (fun p => Cmod (Cminus (eval rho (g (fcell (ff_M F) (snd (fst p)) (snd p)))) (dvalue D (fst (fst p)) (snd p)))) e (places F)).
  assert (X' := X (fun p I => conj (Cmod_ge_0 _) (conj (Cmod_ge_0 _) (conj (Rle_trans _ _ _ (Cmod_ge_0 _) (B p I)) (Rle_trans _ _ _ (Cmod_swap _ _ _) (Rplus_le_compat_l _ _ _ (B p I))))))).
  assert (Y' := Y (fun p I => conj (Cmod_ge_0 _) (conj (Cmod_ge_0 _) (conj (Rle_trans _ _ _ (Cmod_ge_0 _) (B p I)) (Rle_trans _ _ _ (Cmod_back _ _ _) (Rplus_le_compat_l _ _ _ (B p I))))))).
  clear X Y B H. apply Rabs_le. cbv beta in X', Y'. lra.
Qed.

(** ** Files *)
Lemma rounded_file ev expand prefix fs d q nd D srepr parse : contracted_dict ev expand prefix fs d q 16 None = Ok D -> dkeys D = ["PP"; "PS"; "SP"; "SS"]%string ->
  (forall k r, In (k, r) D -> length r = 33) -> (forall e, parse (srepr e) = Ok e) ->
  exists file file' F, generate_contracted_fourier_transforms ev expand srepr prefix fs d q 16 None = Ok file /\ load_fform parse file = Ok F /\
    generate_contracted_fourier_transforms ev expand srepr prefix fs d q 16 (Some nd) = Ok file' /\ load_fform parse file' = Ok (rewritten (round_expr ev expand nd) F) /\
    ff_M F = 16 /\ dkeys (ff_rows F) = ["PP"; "PS"; "SP"; "SS"]%string /\ formula_ok F.
Proof.
  intros ED K L P. exists (dmap (map srepr) D), (dmap (map srepr) (dmap (map (round_expr ev expand nd)) D)), (mkff (dmap (mkrow true) D) 16).
  split; [unfold generate_contracted_fourier_transforms; rewrite ED; reflexivity|]. split; [apply loaded_rows; assumption|].
  split; [unfold generate_contracted_fourier_transforms; rewrite contracted_rounded, ED; reflexivity|]. split.
  - rewrite (loaded_rows srepr parse (dmap (map (round_expr ev expand nd)) D) P).
    + unfold rewritten. cbn [ff_rows ff_M]. unfold dmap. rewrite !map_map. reflexivity.
    + rewrite dkeys_dmap. exact K.
    + intros k r I. apply In_dmap in I as (r0 & I & ->). rewrite map_length. exact (L k r0 I).
  - split; [reflexivity|]. cbn [ff_rows]. rewrite dkeys_dmap. split; [exact K|]. split; cbn [ff_rows ff_M].
    + change (NoDup (dkeys (dmap (mkrow true) D))). rewrite dkeys_dmap, K. repeat constructor; cbn; intuition discriminate.
    + intros k r I. apply In_dmap in I as (r0 & I & ->). cbn [r_cells]. rewrite (L k r0 I). reflexivity.
Qed.

(** ** The cost functions *)
Lemma rounded_cost ev expand kev nd F D free chunk chunk' save save' lfs lfs' : sound_ev ev -> sound_ev expand -> sound_kev kev ->
  matching F D -> ff_rows F <> [] -> argument_list F free ->
  exists lib lib', gen_cost_func kev F D (Some free) chunk save lfs = (save_lib save lib lfs, Ok lib) /\
    gen_cost_func kev (rewritten (round_expr ev expand nd) F) D (Some free) chunk' save' lfs' = (save_lib save' lib' lfs', Ok lib') /\
    forall xs, length xs = length free -> exists c c', call lib xs = Some c /\ call lib' xs = Some c' /\ (0 <= c)%R /\ (0 <= c')%R /\
      ((forall k r m, In (k, r) (ff_rows F) -> In m (freqs (ff_M F)) -> short_numbers nd (expand (fcell (ff_M F) r m))) -> c' = c) /\
      forall ts, expansions expand nd F ts -> (Rabs (sqrt c' - sqrt c) <= rounding_bound nd F ts (reading free xs))%R.
Proof.
  intros EV EX KEV Ma NE A. assert (O : formula_ok F) by apply Ma.
  assert (A' : argument_list (rewritten (round_expr ev expand nd) F) free).
  { apply rewritten_arguments; [|exact A]. intros e s I. unfold round_expr in I. apply (proj2 EV) in I. rewrite round_syms in I. apply (proj2 EX) in I. exact I. }
  destruct (cost_ok kev KEV F D free chunk save lfs Ma A (fun _ => NE)) as (lib & G & Cp).
  destruct (cost_ok kev KEV (rewritten (round_expr ev expand nd) F) D free chunk' save' lfs' (rewritten_matching _ F D Ma) A') as (lib' & G' & Cp').
  { intros _ Z. apply NE. unfold rewritten in Z. cbn [ff_rows] in Z. destruct (ff_rows F); [reflexivity|discriminate Z]. }
  exists lib, lib'. split; [exact G|]. split; [exact G'|]. intros xs L.
  assert (As : assigns free xs (reading free xs)) by (apply reading_assigns; [apply A|lia]). assert (Rs := reading_respects free xs).
  exists (misfit F D (reading free xs)), (misfit (rewritten (round_expr ev expand nd) F) D (reading free xs)).
  split; [apply Cp; [lia|exact As]|]. split; [apply Cp'; [lia|exact As]|].
  split; [rewrite misfit_places; apply rsum_nonneg; intros; apply pow2_ge_0|]. split; [rewrite misfit_rewritten by exact O; apply rsum_nonneg; intros; apply pow2_ge_0|]. split.
  - intros Sh. rewrite misfit_rewritten, misfit_places by exact O. apply rsum_ext. intros [[k r] m] I. apply in_places in I as (I & J). cbn [fst snd].
    unfold round_expr. rewrite (proj1 EV) by exact Rs. rewrite round_short by exact (Sh k r m I J). rewrite (proj1 EX) by exact Rs. reflexivity.
  - intros ts X. unfold rounding_bound. rewrite <- rsum_scal.
    rewrite (rsum_ext _ (fun kr => rsum (fun m => (2 * half_unit nd * spread (reading free xs) (ts (fst kr) m))%R) (freqs (ff_M F))) (ff_rows F)) by (intros kr _; rewrite rsum_scal; reflexivity).
    apply (rewritten_error (round_expr ev expand nd) F D (reading free xs) (fun k m => (2 * half_unit nd * spread (reading free xs) (ts k m))%R) O).
    intros k r m I J. specialize (X k r m I J). unfold round_expr. rewrite (proj1 EV) by exact Rs. rewrite <- (proj1 EX _ (fcell (ff_M F) r m) Rs).
    apply expanded_error; [exact X|pose proof (half_unit_pos nd); lra|]. intros. apply any_coefficient.
Qed.
