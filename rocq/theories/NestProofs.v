(** Proofs for C117: crystals of lower symmetry fit at least as well. *)
From Coq Require Import String List Arith ZArith Bool Lia Reals QArith Qreals Lra.
From Coquelicot Require Import Complex.
Import ListNotations.
From Verif Require Import PyBase DataProofs2 CBase FourierBase Expr ExprProofs SpecForm SpecFData FDataModel FDataProofs FormModel FormProofs3 LookupTable TableProofs
  TensorInst TensorProofs UtilModel SpecUtil UtilProofs SpecFormgen TrigPoly FormgenModel FformgenModel SpecFformgen TensorDefs SpecGroups
  FormgenProofs FormgenProofs2 FormgenProofs3 FormgenProofs4 FormgenPhys FormgenThms FormgenThms2 FormgenTables
  FformgenProofs FformgenProofs2 FformgenProofs3 FformgenProofs4 FformgenProofs5 FformgenThms PropertiesFformgen SpecPhys PhysProofs PhysThms
  FitModel SpecFit FitProofs FitProofs2 FitProofs3 SymProofs2 OrderProofs SpecSymmetry.
From Verif Require Import SpecTensor TensorModel.
Local Open Scope nat_scope.

(** Two formulas with the same values have the same cost. *)
Lemma rows_misfit F F' D rho rho' row row' : ff_M F = 16 -> ff_M F' = 16 ->
  dkeys (ff_rows F) = ["PP"; "PS"; "SP"; "SS"]%string -> dkeys (ff_rows F') = ["PP"; "PS"; "SP"; "SS"]%string ->
  (forall inp out, ff_get_pc F (key inp out) = Ok (row inp out)) -> (forall inp out, ff_get_pc F' (key inp out) = Ok (row' inp out)) ->
  (forall inp out m, In m (freqs 16) -> cell rho (row inp out) m = cell rho' (row' inp out) m) ->
  (misfit F D rho <= misfit F' D rho')%R.
Proof.
  intros M M' K K' G G' H. unfold misfit. apply rsum_rows.
  - change (dkeys (ff_rows F) = dkeys (ff_rows F')). congruence.
  - change (NoDup (dkeys (ff_rows F))). rewrite K. repeat constructor; cbn; intuition discriminate.
  - intros k r r' I I'. cbn [fst snd]. right. rewrite M, M'.
    assert (W : wf_dict (ff_rows F)) by (unfold wf_dict; rewrite K; repeat constructor; cbn; intuition discriminate).
    assert (W' : wf_dict (ff_rows F')) by (unfold wf_dict; rewrite K'; repeat constructor; cbn; intuition discriminate).
    assert (X : exists inp out, key inp out = k).
    { assert (Ik : In k (dkeys (ff_rows F))) by (apply (in_map fst) in I; exact I). rewrite K in Ik.
      destruct Ik as [<-|[<-|[<-|[<-|[]]]]]; [exists Pin, Pin|exists Pin, Sin|exists Sin, Pin|exists Sin, Sin]; reflexivity. }
    destruct X as (inp & out & <-). specialize (G inp out). specialize (G' inp out).
    unfold ff_get_pc, dgetr in G, G'. rewrite (In_dget _ _ _ W I) in G. rewrite (In_dget _ _ _ W' I') in G'. cbn [bind] in G, G'.
    apply rsum_ext. intros m Im. specialize (H inp out m Im). unfold fcell. change (Z.of_nat 16) with 16%Z.
    assert (E1 : r_cells r = row inp out) by congruence. assert (E2 : r_cells r' = row' inp out) by congruence. rewrite E1, E2.
    unfold cell in H. rewrite H. reflexivity.
Qed.

Section Chain.
Variable ev expand : expr -> expr.
Hypothesis EV : sound_ev ev.

(** What is generated depends on the values of the tensors only. *)
Lemma chain_values aoi prefix fs d q d' q' srepr parse : good_tensors d q -> good_tensors d' q' -> (forall e, parse (srepr e) = Ok e) ->
  exists fs' file F file' F', generate_uncontracted_fourier_transforms ev aoi prefix 16 fs = Ok fs' /\
    generate_contracted_fourier_transforms ev expand srepr prefix fs' d q 16 None = Ok file /\ load_fform parse file = Ok F /\
    generate_contracted_fourier_transforms ev expand srepr prefix fs' d' q' 16 None = Ok file' /\ load_fform parse file' = Ok F' /\
    forall rho rho', respects rho -> respects rho' ->
      (forall i j k, i < 3 -> j < 3 -> k < 3 -> val3 rho (Some d) i j k = val3 rho' (Some d') i j k) ->
      (forall i j k h, i < 3 -> j < 3 -> k < 3 -> h < 3 -> val4 rho (Some q) i j k h = val4 rho' (Some q') i j k h) ->
      forall D, misfit F D rho = misfit F' D rho'.
Proof.
  intros Gd Gd' P. destruct (C50_intensity_numeric ev expand aoi prefix fs d q EV Gd) as (fs' & row & E & Y & V).
  destruct (C50_intensity_numeric ev expand aoi prefix fs d' q' EV Gd') as (fs2 & row' & E2 & Y' & V').
  assert (fs2 = fs') by congruence. subst fs2.
  assert (L : forall inp out, length (row inp out) = 33) by (intros inp out; apply (V inp out rho1 rho1_respects)).
  assert (L' : forall inp out, length (row' inp out) = 33) by (intros inp out; apply (V' inp out rho1 rho1_respects)).
  destruct (yields_rows ev expand prefix fs' d q row srepr parse Y L P) as (file & F & EF & LF & (M & _) & KF).
  destruct (yields_rows ev expand prefix fs' d' q' row' srepr parse Y' L' P) as (file' & F' & EF' & LF' & (M' & _) & KF').
  assert (G : forall inp out, ff_get_pc F (key inp out) = Ok (row inp out)).
  { destruct Y as (_ & _ & _ & _ & Y). destruct (Y srepr parse P) as (fl & F0 & E0 & L0 & _ & G0). assert (fl = file) by congruence. subst fl.
    assert (F0 = F) by congruence. subst F0. exact G0. }
  assert (G' : forall inp out, ff_get_pc F' (key inp out) = Ok (row' inp out)).
  { destruct Y' as (_ & _ & _ & _ & Y'). destruct (Y' srepr parse P) as (fl & F0 & E0 & L0 & _ & G0). assert (fl = file') by congruence. subst fl.
    assert (F0 = F') by congruence. subst F0. exact G0. }
  exists fs', file, F, file', F'. do 5 (split; [assumption|]). intros rho rho' R R' H3 H4 D.
  assert (C : forall inp out m, In m (freqs 16) -> cell rho (row inp out) m = cell rho' (row' inp out) m).
  { intros inp out m Im. rewrite !cell_fourier by auto. apply fourier_coefficient_ext. intros x. unfold series_function.
    rewrite (proj2 (V inp out rho R)), (proj2 (V' inp out rho' R')). f_equal.
    rewrite (setup_intensity_scale _ (val3 rho' (Some d')) (val4 rho' (Some q')) _ _ (RtoC 1)).
    - rewrite Cmod_1. ring.
    - intros. rewrite H3 by assumption. ring.
    - intros. rewrite H4 by assumption. ring. }
  apply Rle_antisym; [apply (rows_misfit F F' D rho rho' row row')|apply (rows_misfit F' F D rho' rho row' row)]; auto.
  intros inp out m Im. symmetry. apply C, Im.
Qed.
End Chain.

(** Real values that stand for given complex ones. *)
Definition real_values (z : sym -> C) : sym -> C := fun s =>
  let n := sname s in
  if String.prefix "real_" n then RtoC (Re (z (mksym (substring 5 (String.length n - 5) n) None)))
  else if String.prefix "imag_" n then RtoC (Im (z (mksym (substring 5 (String.length n - 5) n) None)))
  else RtoC 0.
Lemma real_values_real z s : exists x, real_values z s = RtoC x.
Proof. unfold real_values. destruct (prefix _ _); [eexists; reflexivity|]. destruct (prefix _ _); eexists; reflexivity. Qed.
Lemma real_values_respects z : respects (real_values z).
Proof. intros s _. destruct (real_values_real z s) as (x & ->). reflexivity. Qed.
Lemma substring_all n : substring 0 (String.length n) n = n.
Proof. induction n as [|c n IH]; [reflexivity|]. cbn. now rewrite IH. Qed.
Lemma append_nil n : (n ++ "")%string = n.
Proof. induction n as [|c n IH]; [reflexivity|]. cbn. now rewrite IH. Qed.
Lemma real_values_complex z s : sreal s = None -> with_complex dprefix dsuffix (real_values z) s = z s.
Proof.
  intros N. unfold with_complex. rewrite N. cbn [dprefix dsuffix fst snd]. rewrite !append_nil. unfold real_values. cbn [sname].
  assert (E1 : forall n, prefix "real_" ("real_" ++ n) = true) by (intros [|c n]; reflexivity).
  assert (E2 : forall n, prefix "real_" ("imag_" ++ n) = false) by (intros [|c n]; reflexivity).
  assert (E3 : forall n, prefix "imag_" ("imag_" ++ n) = true) by (intros [|c n]; reflexivity). rewrite E1, E2, E3.
  assert (S1 : substring 5 (String.length ("real_" ++ sname s) - 5) ("real_" ++ sname s) = sname s).
  { cbn [String.append String.length Nat.sub substring]. rewrite Nat.sub_0_r. apply substring_all. }
  assert (S2 : substring 5 (String.length ("imag_" ++ sname s) - 5) ("imag_" ++ sname s) = sname s).
  { cbn [String.append String.length Nat.sub substring]. rewrite Nat.sub_0_r. apply substring_all. }
  rewrite S1, S2. destruct s as [n r]. cbn [sname sreal] in *. subst r. apply C_ext; unfold Re, Im; simpl; ring.
Qed.
Lemma values_assigned w free : (forall s, exists x, w s = RtoC x) -> assigns free (map (fun s => Re (w s)) free) w.
Proof.
  intros H i s E. destruct (H s) as (x & X).
  rewrite (nth_error_nth (map (fun s => Re (w s)) free) i 0%R (x := Re (w s))).
  - rewrite X. reflexivity.
  - exact (map_nth_error (fun s => Re (w s)) i free E).
Qed.

(** Entries with real coefficients. *)
Fixpoint real_linear (e : expr) : bool :=
  match e with
  | ENum a b => Qeq_bool b 0
  | ESym _ => true
  | EAdd l => (fix go l := match l with [] => true | a :: l' => real_linear a && go l' end) l
  | EMul [ENum _ b; e] => Qeq_bool b 0 && real_linear e
  | _ => false
  end.
Lemma real_linear_Re rho e : real_linear e = true -> eval (fun s => RtoC (Re (rho s))) e = RtoC (Re (eval rho e)).
Proof.
  induction e as [a b|y|l IH|l IH|b n IH|e IH|e IH|e IH|e IH|e IH] using expr_ind'; intros L; try discriminate.
  - cbn in L. apply Qeq_bool_iff, Qeq_eqR in L. cbn [eval]. apply C_ext; unfold Re, Im; simpl; [reflexivity|].
    rewrite L. unfold Q2R. simpl. lra.
  - reflexivity.
  - cbn [eval]. revert L. induction IH as [|x l Hx IHl IHl']; intros L; [reflexivity|].
    cbn [real_linear] in L. apply andb_true_iff in L as [L1 L2]. specialize (IHl' L2). cbn [map fold_right] in *. rewrite Hx, IHl' by exact L1.
    apply C_ext; unfold Re, Im; simpl; ring.
  - destruct l as [|[a b| | | | | | | | |] [|x [|]]]; try discriminate. cbn [real_linear] in L. apply andb_true_iff in L as [L1 L2].
    apply Qeq_bool_iff, Qeq_eqR in L1. inversion IH as [|? ? _ IH']; subst. inversion IH' as [|? ? H _]; subst.
    specialize (H L2). cbn [eval map fold_right] in *. rewrite H.
    assert (B : Q2R b = 0%R) by (rewrite L1; unfold Q2R; simpl; lra). rewrite B.
    apply C_ext; unfold Re, Im; simpl; ring.
Qed.
Definition real_linear_table (table : list (string * list expr)) : bool := forallb (fun kv => forallb real_linear (snd kv)) table.
Lemma real_linear_tables : real_linear_table dipole_table = true /\ real_linear_table quadrupole_table = true.
Proof. vm_compute. auto. Qed.
Lemma real_linear_lookup table rank name t : real_linear_table table = true -> lookup table rank name = Ok t -> forall i, real_linear (at_ t i) = true.
Proof.
  unfold lookup. intros P. destruct (dget name table) as [l|] eqn:D; [|discriminate]. intros E i.
  assert (Q : forall e, In e l -> real_linear e = true).
  { unfold real_linear_table in P. rewrite forallb_forall in P. apply dget_In in D. specialize (P _ D). cbn [snd] in P.
    rewrite forallb_forall in P. exact P. }
  injection E as <-. cbn [table_tensor at_].
  destruct (nth_in_or_default (position i) l nul) as [I| ->]; [apply Q; exact I|reflexivity].
Qed.

(** Parameters of dipole and of quadrupole tensors have different names. *)
Definition named (n : nat) (t : tensor expr) : Prop := forall i s, In s (syms (at_ t i)) -> String.length (sname s) = n.
Definition named_table (n : nat) (table : list (string * list expr)) : bool :=
  forallb (fun kv => forallb (fun e => forallb (fun s => String.length (sname s) =? n) (syms e)) (snd kv)) table.
Lemma named_tables : named_table 3 dipole_table = true /\ named_table 4 quadrupole_table = true.
Proof. vm_compute. auto. Qed.
Lemma named_lookup n table rank name t : named_table n table = true -> lookup table rank name = Ok t -> named n t.
Proof.
  unfold lookup. intros P. destruct (dget name table) as [l|] eqn:D; [|discriminate]. intros E.
  assert (Q : forall e, In e l -> forallb (fun s => String.length (sname s) =? n) (syms e) = true).
  { unfold named_table in P. rewrite forallb_forall in P. apply dget_In in D. specialize (P _ D). cbn [snd] in P.
    rewrite forallb_forall in P. exact P. }
  injection E as <-. intros i s. cbn [table_tensor at_].
  destruct (nth_in_or_default (position i) l nul) as [I| ->]; [|intros []].
  specialize (Q _ I). rewrite forallb_forall in Q. intros Is. specialize (Q s Is). apply Nat.eqb_eq. exact Q.
Qed.

(** Values of a table entry after [make_tensor_real] or [make_tensor_complex]. *)
Lemma at_complex order t z i : iterates order -> FormgenTables.plain t -> fits (shape t) i ->
  eval (real_values z) (at_ (complex_tensor order t) i) = eval z (at_ t i).
Proof.
  intros Ho P F. rewrite (proj2 (complex_result order t Ho P) i _ F). apply eval_ext. intros s I. apply real_values_complex. apply (P i s I).
Qed.
Lemma at_prepared order t u rho : iterates order -> FormgenTables.plain t -> prepared order t u ->
  exists z, forall i, fits (shape t) i -> eval rho (at_ u i) = eval z (at_ t i).
Proof.
  intros Ho P [E|E]; [apply (real_inv order t u P) in E|apply (complex_inv order t u P) in E]; subst u.
  - exists (with_real rho). intros i F. pose proof (real_instance order t rho Ho P) as [_ E].
    exact (E i (proj2 (TensorProofs.in_indices _ _) F)).
  - exists (with_complex dprefix dsuffix rho). intros i F. apply (complex_result order t Ho P); exact F.
Qed.
Lemma at_real order t rho i : iterates order -> FormgenTables.plain t -> fits (shape t) i ->
  eval rho (at_ (real_tensor order t) i) = eval (with_real rho) (at_ t i).
Proof. intros Ho P F. pose proof (real_instance order t rho Ho P) as [_ E]. exact (E i (proj2 (TensorProofs.in_indices _ _) F)). Qed.

Definition all_real (w : sym -> C) : Prop := forall s, exists x, w s = RtoC x.
Lemma all_real_respects w : all_real w -> respects w.
Proof. intros H s _. destruct (H s) as (x & ->). reflexivity. Qed.

Section Nest.
Variables (order : list sym -> list sym) (d0 q0 d0' q0' d q d' q' : tensor expr).
Hypothesis Ho : iterates order.
Hypothesis Pd : FormgenTables.plain d0.
Hypothesis Pq : FormgenTables.plain q0.
Hypothesis Pd' : FormgenTables.plain d0'.
Hypothesis Pq' : FormgenTables.plain q0'.
Hypothesis Sd : shape d0 = repeat 3 3.
Hypothesis Sq : shape q0 = repeat 3 4.
Hypothesis Sd' : shape d0' = repeat 3 3.
Hypothesis Sq' : shape q0' = repeat 3 4.
Hypothesis Nd : named 3 d0.
Hypothesis Nq : named 4 q0.
Hypothesis Cd : special_case d0' d0.
Hypothesis Cq : special_case q0' q0.

(** The parameters of the crystal of lower symmetry, for given ones of the other. *)
Lemma nested_raw zd' zq' : exists z,
  (forall i j k, i < 3 -> j < 3 -> k < 3 -> eval z (at_ d0 [i; j; k]) = eval zd' (at_ d0' [i; j; k])) /\
  (forall i j k h, i < 3 -> j < 3 -> k < 3 -> h < 3 -> eval z (at_ q0 [i; j; k; h]) = eval zq' (at_ q0' [i; j; k; h])).
Proof.
  destruct (Cd zd') as (zd & (_ & Td) & _). destruct (Cq zq') as (zq & (_ & Tq) & _).
  exists (fun s => if String.length (sname s) =? 3 then zd s else zq s). split.
  - intros i j k Hi Hj Hk.
    assert (F' : fits (shape d0') [i; j; k]) by (rewrite Sd'; apply fits3; assumption).
    assert (J : In [i; j; k] (indices (shape d0'))) by (apply TensorProofs.in_indices; exact F').
    specialize (Td _ J). cbn [instance tmap at_] in Td. rewrite Td. apply eval_ext. intros s I. rewrite (Nd _ s I). reflexivity.
  - intros i j k h Hi Hj Hk Hh.
    assert (F' : fits (shape q0') [i; j; k; h]) by (rewrite Sq'; apply fits4; assumption).
    assert (J : In [i; j; k; h] (indices (shape q0'))) by (apply TensorProofs.in_indices; exact F').
    specialize (Tq _ J). cbn [instance tmap at_] in Tq. rewrite Tq. apply eval_ext. intros s I. rewrite (Nq _ s I). reflexivity.
Qed.

Definition nested : Prop := forall rho', respects rho' -> exists w, all_real w /\
  (forall i j k, i < 3 -> j < 3 -> k < 3 -> val3 w (Some d) i j k = val3 rho' (Some d') i j k) /\
  (forall i j k h, i < 3 -> j < 3 -> k < 3 -> h < 3 -> val4 w (Some q) i j k h = val4 rho' (Some q') i j k h).

Lemma nested_complex : prepared order d0' d' -> prepared order q0' q' ->
  make_tensor_complex order ("real_", "imag_")%string ("", "")%string d0 = Ok d ->
  make_tensor_complex order ("real_", "imag_")%string ("", "")%string q0 = Ok q -> nested.
Proof.
  intros Ed' Eq' Ed Eq rho' _. apply (complex_inv order d0 d Pd) in Ed. apply (complex_inv order q0 q Pq) in Eq. subst d q.
  destruct (at_prepared order d0' d' rho' Ho Pd' Ed') as (zd' & Hd). destruct (at_prepared order q0' q' rho' Ho Pq' Eq') as (zq' & Hq).
  destruct (nested_raw zd' zq') as (z & V3 & V4). exists (real_values z). split; [exact (real_values_real z)|]. split.
  - intros i j k Hi Hj Hk. cbn [val3]. rewrite Hd by (rewrite Sd'; apply fits3; assumption).
    rewrite at_complex by (auto; rewrite Sd; apply fits3; assumption). apply V3; assumption.
  - intros i j k h Hi Hj Hk Hh. cbn [val4]. rewrite Hq by (rewrite Sq'; apply fits4; assumption).
    rewrite at_complex by (auto; rewrite Sq; apply fits4; assumption). apply V4; assumption.
Qed.

Lemma nested_real : (forall i, real_linear (at_ d0 i) = true) -> (forall i, real_linear (at_ q0 i) = true) ->
  (forall i, real_linear (at_ d0' i) = true) -> (forall i, real_linear (at_ q0' i) = true) ->
  make_tensor_real order d0' = Ok d' -> make_tensor_real order q0' = Ok q' ->
  make_tensor_real order d0 = Ok d -> make_tensor_real order q0 = Ok q -> nested.
Proof.
  intros Ld Lq Ld' Lq' Ed' Eq' Ed Eq rho' R.
  apply (real_inv order d0 d Pd) in Ed. apply (real_inv order q0 q Pq) in Eq.
  apply (real_inv order d0' d' Pd') in Ed'. apply (real_inv order q0' q' Pq') in Eq'. subst d q d' q'.
  assert (X : forall t i, FormgenTables.plain t -> real_linear (at_ t i) = true ->
    eval (with_real rho') (at_ t i) = RtoC (Re (eval (with_real rho') (at_ t i)))).
  { intros t i P L. rewrite <- real_linear_Re by exact L. apply eval_ext. intros s I. destruct (P i s I) as (N & _).
    unfold with_real. rewrite N. assert (Z := R (mksym (sname s) (Some true)) eq_refl).
    destruct (rho' (mksym (sname s) (Some true))) as [x y]. unfold Im, Re in *. cbn [fst snd] in *. now rewrite Z. }
  destruct (nested_raw (with_real rho') (with_real rho')) as (z & V3 & V4).
  exists (fun s => RtoC (Re (z (mksym (sname s) None)))). split; [intros s; eexists; reflexivity|].
  assert (Y : forall t i, FormgenTables.plain t -> real_linear (at_ t i) = true ->
    eval (with_real (fun s => RtoC (Re (z (mksym (sname s) None))))) (at_ t i) = RtoC (Re (eval z (at_ t i)))).
  { intros t i P L. rewrite <- real_linear_Re by exact L. apply eval_ext. intros s I. destruct (P i s I) as (N & _).
    unfold with_real. rewrite N. cbn [sname]. destruct s as [n r]. cbn [sname sreal] in *. subst r. reflexivity. }
  split.
  - intros i j k Hi Hj Hk. cbn [val3]. rewrite at_real by (auto; rewrite Sd; apply fits3; assumption).
    rewrite at_real by (auto; rewrite Sd'; apply fits3; assumption). rewrite Y, V3 by auto. symmetry. apply X; auto.
  - intros i j k h Hi Hj Hk Hh. cbn [val4]. rewrite at_real by (auto; rewrite Sq; apply fits4; assumption).
    rewrite at_real by (auto; rewrite Sq'; apply fits4; assumption). rewrite Y, V4 by auto. symmetry. apply X; auto.
Qed.

Hypothesis Ed : prepared order d0 d.
Hypothesis Eq : prepared order q0 q.
Hypothesis Ed' : prepared order d0' d'.
Hypothesis Eq' : prepared order q0' q'.
Lemma nested_good : good_tensors d q /\ good_tensors d' q'.
Proof.
  destruct (prepared_ready order d0 d 3 Ho Pd Sd Ed) as (A1 & A2 & _ & _).
  destruct (prepared_ready order q0 q 4 Ho Pq Sq Eq) as (B1 & B2 & _ & _).
  destruct (prepared_ready order d0' d' 3 Ho Pd' Sd' Ed') as (C1 & C2 & _ & _).
  destruct (prepared_ready order q0' q' 4 Ho Pq' Sq' Eq') as (D1 & D2 & _ & _).
  repeat split; assumption.
Qed.
Lemma nested_cost ev expand kev aoi prefix fs srepr parse : nested -> sound_ev ev -> sound_kev kev -> (forall e, parse (srepr e) = Ok e) ->
  exists fs' file F file' F', generate_uncontracted_fourier_transforms ev aoi prefix 16 fs = Ok fs' /\
    generate_contracted_fourier_transforms ev expand srepr prefix fs' d q 16 None = Ok file /\ load_fform parse file = Ok F /\
    generate_contracted_fourier_transforms ev expand srepr prefix fs' d' q' 16 None = Ok file' /\ load_fform parse file' = Ok F' /\
    (ff_M F = 16 /\ dkeys (ff_rows F) = ["PP"; "PS"; "SP"; "SS"]%string /\ formula_ok F) /\
    (ff_M F' = 16 /\ dkeys (ff_rows F') = ["PP"; "PS"; "SP"; "SS"]%string /\ formula_ok F') /\
    forall D free free' chunk chunk' save save' lfs lfs', matching F D -> matching F' D -> argument_list F free -> argument_list F' free' ->
      exists lib lib', gen_cost_func kev F D (Some free) chunk save lfs = (save_lib save lib lfs, Ok lib) /\
        gen_cost_func kev F' D (Some free') chunk' save' lfs' = (save_lib save' lib' lfs', Ok lib') /\
        forall xs', length xs' = length free' -> exists xs c, length xs = length free /\ call lib' xs' = Some c /\ call lib xs = Some c.
Proof.
  intros N EV KEV P. destruct nested_good as (G & G').
  destruct (chain_values ev expand EV aoi prefix fs d q d' q' srepr parse G G' P) as (fs' & file & F & file' & F' & E1 & E2 & E3 & E4 & E5 & V).
  destruct (chain_phase ev expand EV aoi prefix fs d q srepr parse G P) as (fs1 & fl1 & F1 & X1 & X2 & X3 & M1 & K1 & O1 & _).
  destruct (chain_phase ev expand EV aoi prefix fs d' q' srepr parse G' P) as (fs2 & fl2 & F2 & Y1 & Y2 & Y3 & M2 & K2 & O2 & _).
  assert (fs1 = fs') by congruence. assert (fs2 = fs') by congruence. subst fs1 fs2.
  assert (fl1 = file) by congruence. assert (fl2 = file') by congruence. subst fl1 fl2.
  assert (F1 = F) by congruence. assert (F2 = F') by congruence. subst F1 F2.
  exists fs', file, F, file', F'. do 5 (split; [assumption|]). split; [auto|]. split; [auto|].
  intros D free free' chunk chunk' save save' lfs lfs' Ma Ma' A A'.
  destruct (cost_ok kev KEV F D free chunk save lfs Ma A) as (lib & Gl & Cp).
  { intros _ Z. rewrite Z in K1. discriminate K1. }
  destruct (cost_ok kev KEV F' D free' chunk' save' lfs' Ma' A') as (lib' & Gl' & Cp').
  { intros _ Z. rewrite Z in K2. discriminate K2. }
  exists lib, lib'. split; [exact Gl|]. split; [exact Gl'|]. intros xs' L.
  assert (L' : length free' <= length xs') by lia.
  destruct (N (reading free' xs') (reading_respects free' xs')) as (w & W & V3 & V4).
  exists (map (fun s => Re (w s)) free), (misfit F' D (reading free' xs')). split; [apply map_length|].
  split; [apply Cp'; [exact L'|apply reading_assigns; [apply A'|exact L']]|].
  rewrite (Cp _ w) by (rewrite ?map_length; auto using values_assigned). f_equal.
  apply V; auto using all_real_respects, reading_respects.
Qed.
End Nest.
