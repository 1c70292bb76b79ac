(** Properties C85-C88 and C103: what a measurement or a fit cannot tell apart, and tables
    used without declaring their parameters real.  Beside each theorem a concrete
    case. *)
From Coq Require Import String List Arith ZArith Bool Lia Reals QArith Qreals Lra.
From Coquelicot Require Import Complex.
Import ListNotations.
From Verif Require Import PyBase CBase FourierBase Expr ExprProofs SpecForm FormModel TensorInst TensorProofs UtilModel SpecUtil SpecFormgen FormgenModel
  FformgenModel SpecFformgen TensorDefs SpecGroups FormgenProofs FormgenProofs2 FormgenProofs4 FormgenThms FormgenThms2 FormgenTables FformgenProofs5 FformgenThms PropertiesFformgen PropertiesFormgen
  SpecPhys PhysThms FitModel SpecFit FitProofs FitProofs2 FitProofs3 FitProofs5 PropertiesForm DataModel FDataModel Printer SpecSym SymProofs SymProofs2.
From Verif Require Import SpecTensor TensorModel.
Local Open Scope nat_scope.

(* ================================================================== *)
(** * C85: only the part symmetric in the input fields can be seen *)

Theorem C85_symmetric : forall ev ex theta e m q e' m' q' F F', sound_ev ev -> sound_ev ex -> shapes e m q -> shapes e' m' q' ->
  formgen ev ex theta e m q = Ok F -> formgen ev ex theta e' m' q' = Ok F' ->
  forall rho th, respects rho -> eval rho theta = RtoC th -> same_sym_part rho e e' m m' q q' ->
  forall inp out x x', dget (key inp out) F = Some x -> dget (key inp out) F' = Some x' -> eval rho x = eval rho x'.
Proof.
  intros ev ex theta e m q e' m' q' F F' EV EX Sh Sh' H H' rho th Rs Ht S inp out x x'.
  exact (formgen_sym ev ex EV EX theta e m q e' m' q' F F' rho th inp out x x' Sh Sh' H H' Rs Ht S).
Qed.
Print Assumptions C85_symmetric.

(** chi_xyz = a, chi_xzy = b, against the symmetric tensor with (a+b)/2 in both
    places. *)
Definition sym_a : expr := ESym (mksym "a" (Some true)).
Definition sym_b : expr := ESym (mksym "b" (Some true)).
Definition mean_ab : expr := EMul [ENum (1 # 2) 0; EAdd [sym_a; sym_b]].
Definition skew : tensor expr := mkT [3; 3; 3] (fun ix => match ix with [0; 1; 2] => sym_a | [0; 2; 1] => sym_b | _ => num 0 end).
Definition even : tensor expr := mkT [3; 3; 3] (fun ix => match ix with [0; 1; 2] | [0; 2; 1] => mean_ab | _ => num 0 end).
Lemma skew_real : real_params (Some skew).
Proof.
  intros i s _. unfold skew. cbn [at_]. destruct i as [|[|[|?]] [|[|[|[|?]]] [|[|[|[|?]]] [|? ?]]]]; cbn; intuition; subst; reflexivity.
Qed.
Lemma even_real : real_params (Some even).
Proof.
  intros i s _. unfold even. cbn [at_]. destruct i as [|[|[|?]] [|[|[|[|?]]] [|[|[|[|?]]] [|? ?]]]]; cbn; intuition; subst; reflexivity.
Qed.
Example C85_case : exists F F', formgen (fun e => e) (fun e => e) theta_ (Some skew) None None = Ok F /\
  formgen (fun e => e) (fun e => e) theta_ (Some even) None None = Ok F' /\
  forall rho, same_sym_part rho (Some skew) (Some even) None None None None.
Proof.
  assert (A : exists F, formgen (fun e => e) (fun e => e) theta_ (Some skew) None None = Ok F).
  { apply (proj1 (formgen_outcome (fun e => e) (fun e => e) same_sound theta_ (Some skew) None None eq_refl I I)).
    split; [exact skew_real|]. split; [exact I|]. split; [exact I|]. intros (X & _); discriminate X. }
  assert (B : exists F, formgen (fun e => e) (fun e => e) theta_ (Some even) None None = Ok F).
  { apply (proj1 (formgen_outcome (fun e => e) (fun e => e) same_sound theta_ (Some even) None None eq_refl I I)).
    split; [exact even_real|]. split; [exact I|]. split; [exact I|]. intros (X & _); discriminate X. }
  destruct A as (F & HF), B as (F' & HF'). exists F, F'. split; [exact HF|]. split; [exact HF'|].
  intros rho. split; [|split; reflexivity]. intros i j k Hi Hj Hk. unfold sym_part3, val3, skew, even. cbn [at_].
  destruct i as [|[|[|i]]]; [..|lia]; (destruct j as [|[|[|j]]]; [..|lia]); (destruct k as [|[|[|k]]]; [..|lia]);
    try reflexivity; unfold sym_a, sym_b, mean_ab; rewrite !ExprProofs.eval_mul; cbn [map fold_right]; rewrite !ExprProofs.eval_add; cbn [map fold_right eval];
    (replace (Q2R (1 # 2)) with (1 / 2)%R by (unfold Q2R; cbn; field)); (replace (Q2R 0) with 0%R by (unfold Q2R; cbn; field));
    apply C_ext; unfold Re, Im; simpl; field.
Qed.

(* ================================================================== *)
(** * C86: the sign of all tensors *)

Theorem C86_opposite : forall ev ex theta e m q e' m' q' F F', sound_ev ev -> sound_ev ex -> shapes e m q -> shapes e' m' q' ->
  formgen ev ex theta e m q = Ok F -> formgen ev ex theta e' m' q' = Ok F' ->
  forall rho th, respects rho -> eval rho theta = RtoC th -> opposite_values rho e e' m m' q q' ->
  forall inp out x x', dget (key inp out) F = Some x -> dget (key inp out) F' = Some x' -> eval rho x = eval rho x'.
Proof.
  intros ev ex theta e m q e' m' q' F F' EV EX Sh Sh' H H' rho th Rs Ht S inp out x x'.
  exact (formgen_opposite ev ex EV EX theta e m q e' m' q' F F' rho th inp out x x' Sh Sh' H H' Rs Ht S).
Qed.
Print Assumptions C86_opposite.

(** [skew] with a and b negated *)
Definition neg_skew : tensor expr := mkT [3; 3; 3] (fun ix => EMul [num (-1); at_ skew ix]).
Example C86_case : exists F F', formgen (fun e => e) (fun e => e) theta_ (Some skew) None None = Ok F /\
  formgen (fun e => e) (fun e => e) theta_ (Some neg_skew) None None = Ok F' /\
  forall rho, opposite_values rho (Some skew) (Some neg_skew) None None None None.
Proof.
  assert (R : real_params (Some neg_skew)).
  { intros i s Ii Is. cbn [neg_skew at_] in Is. cbn [syms flat_map num app] in Is. rewrite app_nil_r in Is. exact (skew_real i s Ii Is). }
  destruct (proj1 (formgen_outcome (fun e => e) (fun e => e) same_sound theta_ (Some skew) None None eq_refl I I)) as (F & HF).
  { split; [exact skew_real|]. split; [exact I|]. split; [exact I|]. intros (X & _); discriminate X. }
  destruct (proj1 (formgen_outcome (fun e => e) (fun e => e) same_sound theta_ (Some neg_skew) None None eq_refl I I)) as (F' & HF').
  { split; [exact R|]. split; [exact I|]. split; [exact I|]. intros (X & _); discriminate X. }
  exists F, F'. split; [exact HF|]. split; [exact HF'|]. intros rho. split; [|split; intros; cbn [val3 val4]; symmetry; apply Copp_0].
  intros i j k _ _ _. unfold val3, neg_skew. cbn [at_]. rewrite ExprProofs.eval_mul. cbn [map fold_right num eval].
  replace (Q2R (-1)) with (-1)%R by (unfold Q2R; cbn; field). replace (Q2R 0) with 0%R by (unfold Q2R; cbn; field).
  apply C_ext; unfold Re, Im; simpl; ring.
Qed.

(* ================================================================== *)
(** * C103: light from the other side is a half turn *)

Theorem C103_reversed : forall ev ex theta theta' e m q F F', sound_ev ev -> sound_ev ex -> shapes e m q ->
  formgen ev ex theta e m q = Ok F -> formgen ev ex theta' e m q = Ok F' ->
  all_phi_free theta e m q -> ~ In phi (syms theta') ->
  forall rho th, respects rho -> eval rho theta = RtoC th -> eval rho theta' = RtoC (- th) ->
  forall inp out x x', dget (key inp out) F = Some x -> dget (key inp out) F' = Some x' ->
  forall y, eval (at_phi rho y) x' = eval (at_phi rho (y + PI)) x.
Proof.
  intros ev ex theta theta' e m q F F' EV EX Sh H H' N N' rho th Rs Ht Ht' inp out x x'.
  exact (formgen_minus ev ex EV EX theta theta' e m q F F' rho th inp out x x' Sh H H' Rs Ht Ht' N N').
Qed.
Print Assumptions C103_reversed.

Example C103_case : exists F F', formgen (fun e => e) (fun e => e) theta_ (Some skew) None None = Ok F /\
  formgen (fun e => e) (fun e => e) (EMul [num (-1); theta_]) (Some skew) None None = Ok F' /\
  all_phi_free theta_ (Some skew) None None /\
  forall rho th, eval rho theta_ = RtoC th -> eval rho (EMul [num (-1); theta_]) = RtoC (- th).
Proof.
  assert (A : forall t, exists F, formgen (fun e => e) (fun e => e) t (Some skew) None None = Ok F).
  { intros t. apply (proj1 (formgen_outcome (fun e => e) (fun e => e) same_sound t (Some skew) None None eq_refl I I)).
    split; [exact skew_real|]. split; [exact I|]. split; [exact I|]. intros (X & _); discriminate X. }
  destruct (A theta_) as (F & HF), (A (EMul [num (-1); theta_])) as (F' & HF'). exists F, F'. split; [exact HF|]. split; [exact HF'|].
  split.
  - split; [intros [E|[]]; discriminate E|]. split; [|split; exact I]. intros i _. unfold skew. cbn [at_].
    destruct i as [|[|[|?]] [|[|[|[|?]]] [|[|[|[|?]]] [|? ?]]]]; cbn; intuition discriminate.
  - intros rho th H. rewrite ExprProofs.eval_mul. cbn [map fold_right]. rewrite H. cbn [num eval].
    replace (Q2R (-1)) with (-1)%R by (unfold Q2R; cbn; field). replace (Q2R 0) with 0%R by (unfold Q2R; cbn; field).
    apply C_ext; unfold Re, Im; simpl; ring.
Qed.

(** So at normal incidence every pattern repeats after a half turn, whatever the
    crystal, and has no odd Fourier components. *)
Theorem C103_normal : forall ev ex theta e m q F, sound_ev ev -> sound_ev ex -> shapes e m q ->
  formgen ev ex theta e m q = Ok F -> all_phi_free theta e m q ->
  forall rho inp out x, respects rho -> eval rho theta = RtoC 0 -> dget (key inp out) F = Some x ->
  (forall y, eval (at_phi rho (y + PI)) x = eval (at_phi rho y) x) /\
  (forall k, Z.odd k = true -> fourier_coefficient (fun y => eval (at_phi rho y) x) k = RtoC 0).
Proof.
  intros ev ex theta e m q F EV EX Sh H N rho inp out x Rs Ht X. exact (formgen_normal ev ex EV EX theta e m q F rho inp out x Sh H N Rs Ht X).
Qed.
Print Assumptions C103_normal.

Example C103_normal_case : exists F, formgen (fun e => e) (fun e => e) (num 0) (Some skew) None None = Ok F /\
  all_phi_free (num 0) (Some skew) None None /\ forall rho, eval rho (num 0) = RtoC 0.
Proof.
  destruct (proj1 (formgen_outcome (fun e => e) (fun e => e) same_sound (num 0) (Some skew) None None eq_refl I I)) as (F & HF).
  { split; [exact skew_real|]. split; [exact I|]. split; [exact I|]. intros (X & _); discriminate X. }
  exists F. split; [exact HF|]. split; [|exact eval_num0].
  destruct C103_case as (_ & _ & _ & _ & (_ & N) & _). split; [intros []|exact N].
Qed.

(* ================================================================== *)
(** * C87: the overall phase of the tensors cannot be fitted *)

Theorem C87_phase : forall ev expand aoi prefix fs d q srepr parse, sound_ev ev -> good_tensors d q -> (forall e, parse (srepr e) = Ok e) ->
  exists fs' file F, generate_uncontracted_fourier_transforms ev aoi prefix 16 fs = Ok fs' /\
    generate_contracted_fourier_transforms ev expand srepr prefix fs' d q 16 None = Ok file /\ load_fform parse file = Ok F /\
    forall D free lib c xs xs' rho rho', computes F D free lib -> respects rho -> respects rho' -> Cmod c = 1%R ->
      length free <= length xs -> length free <= length xs' -> assigns free xs rho -> assigns free xs' rho' ->
      (forall i j k, i < 3 -> j < 3 -> k < 3 -> val3 rho' (Some d) i j k = (c * val3 rho (Some d) i j k)%C) ->
      (forall i j k h, i < 3 -> j < 3 -> k < 3 -> h < 3 -> val4 rho' (Some q) i j k h = (c * val4 rho (Some q) i j k h)%C) ->
      call lib xs' = call lib xs.
Proof.
  intros ev expand aoi prefix fs d q srepr parse EV Gd P.
  destruct (chain_phase ev expand EV aoi prefix fs d q srepr parse Gd P) as (fs' & file & F & E & EF & LF & M16 & KF & OK & H).
  exists fs', file, F. split; [exact E|]. split; [exact EF|]. split; [exact LF|].
  intros D free lib c xs xs' rho rho' Cp R R' U Lx Lx' A A' H3 H4.
  rewrite (Cp xs rho Lx A), (Cp xs' rho' Lx' A'). f_equal. exact (H D c rho rho' R R' U H3 H4).
Qed.
Print Assumptions C87_phase.

(** Crystals from the tables: changing the sign of every parameter does not change
    the cost, whatever the data. *)
Theorem C87_sign : forall ev expand kev order aoi prefix fs name name' d0 q0 d q srepr parse, sound_ev ev -> sound_kev kev -> iterates order ->
  dipole_entry name d0 -> quadrupole name' = Ok q0 -> prepared order d0 d -> prepared order q0 q -> (forall e, parse (srepr e) = Ok e) ->
  exists fs' file F, generate_uncontracted_fourier_transforms ev aoi prefix 16 fs = Ok fs' /\
    generate_contracted_fourier_transforms ev expand srepr prefix fs' d q 16 None = Ok file /\ load_fform parse file = Ok F /\
    ff_M F = 16 /\ dkeys (ff_rows F) = ["PP"; "PS"; "SP"; "SS"]%string /\ formula_ok F /\
    forall D free chunk save lfs, matching F D -> argument_list F free ->
      exists lib, gen_cost_func kev F D (Some free) chunk save lfs = (save_lib save lib lfs, Ok lib) /\
      forall xs, length xs = length free -> exists c, call lib xs = Some c /\ call lib (map Ropp xs) = Some c.
Proof.
  intros ev expand kev order aoi prefix fs name name' d0 q0 d q srepr parse EV KEV Ho Ed Eq Pd Pq P.
  destruct (dipole_entry_plain name d0 Ed) as (Pl & Sd).
  assert (Ld : forall i, linear (at_ d0 i) = true).
  { destruct linear_tables as (T1 & T2 & _). destruct Ed as [Ed|Ed]; [exact (linear_lookup _ _ _ _ T1 Ed)|exact (linear_lookup _ _ _ _ T2 Ed)]. }
  destruct plain_tables as (_ & _ & T3). destruct (plain_lookup _ _ _ _ T3 Eq) as (Plq & Sq).
  assert (Lq : forall i, linear (at_ q0 i) = true) by (exact (linear_lookup _ _ _ _ (proj2 (proj2 linear_tables)) Eq)).
  destruct (prepared_ready order d0 d 3 Ho Pl Sd Pd) as (Sd' & Rd & _ & _).
  destruct (prepared_ready order q0 q 4 Ho Plq Sq Pq) as (Sq' & Rq & _ & _).
  assert (Gd : good_tensors d q) by (split; [exact Sd'|split; [exact Sq'|split; [exact Rd|exact Rq]]]).
  destruct (chain_phase ev expand EV aoi prefix fs d q srepr parse Gd P) as (fs' & file & F & E & EF & LF & M16 & KF & OK & H).
  exists fs', file, F. split; [exact E|]. split; [exact EF|]. split; [exact LF|]. split; [exact M16|]. split; [exact KF|]. split; [exact OK|].
  intros D free chunk save lfs Ma Ar.
  destruct (cost_ok kev KEV F D free chunk save lfs Ma Ar) as (lib & G & Cp).
  { intros _ Z. rewrite Z in KF. discriminate KF. }
  exists lib. split; [exact G|]. intros xs L. exists (misfit F D (reading free xs)).
  assert (N : NoDup free) by apply Ar.
  split; [apply Cp; [lia|apply reading_assigns; [exact N|lia]]|].
  rewrite (Cp (map Ropp xs) (reading free (map Ropp xs))); [|rewrite map_length; lia|apply reading_assigns; [exact N|rewrite map_length; lia]].
  f_equal. apply (H D (- RtoC 1)%C).
  - apply reading_respects.
  - apply reading_respects.
  - rewrite Cmod_opp. apply Cmod_1.
  - intros i j k Hi Hj Hk. cbn [val3].
    apply (prepared_odd order d0 d 3 _ _ Ho Pl Sd Ld Pd (reading_opp free xs)). rewrite Sd. apply fits3; assumption.
  - intros i j k h Hi Hj Hk Hh. cbn [val4].
    apply (prepared_odd order q0 q 4 _ _ Ho Plq Sq Lq Pq (reading_opp free xs)). rewrite Sq. apply fits4; assumption.
Qed.
Print Assumptions C87_sign.

(** C_3v dipole and O_h quadrupole, data that are zero everywhere. *)
Definition dark : fdat := mkfdat (map (fun k => (k, repeat (RtoC 0) 33)) ["PP"; "PS"; "SP"; "SS"]%string) 1 (PNum 0) 16.
Lemma dark_matching F : ff_M F = 16 -> dkeys (ff_rows F) = ["PP"; "PS"; "SP"; "SS"]%string -> formula_ok F -> matching F dark.
Proof.
  intros M K OK. split; [exact OK|]. split; [|split; [symmetry; exact M|]].
  - split; [cbn; repeat constructor; cbn; intuition discriminate|]. intros k v I. cbn in I.
    repeat destruct I as [I|I]; try contradiction; injection I as _ <-; reflexivity.
  - intros k I. change (In k (dkeys (ff_rows F))) in I. rewrite K in I. exact I.
Qed.
Lemma some_arguments F : exists free, argument_list F free.
Proof.
  assert (dec : forall a b : sym, {a = b} + {a <> b}) by (intros a b; destruct (sym_eqb_spec a b); auto).
  exists (nodup dec (flat_map syms (flat_map (fun kr => r_cells (snd kr)) (ff_rows F)))). split; [apply NoDup_nodup|].
  intros s (k & r & e & I & J & K). apply nodup_In, in_flat_map. exists e. split; [|exact K].
  apply in_flat_map. exists (k, r). auto.
Qed.
Example C87_case : exists d0 q0 d q fs' file F free lib, dipole_entry "C_3v" d0 /\ quadrupole "O_h" = Ok q0 /\
  make_tensor_real (fun l => l) d0 = Ok d /\ make_tensor_complex (fun l => l) ("real_", "imag_")%string ("", "")%string q0 = Ok q /\ has_parameter d0 /\ has_parameter q0 /\
  generate_uncontracted_fourier_transforms (fun e => e) (1 # 10) "u" 16 [] = Ok fs' /\
  generate_contracted_fourier_transforms (fun e => e) (fun e => e) show "u" fs' d q 16 None = Ok file /\
  load_fform read file = Ok F /\ matching F dark /\ argument_list F free /\
  gen_cost_func (fun e => e) F dark (Some free) false None [] = ([], Ok lib) /\
  forall xs, length xs = length free -> exists c, call lib xs = Some c /\ call lib (map Ropp xs) = Some c.
Proof.
  assert (D : exists d0, dipole_entry "C_3v" d0 /\ has_parameter d0).
  { eexists. split; [left; reflexivity|]. exists [2; 2; 2]. eexists. split; [apply fits3; lia|]. left. reflexivity. }
  assert (Q : exists q0, quadrupole "O_h" = Ok q0 /\ has_parameter q0).
  { eexists. split; [reflexivity|]. exists [0; 0; 0; 0]. eexists. split; [apply fits4; lia|]. left. reflexivity. }
  destruct D as (d0 & Ed & Nd), Q as (q0 & Eq & Nq).
  pose proof (real_is (fun l => l) d0 (proj1 (dipole_entry_plain _ _ Ed))) as Md.
  pose proof (complex_is (fun l => l) q0 (proj1 (plain_lookup _ _ _ _ (proj2 (proj2 plain_tables)) Eq))) as Mq.
  set (d := real_tensor (fun l => l) d0) in *. set (q := complex_tensor (fun l => l) q0) in *. clearbody d q.
  destruct (C87_sign (fun e => e) (fun e => e) (fun e => e) (fun l => l) (1 # 10) "u" [] "C_3v" "O_h" d0 q0
    d q show read PropertiesForm.id_sound FitProofs5.id_sound)
    as (fs' & file & F & E & EF & LF & M & K & OK & H); auto.
  { intros l. apply Permutation.Permutation_refl. }
  { left; exact Md. }
  { right; exact Mq. }
  { exact read_show. }
  destruct (some_arguments F) as (free & A). pose proof (dark_matching F M K OK) as Ma.
  destruct (H dark free false None [] Ma A) as (lib & G & S).
  exists d0, q0, d, q, fs', file, F, free, lib. repeat (split; [assumption|]). exact S.
Qed.

(* ================================================================== *)
(** * C88: tables whose parameters are not declared real *)

Theorem C88_raw : forall ev ex expand theta prefix fs name d M nd, sound_ev ev -> dipole_entry name d ->
  (* formgen refuses the raw table entry, whatever comes with it *)
  (has_parameter d -> forall e m q, shapes e m q -> e = Some d \/ m = Some d -> formgen ev ex theta e m q = Raise ValueError) /\
  (* so does the Fourier generator *)
  (has_parameter d -> forall q, contracted_dict ev expand prefix fs d q M nd = Raise ValueError) /\
  (* tables without parameters (no signal by symmetry) are accepted as they are *)
  (~ has_parameter d -> exists F, formgen ev ex theta (Some d) None None = Ok F).
Proof.
  intros ev ex expand theta prefix fs name d M nd EV Ed. destruct (dipole_entry_plain name d Ed) as (Pl & Sd).
  assert (N : has_parameter d -> ~ real_params (Some d)).
  { intros (i & s & Fi & Is) R. destruct (Pl i s Is) as (N & _). rewrite (R i s) in N; [discriminate|apply in_indices; exact Fi|exact Is]. }
  split; [|split].
  - intros Hp e m q Sh Or. destruct Sh as (She & Shm & Shq).
    apply (proj2 (formgen_outcome ev ex EV theta e m q She Shm Shq)). intros (Re & Rm & _). apply (N Hp). destruct Or as [-> | ->]; assumption.
  - intros Hp q. apply C50_refuses. intros [R _]. exact (N Hp R).
  - intros Np. apply (proj1 (formgen_outcome ev ex EV theta (Some d) None None Sd I I)).
    split; [|split; [exact I|split; [exact I|intros (X & _); discriminate X]]].
    intros i s Ii Is. exfalso. apply Np. exists i, s. split; [apply in_indices; exact Ii|exact Is].
Qed.
Print Assumptions C88_raw.

Theorem C88_raw_quadrupole : forall ev ex expand theta prefix fs name q M nd, sound_ev ev -> quadrupole name = Ok q -> has_parameter q ->
  (forall e m, shapes e m (Some q) -> formgen ev ex theta e m (Some q) = Raise ValueError) /\
  (forall d, contracted_dict ev expand prefix fs d q M nd = Raise ValueError).
Proof.
  intros ev ex expand theta prefix fs name q M nd EV Eq (i & s & Fi & Is).
  destruct plain_tables as (_ & _ & T3). destruct (plain_lookup _ _ _ _ T3 Eq) as (Pl & Sq).
  assert (N : ~ real_params (Some q)).
  { intros R. destruct (Pl i s Is) as (N & _). rewrite (R i s) in N; [discriminate|apply in_indices; exact Fi|exact Is]. }
  split.
  - intros e m (She & Shm & Shq). apply (proj2 (formgen_outcome ev ex EV theta e m (Some q) She Shm Shq)). intros (_ & _ & Rq & _). exact (N Rq).
  - intros d. apply C50_refuses. intros [_ R]. exact (N R).
Qed.
Print Assumptions C88_raw_quadrupole.

(** After make_tensor_real or make_tensor_complex every table entry is accepted. *)
Theorem C88_prepared : forall ev ex expand order theta prefix fs name name' d0 q0 d q, sound_ev ev -> iterates order ->
  dipole_entry name d0 -> quadrupole name' = Ok q0 -> prepared order d0 d -> prepared order q0 q ->
  (forall me ms mq, me = None \/ me = Some d -> ms = None \/ ms = Some d -> mq = None \/ mq = Some q -> me <> None \/ ms <> None \/ mq <> None ->
   exists F, formgen ev ex theta me ms mq = Ok F) /\
  (exists fs' D, generate_uncontracted_fourier_transforms_symb ev prefix 16 fs = Ok fs' /\ contracted_dict ev expand prefix fs' d q 16 None = Ok D).
Proof.
  intros ev ex expand order theta prefix fs name name' d0 q0 d q EV Ho Ed Eq Pd Pq.
  destruct (dipole_entry_plain name d0 Ed) as (Pl & Sd).
  destruct plain_tables as (_ & _ & T3). destruct (plain_lookup _ _ _ _ T3 Eq) as (Plq & Sq).
  destruct (prepared_ready order d0 d 3 Ho Pl Sd Pd) as (Sd' & Rd & _ & _).
  destruct (prepared_ready order q0 q 4 Ho Plq Sq Pq) as (Sq' & Rq & _ & _).
  split.
  - intros me ms mq Me Ms Mq Or. apply (proj1 (formgen_outcome ev ex EV theta me ms mq
      ltac:(destruct Me as [-> | ->]; [exact I|exact Sd']) ltac:(destruct Ms as [-> | ->]; [exact I|exact Sd']) ltac:(destruct Mq as [-> | ->]; [exact I|exact Sq']))).
    split; [destruct Me as [-> | ->]; [exact I|exact Rd]|]. split; [destruct Ms as [-> | ->]; [exact I|exact Rd]|].
    split; [destruct Mq as [-> | ->]; [exact I|exact Rq]|]. intros (-> & -> & ->). destruct Or as [X|[X|X]]; apply X; reflexivity.
  - destruct (C50_intensity ev expand prefix fs d q EV) as (fs' & row & E & (D & ED & _) & _).
    { split; [exact Sd'|split; [exact Sq'|split; [exact Rd|exact Rq]]]. }
    exists fs', D. auto.
Qed.
Print Assumptions C88_prepared.

(** The dipole table of T has a parameter, that of O_h has none. *)
Example C88_case : (exists d, dipole_entry "T" d /\ has_parameter d) /\ (exists d, dipole_entry "O_h" d /\ ~ has_parameter d).
Proof.
  split.
  - eexists. split; [left; reflexivity|]. exists [0; 1; 2]. eexists. split; [apply fits3; lia|]. left. reflexivity.
  - eexists. split; [left; reflexivity|]. intros (i & s & Fi & Is). apply in_indices in Fi. revert Is.
    cbn in Fi. repeat destruct Fi as [<-|Fi]; try contradiction; cbn; tauto.
Qed.
