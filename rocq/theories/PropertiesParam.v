(** Property C94: which parameters a generated formula and a fit have.  Beside each
    theorem a concrete case. *)
From Coq Require Import String List Arith ZArith Bool Lia Reals QArith Permutation.
From Coquelicot Require Import Complex.
Import ListNotations.
From Verif Require Import PyBase CBase Expr ExprProofs SpecForm FormModel FormProofs2 TensorInst TensorProofs UtilModel SpecUtil SpecFormgen FormgenModel
  FformgenModel SpecFformgen TensorDefs SpecGroups FormgenProofs4 FormgenThms FormgenThms2 FormgenTables PropertiesFformgen PropertiesFormgen
  SpecPhys PhysThms FitModel SpecFit FitProofs5 PropertiesForm PropertiesFit DataModel FDataModel Printer SpecSym PropertiesSym
  ParamModel SpecParam ParamProofs ParamProofs2 ParamProofs4.
From Verif Require Import SpecTensor TensorModel.
Local Open Scope nat_scope.

(** Formulas of the angle: only the parameters of the tensors, the angle of the
    sample and what the angle of incidence is written with. *)
Theorem C94_formgen : forall ev ex theta e m q F s, sound_ev ev -> sound_ev ex ->
  formgen ev ex theta e m q = Ok F -> form_occurs F s ->
  mentions_opt e s \/ mentions_opt m s \/ mentions_opt q s \/ s = phi \/ In s (syms theta).
Proof.
  intros ev ex theta e m q F s EV EX E O.
  refine (in_formgen ev ex EV EX (fun s => mentions_opt e s \/ mentions_opt m s \/ mentions_opt q s \/ s = phi \/ In s (syms theta)) theta
    _ _ e m q F _ _ _ E s O).
  - intros x Ix. tauto.
  - tauto.
  - intros u ->. apply (inside_weaken (mentions u)); [cbn; tauto|apply mentions_inside].
  - intros u ->. apply (inside_weaken (mentions u)); [cbn; tauto|apply mentions_inside].
  - intros u ->. apply (inside_weaken (mentions u)); [cbn; tauto|apply mentions_inside].
Qed.
Print Assumptions C94_formgen.

(** Fourier formulas, whatever the number of digits kept. *)
Theorem C94_generated : forall ev expand srepr parse aoi prefix M M' nd fs fs' d q file F s, sound_ev ev -> sound_ev expand ->
  (forall e, parse (srepr e) = Ok e) ->
  generate_uncontracted_fourier_transforms ev aoi prefix M fs = Ok fs' ->
  generate_contracted_fourier_transforms ev expand srepr prefix fs' d q M' nd = Ok file -> load_fform parse file = Ok F ->
  ff_occurs F s -> mentions d s \/ mentions q s.
Proof.
  intros ev expand srepr parse aoi prefix M M' nd fs fs' d q file F s EV EX Pa E EF L O.
  pose proof (loaded_symbols ev expand EV EX (fun _ => False) srepr parse prefix fs' d q M' nd file F Pa (stored_num ev EV aoi prefix M fs fs' E) EF L s O). tauto.
Qed.
Print Assumptions C94_generated.

Theorem C94_generated_symbolic : forall ev expand srepr parse prefix M M' nd fs fs' d q file F s, sound_ev ev -> sound_ev expand ->
  (forall e, parse (srepr e) = Ok e) ->
  generate_uncontracted_fourier_transforms_symb ev prefix M fs = Ok fs' ->
  generate_contracted_fourier_transforms ev expand srepr prefix fs' d q M' nd = Ok file -> load_fform parse file = Ok F ->
  ff_occurs F s -> mentions d s \/ mentions q s \/ s = theta_sym.
Proof.
  intros ev expand srepr parse prefix M M' nd fs fs' d q file F s EV EX Pa E EF L O.
  exact (loaded_symbols ev expand EV EX (fun s => s = theta_sym) srepr parse prefix fs' d q M' nd file F Pa (stored_symb ev EV prefix M fs fs' E) EF L s O).
Qed.
Print Assumptions C94_generated_symbolic.

Lemma append_nil : forall x, (x ++ "")%string = x.
Proof. induction x as [|c x IH]; [reflexivity|]. change (String c (x ++ "") = String c x)%string. f_equal. exact IH. Qed.

(** The tables: a real parameter for every one of the table, two with the given
    prefixes and suffixes for a complex one; no others. *)
Theorem C94_tables : forall order t, iterates order -> (exists name, dipole_entry name t \/ quadrupole name = Ok t) ->
  exists u v, make_tensor_real order t = Ok u /\ make_tensor_complex order ("real_", "imag_")%string ("", "")%string t = Ok v /\
  forall s,
  (mentions u s <-> exists s0, mentions t s0 /\ s = map_to_real s0) /\
  (mentions v s <-> exists s0, mentions t s0 /\ (s = mksym ("real_" ++ sname s0) (Some true) \/ s = mksym ("imag_" ++ sname s0) (Some true))%string).
Proof.
  intros order t Ho (name & E).
  assert (K : exists n, FormgenTables.plain t /\ shape t = repeat 3 n).
  { destruct E as [E|E]; [exists 3; exact (dipole_entry_plain name t E)|exists 4]. destruct plain_tables as (_ & _ & T3). exact (plain_lookup _ _ _ _ T3 E). }
  destruct K as (n & P & S). exists (real_tensor order t), (complex_tensor order t). split; [exact (real_is order t P)|].
  split; [exact (complex_is order t P)|]. intros s. split; [apply (real_mentions order t n s); assumption|].
  rewrite (complex_mentions order t n s Ho P S).
  pose proof append_nil as R.
  split; intros (s0 & M & H); exists s0; [rewrite !R in H|rewrite !R]; auto.
Qed.
Print Assumptions C94_tables.

(** A fit of two table entries made real: a guess for every parameter of the tables
    is enough, and the answer names no other parameter. *)
Theorem C94_fit : forall ev expand kev order srepr parse aoi prefix nd fs fs' name name' d0 q0 d q file F free D guess kw lfs,
  sound_ev ev -> sound_ev expand -> sound_kev kev -> iterates order -> (forall e, parse (srepr e) = Ok e) ->
  dipole_entry name d0 -> quadrupole name' = Ok q0 ->
  make_tensor_real order d0 = Ok d -> make_tensor_real order q0 = Ok q ->
  generate_uncontracted_fourier_transforms ev aoi prefix 16 fs = Ok fs' ->
  generate_contracted_fourier_transforms ev expand srepr prefix fs' d q 16 nd = Ok file ->
  load_fform parse file = Ok F -> ff_free_symbols F = Ok free ->
  (forall s, In s free -> exists s0, (mentions d0 s0 \/ mentions q0 s0) /\ s = map_to_real s0) /\
  (free <> [] -> matching F D -> (forall s0, mentions d0 s0 \/ mentions q0 s0 -> exists v, dget (map_to_real s0) guess = Some v) ->
   dget "fun"%string kw = None -> dget "x0"%string kw = None ->
   exists x0 obj, in_order free guess x0 /\ computes_root F D free obj /\ forall optimiser x,
     optimiser (Scalar obj) x0 None [] kw = Ok x -> length x = length free ->
     exists xd, snd (least_squares_fit kev optimiser F D guess None false None None kw lfs) = Ok (Fitted x xd) /\
       forall s v, In (s, v) xd -> exists s0, (mentions d0 s0 \/ mentions q0 s0) /\ s = map_to_real s0).
Proof.
  intros ev expand kev order srepr parse aoi prefix nd fs fs' name name' d0 q0 d q file F free D guess kw lfs EV EX KEV Ho Pa Ed Eq Md Mq E EF L Ef.
  assert (A : forall s, In s free -> exists s0, (mentions d0 s0 \/ mentions q0 s0) /\ s = map_to_real s0).
  { intros s I. apply (free_symbols_in F free s Ef) in I.
    destruct (C94_generated ev expand srepr parse aoi prefix 16 16 nd fs fs' _ _ file F s EV EX Pa E EF L I) as [M|M].
    - destruct (C94_tables order d0 Ho) as (u & v & Eu & _ & T); [exists name; auto|]. rewrite Md in Eu. injection Eu as <-.
      apply T in M. destruct M as (s0 & M & ->). eauto.
    - destruct (C94_tables order q0 Ho) as (u & v & Eu & _ & T); [exists name'; auto|]. rewrite Mq in Eu. injection Eu as <-.
      apply T in M. destruct M as (s0 & M & ->). eauto. }
  split; [exact A|]. intros NE Ma G K1 K2.
  assert (X : exists x0, in_order free guess x0).
  { unfold in_order. clear Ef NE. induction free as [|s free IH]; [exists []; constructor|].
    destruct IH as (x0 & H); [intros; apply A; simpl; auto|]. destruct (A s (or_introl eq_refl)) as (s0 & M & ->).
    destruct (G s0 M) as (v & Hv). exists (v :: x0). constructor; assumption. }
  destruct X as (x0 & Hx).
  destruct (C55_least_squares kev F D guess None false None kw lfs free x0 None KEV Ma Ef NE Hx eq_refl) as (lib & obj & _ & Co & H).
  { intros n [<-|[<-|[]]]; assumption. }
  exists x0, obj. split; [exact Hx|]. split; [exact Co|]. intros optimiser x Ex Lx. exists (combine free x).
  split; [rewrite (proj1 (H optimiser) x Ex Lx); reflexivity|]. intros s v I. apply A. exact (in_combine_l _ _ _ _ I).
Qed.
Print Assumptions C94_fit.

(** C_3v dipole and O_h quadrupole, measured dark everywhere: the parameters of the
    formula are among those of the two tables, and a fit with the guess 1 for each
    of them runs. *)
Example C94_case : exists d0 q0 d q fs' file F free, dipole_entry "C_3v" d0 /\ quadrupole "O_h" = Ok q0 /\
  make_tensor_real (fun l => l) d0 = Ok d /\ make_tensor_real (fun l => l) q0 = Ok q /\ has_parameter d0 /\ has_parameter q0 /\
  generate_uncontracted_fourier_transforms (fun e => e) (1 # 10) "u" 16 [] = Ok fs' /\
  generate_contracted_fourier_transforms (fun e => e) (fun e => e) show "u" fs' d q 16 None = Ok file /\
  load_fform read file = Ok F /\ ff_free_symbols F = Ok free /\ matching F dark /\
  (forall s, In s free -> exists s0, (mentions d0 s0 \/ mentions q0 s0) /\ s = map_to_real s0) /\
  (exists guess : list (sym * R), forall s0, mentions d0 s0 \/ mentions q0 s0 -> dget (map_to_real s0) guess = Some 1%R).
Proof.
  assert (D : exists d0, dipole_entry "C_3v" d0 /\ has_parameter d0).
  { eexists. split; [left; reflexivity|]. exists [2; 2; 2]. eexists. split; [apply fits3; lia|]. left. reflexivity. }
  assert (Q : exists q0, quadrupole "O_h" = Ok q0 /\ has_parameter q0).
  { eexists. split; [reflexivity|]. exists [0; 0; 0; 0]. eexists. split; [apply fits4; lia|]. left. reflexivity. }
  destruct D as (d0 & Ed & Nd), Q as (q0 & Eq & Nq).
  assert (Ho : iterates (fun l => l)) by (intros l; apply Permutation_refl).
  pose proof (real_is (fun l => l) d0 (proj1 (dipole_entry_plain _ _ Ed))) as Md.
  pose proof (real_is (fun l => l) q0 (proj1 (plain_lookup _ _ _ _ (proj2 (proj2 plain_tables)) Eq))) as Mq.
  set (d := real_tensor (fun l => l) d0) in *. set (q := real_tensor (fun l => l) q0) in *. clearbody d q.
  destruct (C87_sign (fun e => e) (fun e => e) (fun e => e) (fun l => l) (1 # 10) "u" [] "C_3v" "O_h" d0 q0
    d q show read PropertiesForm.id_sound FitProofs5.id_sound Ho Ed Eq
    (or_introl Md) (or_introl Mq) read_show) as (fs' & file & F & E & EF & LF & M & K & OK & _).
  destruct (FitProofs3.symbolic_free F) as (free & Ef); [exact (loaded_symbolic _ _ show read _ _ _ _ _ _ file F read_show EF LF)|].
  exists d0, q0, d, q, fs', file, F, free. repeat (split; [assumption|]).
  split; [apply dark_matching; assumption|]. split.
  - exact (proj1 (C94_fit (fun e => e) (fun e => e) (fun e => e) (fun l => l) show read (1 # 10) "u" None [] fs' "C_3v" "O_h" d0 q0 d q file F free dark [] [] []
      PropertiesForm.id_sound PropertiesForm.id_sound FitProofs5.id_sound Ho read_show Ed Eq Md Mq E EF LF Ef)).
  - set (l := map map_to_real (flat_map (fun i => syms (at_ d0 i)) (indices (shape d0)) ++ flat_map (fun i => syms (at_ q0 i)) (indices (shape q0)))%list).
    exists (map (fun s => (s, 1%R)) l). intros s0 H.
    assert (I : In (map_to_real s0) l).
    { apply in_map, in_or_app. destruct H as [(i & Fi & I)|(i & Fi & I)]; [left|right]; apply in_flat_map; exists i; (split; [apply in_indices; exact Fi|exact I]). }
    clearbody l. clear H. induction l as [|s l IH]; [destruct I|]. cbn [map dget fst snd].
    destruct (eqb_spec (map_to_real s0) s) as [_|N]; [reflexivity|]. apply IH. destruct I as [->|I]; [congruence|exact I].
Qed.
