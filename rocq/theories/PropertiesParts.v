(** Property C111: which formulas a model function can be generated for. *)
From Coq Require Import String List Arith ZArith Bool Reals QArith Qreals Lra Lia.
From Coquelicot Require Import Complex.
Import ListNotations.
From Verif Require Import PyBase CBase Expr DataModel FDataModel SpecFData FormModel SpecForm FitModel SpecFit FitProofs FitProofs2 FitProofs3 FitProofs4 FitProofs5 FitProofs6 SpecParts PartProofs PropertiesFit DiskModel SpecDisk DiskProofs.
Local Open Scope nat_scope.

(** The model of a formula is generated exactly when sympy leaves no real or
    imaginary part unevaluated; otherwise OSError is raised. *)
Lemma entry_cases kev F n free k r m c : sound_kev kev -> (0 < n)%Z -> formula_ok F -> ff_free_symbols F = Ok free ->
  In (k, r) (ff_rows F) -> In m (freqs (ff_M F)) -> exists e cs, model_expr kev F k m c None = Ok e /\
    model_entry kev F n k m c = if compiles e then Ok cs else Raise OSError.
Proof.
  intros KEV P FO Ef I Jm. destruct (model_expr_good kev KEV F free k r m c FO Ef I Jm) as (e & Ee & _).
  assert (X : exists cs, split_expr e n = Ok cs).
  { destruct e; cbn [split_expr]; eauto. destruct (split_pos l n P) as (ps & -> & _). cbn [bind]. eauto. }
  destruct X as (cs & Ec). exists e, cs. split; [exact Ee|]. unfold model_entry, model_chunks. rewrite Ee. cbn [bind]. rewrite Ec. cbn [bind].
  rewrite (split_compiles e n cs P Ec). reflexivity.
Qed.
Lemma mapM_raises {A B} (f : A -> res B) x l : (forall a, In a l -> (exists b, f a = Ok b) \/ f a = Raise x) ->
  (exists bs, mapM f l = Ok bs) \/ (mapM f l = Raise x /\ exists a, In a l /\ f a = Raise x).
Proof.
  induction l as [|a l IH]; intros H; [left; exists []; reflexivity|]. cbn [mapM].
  destruct (H a (or_introl eq_refl)) as [(b & ->)|E]; cbn [bind].
  - destruct (IH (fun y I => H y (or_intror I))) as [(bs & ->)|(-> & y & I & Ey)]; cbn [bind]; [left; eauto|right]. split; [reflexivity|]. exists y. split; [right; exact I|exact Ey].
  - rewrite E. right. split; [reflexivity|]. exists a. split; [left; reflexivity|exact E].
Qed.
Theorem C111_exact : forall kev F n free, sound_kev kev -> (0 < n)%Z -> formula_ok F -> ff_free_symbols F = Ok free ->
  ((exists x, gen_model_func kev F n = Ok x) <->
   forall k r m imag e, In (k, r) (ff_rows F) -> In m (freqs (ff_M F)) -> model_expr kev F k m imag None = Ok e -> no_parts e) /\
  ((exists x, gen_model_func kev F n = Ok x) \/ gen_model_func kev F n = Raise OSError).
Proof.
  intros kev F n free KEV P FO Ef. pose proof (fun k r m c => entry_cases kev F n free k r m c KEV P FO Ef) as Cs.
  assert (Ro : forall k, In k (ff_get_keys F) -> (exists b, (do r <- model_row kev F n k; Ok (k, r)) = Ok b) \/ ((do r <- model_row kev F n k; Ok (k, r)) = Raise OSError)).
  { intros k Ik. apply in_map_iff in Ik as ((k', r) & E & I). cbn in E. subst k'. unfold model_row.
    destruct (mapM_raises (fun m => do r <- model_entry kev F n k m false; do i <- model_entry kev F n k m true; Ok (m, (r, i))) OSError (freqs (ff_M F))) as [(bs & ->)|(-> & _)].
    - intros m Jm. destruct (Cs k r m false I Jm) as (e & cs & _ & ->). destruct (Cs k r m true I Jm) as (e' & cs' & _ & ->).
      destruct (compiles e); cbn [bind]; [|right; reflexivity]. destruct (compiles e'); cbn [bind]; [left; eauto|right; reflexivity].
    - left. cbn [bind]. eauto.
    - right. reflexivity. }
  assert (Z : (exists x, gen_model_func kev F n = Ok x) \/ gen_model_func kev F n = Raise OSError).
  { unfold gen_model_func, model_rows. destruct (mapM_raises _ OSError (ff_get_keys F) Ro) as [(bs & ->)|(-> & _)]; cbn [bind]; [left; eauto|right; reflexivity]. }
  split; [|exact Z]. split.
  - intros ((fd, fs) & E) k r m c e I Jm Ee. unfold gen_model_func in E. destruct (model_rows kev F n) as [rows|] eqn:Er; cbn [bind] in E; [|discriminate].
    apply model_rows_ok in Er as ((Hk & Hm) & Hv). assert (Ik : In k (map fst rows)) by (rewrite Hk; apply (in_map fst) in I; exact I).
    apply in_map_iff in Ik as ((k', row) & Ek & Ir). cbn in Ek. subst k'. rewrite <- (Hm k row Ir) in Jm. apply in_map_iff in Jm as ((m', (re, im)) & Em & Irow). cbn in Em. subst m'.
    destruct (Hv k row m re im Ir Irow) as (A & B). assert (Jm : In m (freqs (ff_M F))) by (rewrite <- (Hm k row Ir); apply (in_map fst) in Irow; exact Irow).
    destruct (Cs k r m c I Jm) as (e' & cs & Ee' & En). assert (e' = e) as -> by congruence. apply compiles_iff. destruct (compiles e); [reflexivity|]. destruct c; congruence.
  - intros H. destruct Z as [Z|Z]; [exact Z|exfalso]. unfold gen_model_func, model_rows in Z.
    destruct (mapM_raises _ OSError (ff_get_keys F) Ro) as [(bs & Eb)|(_ & k & Ik & Ek)]; [rewrite Eb in Z; discriminate|].
    apply in_map_iff in Ik as ((k', r) & E & I). cbn in E. subst k'. unfold model_row in Ek.
    assert (T : exists l, mapM (fun m => do r <- model_entry kev F n k m false; do i <- model_entry kev F n k m true; Ok (m, (r, i))) (freqs (ff_M F)) = Ok l).
    { apply mapM_total. intros m Jm. destruct (Cs k r m false I Jm) as (e & cs & Ee & ->). destruct (Cs k r m true I Jm) as (e' & cs' & Ee' & ->).
      rewrite (proj2 (compiles_iff e) (H k r m false e I Jm Ee)), (proj2 (compiles_iff e') (H k r m true e' I Jm Ee')). cbn [bind]. eauto. }
    destruct T as (l & T). rewrite T in Ek. discriminate.
Qed.
Print Assumptions C111_exact.

(** The condition of C53_model can be met for all formulas in real parameters at
    once: there is an evaluation, sound as C53 asks, that takes the real and
    imaginary parts of every expression made of numbers, parameters declared real,
    sums, products, powers, conjugates, and cosines and sines of real such
    expressions.  Every such formula has its model. *)
Theorem C111_real : exists kev, sound_kev kev /\ forall F, real_formula F -> parts_taken kev F /\
  forall n free, (0 < n)%Z -> formula_ok F -> ff_free_symbols F = Ok free ->
    exists fd fs, gen_model_func kev F n = Ok (fd, fs) /\
      forall k r m xs rho, In (k, r) (ff_rows F) -> In m (freqs (ff_M F)) -> length free <= length xs -> assigns free xs rho ->
        model_value fd xs k m = Ok (Some (eval rho (fcell (ff_M F) r m))).
Proof.
  exists take_parts. split; [exact take_parts_sound|]. intros F H. pose proof (real_formula_taken F H) as T. split; [exact T|].
  intros n free P FO Ef. exact (model_ok take_parts take_parts_sound F n free P FO T Ef).
Qed.
Print Assumptions C111_real.

(** A parameter that is not declared real: no model, and a saved one is lost. *)
Definition sc : sym := mksym "c" None.
Definition Fundeclared : fform := mkff [("PP"%string, mkrow true [ESym sc])] 0.
Theorem C111_undeclared_refuted : exists kev F, sound_kev kev /\ (forall F, real_formula F -> parts_taken kev F) /\ formula_ok F /\ symbolic F /\
  ff_free_symbols F = Ok [sc] /\
  forall n, gen_model_func kev F n = Raise OSError /\
    forall d, gen_model_disk kev F n (Some "model"%string) d = (dset "model"%string [] d, Raise OSError).
Proof.
  exists take_parts, Fundeclared. split; [exact take_parts_sound|]. split; [exact real_formula_taken|].
  split; [split; [repeat constructor; intros []|cbn; intros k r [E|[]]; injection E as <- <-; reflexivity]|].
  split; [cbn; intros k r [E|[]]; injection E as <- <-; reflexivity|]. split; [reflexivity|]. intros n. split; [reflexivity|]. intros d. reflexivity.
Qed.
Print Assumptions C111_undeclared_refuted.

(** The cost function of the same formula is generated: C, unlike for re and im, has
    conj. *)
Definition Dundeclared : fdat := mkfdat [("PP"%string, [RtoC 2])] 1 (PNum 0) 0.
Example C111_cost_case : exists lib, gen_cost_func take_parts Fundeclared Dundeclared None true None [] = ([], Ok lib) /\ forallb compiles lib = true.
Proof. eexists. split; reflexivity. Qed.
Definition Ftrig : fform := mkff [("PP"%string, mkrow true [EMul [ENum 0 (1 # 2); EPow (EAdd [ESym sa; ENum 0 1]) 2; ECos (ESym sb)]])] 0.
Example C111_case : real_formula Ftrig /\ exists fd fs, gen_model_func take_parts Ftrig 1 = Ok (fd, fs) /\
  model_value fd [1; 0]%R "PP" 0 = Ok (Some (RtoC (-1))).
Proof.
  assert (T : real_formula Ftrig) by (intros k r e [E|[]] I; injection E as <- <-; cbn in I; destruct I as [<-|[]]; reflexivity).
  split; [exact T|]. destruct (model_ok take_parts take_parts_sound Ftrig 1 [sa; sb]) as (fd & fs & E & V).
  { lia. }
  { split; [repeat constructor; intros []|cbn; intros k r [E|[]]; injection E as <- <-; reflexivity]. }
  { exact (real_formula_taken Ftrig T). }
  { reflexivity. }
  exists fd, fs. split; [exact E|].
  rewrite (V "PP"%string (mkrow true [EMul [ENum 0 (1 # 2); EPow (EAdd [ESym sa; ENum 0 1]) 2; ECos (ESym sb)]]) 0%Z [1; 0]%R (reading [sa; sb] [1; 0]%R) (or_introl eq_refl) (or_introl eq_refl) (le_n 2)).
  - do 2 f_equal. cbn -[Ccos]. change (reading [sa; sb] [1; 0]%R sb) with (RtoC 0). rewrite FormProofs.Ccos_R, cos_0.
    apply C_ext; unfold Re, Im; simpl; unfold Q2R; simpl; lra.
  - apply reading_assigns; [repeat constructor; cbn; intuition discriminate|cbn; lia].
Qed.
