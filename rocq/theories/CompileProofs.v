(** Proofs for C134: formulas whose cost can be compiled. *)
From Coq Require Import String List Arith ZArith Bool Lia Reals.
From Coquelicot Require Import Complex.
Import ListNotations.
From Verif Require Import PyBase DataProofs2 CBase Expr ExprProofs SpecForm SpecFData FDataModel FormModel FormProofs3 FitModel SpecFit FitProofs FitProofs2 FitProofs3 FitProofs5
  CompileModel SpecCompile.
Local Open Scope nat_scope.

Lemma no_parts_all l : Forall no_parts l -> fold_right (fun a P => no_parts a /\ P) True l.
Proof. induction 1; cbn; auto. Qed.
Lemma whole_all l : fold_right (fun a P => whole a /\ P) True l -> Forall whole l.
Proof. induction l as [|a l IH]; cbn; [constructor|]. intros [H T]. constructor; auto. Qed.
Lemma no_parts_list l : fold_right (fun a P => no_parts a /\ P) True l -> Forall no_parts l.
Proof. induction l as [|a l IH]; cbn; [constructor|]. intros [H T]. constructor; auto. Qed.
Lemma embed_whole e : whole e -> no_parts (embed e).
Proof.
  induction e as [a b|s|l IH|l IH|b n IH|e IH|e IH|e IH|e IH|e IH] using expr_ind'; cbn [whole embed no_parts]; try tauto;
    intros W; apply no_parts_all; apply whole_all in W; apply Forall_map; rewrite Forall_forall in *; intros a I; apply IH; auto.
Qed.
Lemma xreplace_no_parts mp e : no_parts e -> no_parts (xreplace mp e).
Proof.
  induction e as [z|s|i|l IH|l IH|b n IH|e IH|e IH|e IH|e IH|e IH] using code_deep; cbn [no_parts xreplace]; try tauto.
  - destruct (dget s mp); exact (fun _ => Logic.I).
  - intros W. apply no_parts_all. apply no_parts_list in W. apply Forall_map. rewrite Forall_forall in *. intros a I. apply IH; auto.
  - intros W. apply no_parts_all. apply no_parts_list in W. apply Forall_map. rewrite Forall_forall in *. intros a I. apply IH; auto.
Qed.

Section Compile.
Variable kev : code -> code.
Hypothesis BN : brings_none kev.

Lemma term_no_parts F D mp k m t : whole_formula F -> term kev F D mp k m = Ok t -> no_parts t.
Proof.
  intros W E. unfold term in E. destruct (ff_get_pc F k) as [fr|] eqn:Ef; cbn [bind] in E; [|discriminate].
  destruct (py_nth fr (m + Z.of_nat (ff_M F))) as [e|] eqn:Ee; cbn [bind] in E; [|discriminate].
  destruct (fget_pc D k) as [dr|]; cbn [bind] in E; [|discriminate]. destruct (py_nth dr (m + Z.of_nat (ff_M F))) as [d|]; cbn [bind] in E; [|discriminate].
  injection E as <-. unfold ff_get_pc, dgetr in Ef. destruct (dget k (ff_rows F)) as [r|] eqn:Er; [|discriminate]. cbn [bind] in Ef. injection Ef as <-.
  assert (We : whole e) by (apply (W k r e); [exact (dget_In _ _ _ Er)|exact (py_nth_In _ _ _ Ee)]).
  assert (N0 : no_parts (kev (KAdd [embed e; KMul [KNum (RtoC (-1)); KNum d]]))) by (apply BN; cbn; repeat split; apply embed_whole; exact We).
  apply BN, xreplace_no_parts, BN. cbn [no_parts fold_right]. repeat split; [exact N0|]. apply BN. exact N0.
Qed.
Lemma terms_no_parts F D free ts n : whole_formula F -> terms kev F D free = Ok (ts, n) -> Forall no_parts ts.
Proof.
  intros W E. unfold terms in E. destruct (symbols_or F free) as [l|]; cbn [bind] in E; [|discriminate].
  destruct (mapM _ _) as [ts'|] eqn:Em in E; cbn [bind] in E; [|discriminate]. injection E as <- _. apply Forall_forall. intros t I.
  destruct (mapM_In _ _ _ t Em I) as ((k & m) & _ & Et). exact (term_no_parts F D _ k m t W Et).
Qed.
Lemma cost_no_parts F D free chunk save fs fs' lib : whole_formula F -> gen_cost_func kev F D free chunk save fs = (fs', Ok lib) -> forallb compiles lib = true.
Proof.
  intros W E. assert (X : Forall no_parts lib).
  { unfold gen_cost_func in E. destruct chunk.
    - destruct (terms kev F D free) as [(ts, n)|] eqn:Et; [|discriminate]. unfold chunked in E. destruct (forallb _ ts); [|discriminate].
      destruct ts as [|t ts]; [destruct save; discriminate|]. injection E as _ <-. exact (terms_no_parts F D free _ n W Et).
    - unfold energy_expr in E. destruct (terms kev F D free) as [(ts, n)|] eqn:Et; cbn [bind] in E; [|discriminate]. unfold autowrap in E.
      injection E as _ <-. constructor; [|constructor]. pose proof (terms_no_parts F D free _ n W Et) as Ft. clear Et.
      assert (H : forall a, no_parts a -> no_parts (fold_left (fun acc t => kev (KAdd [acc; t])) ts a)).
      { induction Ft as [|t ts Nt _ IH]; intros a Na; [exact Na|]. cbn [fold_left]. apply IH, BN. cbn. auto. }
      apply H. exact Logic.I. }
  apply forallb_forall. rewrite Forall_forall in X. intros e I. apply compiles_iff. exact (X e I).
Qed.
End Compile.

Lemma dget_dremove_eq (k : string) (d : list (string * list code)) : wf_dict d -> dget k (dremove k d) = None.
Proof.
  intros W. induction d as [|(a, v) d IH]; [reflexivity|]. unfold wf_dict in W. cbn [map fst] in W. inversion W as [|x l N W']; subst. cbn [dremove].
  destruct (eqb_spec k a) as [->|N'].
  - destruct (dget a d) as [v'|] eqn:E; [|reflexivity]. exfalso. apply N. apply dget_In in E. apply (in_map fst) in E. exact E.
  - cbn [dget]. rewrite eqb_neq by exact N'. apply IH. exact W'.
Qed.
Lemma cost_saves kev F D free chunk save fs fs' lib : gen_cost_func kev F D free chunk save fs = (fs', Ok lib) -> fs' = save_lib save lib fs.
Proof.
  unfold gen_cost_func. destruct chunk.
  - destruct (terms kev F D free) as [(ts, n)|]; [|discriminate]. unfold chunked. destruct (forallb _ ts); [|discriminate].
    destruct ts as [|t ts]; [destruct save; discriminate|]. intros E. injection E as <- <-. reflexivity.
  - destruct (energy_expr kev F D free) as [(e, n)|]; [|discriminate]. unfold autowrap. intros E. injection E as <- <-. reflexivity.
Qed.
Lemma compiled_outcome kev strict F D free chunk save fs fs' r : wf_dict fs -> gen_cost_compiled kev strict F D free chunk save fs = (fs', r) ->
  (exists lib, r = Ok lib /\ forallb compiles lib = true /\ gen_cost_func kev F D free chunk save fs = (fs', Ok lib) /\
     forall name, save = Some name -> load_compiled name fs' = Ok lib) \/
  (exists e, r = Raise e /\ gen_cost_func kev F D free chunk save fs = (fs', Raise e)) \/
  (exists e lib, r = Raise e /\ os_error e /\ snd (gen_cost_func kev F D free chunk save fs) = Ok lib /\ forallb compiles lib = false /\
     (forall name, save = Some name -> load_compiled name fs' = Raise OSError) /\ forall other, save <> Some other -> dget other fs' = dget other fs).
Proof.
  intros Wf. unfold gen_cost_compiled. destruct (gen_cost_func kev F D free chunk save fs) as (fs1, [lib|e]) eqn:G.
  2:{ intros E. injection E as <- <-. right; left. eauto. }
  pose proof (cost_saves _ _ _ _ _ _ _ _ _ G) as S. destruct (forallb compiles lib) eqn:C.
  - intros E. injection E as <- <-. left. exists lib. repeat split; try assumption. intros name ->. subst fs1. unfold load_compiled, load_func. cbn [save_lib].
    rewrite dget_dset_eq. cbn [bind]. rewrite C. reflexivity.
  - intros E. right; right. destruct strict.
    + destruct save as [f|]; injection E as <- <-.
      * exists FileNotFoundError, lib. split; [reflexivity|]. split; [right; reflexivity|]. split; [reflexivity|]. split; [exact C|]. split.
        -- intros name X. injection X as <-. unfold load_compiled, load_func. rewrite dget_dremove_eq by exact Wf. reflexivity.
        -- intros o N. apply dget_dremove_neq. congruence.
      * exists OSError, lib. split; [reflexivity|]. split; [left; reflexivity|]. split; [reflexivity|]. split; [exact C|]. split; [discriminate|reflexivity].
    + injection E as <- <-. exists OSError, lib. split; [reflexivity|]. split; [left; reflexivity|]. split; [reflexivity|]. split; [exact C|]. subst fs1. split.
      * intros name ->. unfold load_compiled, load_func. cbn [save_lib]. rewrite dget_dset_eq. cbn [bind]. rewrite C. reflexivity.
      * intros o N. destruct save as [f|]; [|reflexivity]. cbn [save_lib]. apply dget_dset_neq. congruence.
Qed.
